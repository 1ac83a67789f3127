(** Shared Python-level notions used by the model: exceptions as values,
    dictionaries, and integer operators. *)
From Coq Require Export ZArith Bool String Ascii Lia.
From Coq Require Export List.
Export ListNotations.
Open Scope Z_scope.
Open Scope list_scope.

(** Exceptions that the modelled code can raise.  [FloatResult] is not a Python
    exception: it marks the places where the real program would continue with a
    float, which this model does not represent. *)
Inductive exn : Type :=
| EvaluationError          (* expression.py:24 *)
| ZeroDivisionError
| NameError
| TypeError
| ValueError
| KeyError
| IndexError
| AttributeError
| RuntimeError
| SyntaxError
| FloatResult.

Inductive res (A : Type) : Type :=
| Ok (a : A)
| Err (e : exn).
Arguments Ok {A} a.
Arguments Err {A} e.

Definition bind {A B} (r : res A) (f : A -> res B) : res B :=
  match r with Ok a => f a | Err e => Err e end.

Notation "'let!' x ':=' r 'in' k" := (bind r (fun x => k))
  (at level 200, x pattern, r at level 100, k at level 200, right associativity).

Fixpoint mapM {A B} (f : A -> res B) (l : list A) : res (list B) :=
  match l with
  | [] => Ok []
  | a :: l' => let! b := f a in let! bs := mapM f l' in Ok (b :: bs)
  end.

(** Python bools are ints: [True == 1], [False == 0]. *)
Definition b2z (b : bool) : Z := if b then 1 else 0.

(** [bool(v)] for an int. *)
Definition truthy (v : Z) : bool := negb (v =? 0).

(** Python [//] and [%] on ints: floor semantics, as Coq's [Z.div]/[Z.modulo]
    for a non-zero divisor; zero divisor raises. *)
Definition py_floordiv (a b : Z) : res Z :=
  if b =? 0 then Err ZeroDivisionError else Ok (a / b).
Definition py_mod (a b : Z) : res Z :=
  if b =? 0 then Err ZeroDivisionError else Ok (a mod b).
(** Python [**] on ints: a negative exponent gives a float (or raises for base 0). *)
Definition py_pow (a b : Z) : res Z :=
  if b <? 0 then (if a =? 0 then Err ZeroDivisionError else Err FloatResult)
  else Ok (a ^ b).

(** Insertion-ordered dictionaries keyed by strings. *)
Definition name := string.
Bind Scope string_scope with name.
Definition dict (A : Type) := list (name * A).

Fixpoint dget {A} (d : dict A) (x : name) : option A :=
  match d with
  | [] => None
  | (y, a) :: d' => if String.eqb x y then Some a else dget d' x
  end.

Definition dmem {A} (d : dict A) (x : name) : bool :=
  match dget d x with Some _ => true | None => false end.

(** [d[x] = a]: keeps the position of an existing key, appends a new one. *)
Fixpoint dset {A} (d : dict A) (x : name) (a : A) : dict A :=
  match d with
  | [] => [(x, a)]
  | (y, b) :: d' => if String.eqb x y then (y, a) :: d' else (y, b) :: dset d' x a
  end.

(** [d.pop(x)] / [d.pop(x, None)]. *)
Fixpoint ddel {A} (d : dict A) (x : name) : dict A :=
  match d with
  | [] => []
  | (y, b) :: d' => if String.eqb x y then d' else (y, b) :: ddel d' x
  end.

Definition dkeys {A} (d : dict A) : list name := map fst d.

(** [collections.defaultdict] access. *)
Definition dget_or {A} (d : dict A) (x : name) (dflt : A) : A :=
  match dget d x with Some a => a | None => dflt end.

Definition memb (x : name) (l : list name) : bool := existsb (String.eqb x) l.

(** Order-preserving de-duplication ([if var not in vlist: vlist.append(var)]). *)
Fixpoint dedup_acc (seen : list name) (l : list name) : list name :=
  match l with
  | [] => seen
  | x :: l' => if memb x seen then dedup_acc seen l' else dedup_acc (seen ++ [x]) l'
  end.
Definition dedup (l : list name) : list name := dedup_acc [] l.

(** Substitutions passed to [evaluate]. *)
Definition subst := dict Z.
