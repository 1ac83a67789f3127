(** Specification: how Python reads expressions made of ints, strs and calls, and what [repr] of
    an expression should say. *)
From Verif Require Import SpecDemo SpecSafe Repr.
From Coq Require Import List ZArith String Ascii.
Import ListNotations.
Open Scope string_scope.
Open Scope Z_scope.

(** ** Ints: decimal digits without leading zeros, possibly after a minus sign. *)
Definition digit (c : ascii) : option Z :=
  let n := Z.of_nat (nat_of_ascii c) in if (48 <=? n) && (n <=? 57) then Some (n - 48) else None.
Fixpoint number (acc : Z) (t : string) : option Z :=
  match t with
  | "" => Some acc
  | String c t' => match digit c with Some d => number (10 * acc + d) t' | None => None end
  end.
Definition natural (n : Z) (t : string) : Prop :=
  number 0 t = Some n /\ (t = "0" \/ exists c u, t = String c u /\ c <> "0"%char).
Definition int_text (z : Z) (t : string) : Prop :=
  natural z t \/ exists u, t = String "-" u /\ natural (- z) u.

(** ** Expressions.  [reads T t]: the text [t] is the expression [T]. *)
Inductive reads : pytree -> string -> Prop :=
| reads_int z t : int_text z t -> reads (TInt z) t
| reads_text s t : literal t s -> reads (TText s) t
| reads_call f args ts const tc : identifier f = true -> reads_all args ts ->
    match const with None => tc = [] | Some z => exists t, int_text z t /\ tc = ["const=" ++ t] end ->
    reads (TCall f args const) (f ++ "(" ++ sjoin ", " (ts ++ tc) ++ ")")
with reads_all : list pytree -> list string -> Prop :=
| reads_nil : reads_all [] []
| reads_cons T t Ts ts : reads T t -> reads_all Ts ts -> reads_all (T :: Ts) (t :: ts).

(** ** Expressions of the library *)
(** The names are ASCII and [kind] says which of them are parameters, and which. *)
Inductive named (kind : name -> option nat) : expr -> Prop :=
| n_const z : named kind (Const z)
| n_var x : ascii_only x -> kind x = None -> named kind (Var x)
| n_param p x : ascii_only x -> kind x = Some p -> named kind (Param p x)
| n_neg e : named kind e -> named kind (Neg e)
| n_abs e : named kind e -> named kind (Abs e)
| n_not e : named kind e -> named kind (Not e)
| n_bin o l r : named kind l -> named kind r -> named kind (Bin o l r)
| n_sum es c : Forall (named kind) es -> named kind (Sum es c)
| n_prod es c : Forall (named kind) es -> named kind (Prod es c).

(** [inside e' e]: [e'] is [e] or a part of it. *)
Inductive inside : expr -> expr -> Prop :=
| i_self e : inside e e
| i_neg e' e : inside e' e -> inside e' (Neg e)
| i_abs e' e : inside e' e -> inside e' (Abs e)
| i_not e' e : inside e' e -> inside e' (Not e)
| i_left e' o l r : inside e' l -> inside e' (Bin o l r)
| i_right e' o l r : inside e' r -> inside e' (Bin o l r)
| i_sum e' e es c : In e es -> inside e' e -> inside e' (Sum es c)
| i_prod e' e es c : In e es -> inside e' e -> inside e' (Prod es c).

(** No sums, products (with more than two elements, Sum and Prod objects) or parameters. *)
Definition callable (e : expr) : Prop :=
  forall e', inside e' e -> match e' with Param _ _ | Sum _ _ | Prod _ _ => False | _ => True end.
(** Every Sum and Prod object has at least two elements. *)
Definition several (e : expr) : Prop :=
  forall e', inside e' e -> match e' with Sum es _ | Prod es _ => (2 <= List.length es)%nat | _ => True end.

(** Constraints with such expressions; all-different constraints are sets of names. *)
Definition named_body (kind : name -> option nat) (c : cbody) : Prop :=
  match c with CConst _ => True | CExpr e => named kind e | CAllDiff xs => Forall ascii_only xs end.
Definition same_body (c c' : cbody) : Prop :=
  match c, c' with
  | CAllDiff xs, CAllDiff ys => forall x, In x xs <-> In x ys
  | _, _ => c = c'
  end.
