(** Specification: what a formula written by the user means, independently of
    how the library represents, simplifies or evaluates it. *)
From Verif Require Import Py Expr.

(** A total assignment of ints to variable names, and to parameter objects. *)
Definition assignment := name -> Z.

(** Integer meaning of the binary operators; [None] = undefined.
    "/" and "//" are floor division, "&"/"|" are Python's [and]/[or]. *)
Definition arith (u : uop) (a b : Z) : option Z :=
  match u with
  | UAdd => Some (a + b)
  | USub => Some (a - b)
  | UMul => Some (a * b)
  | UDiv | UFloorDiv => if b =? 0 then None else Some (a / b)
  | UMod => if b =? 0 then None else Some (a mod b)
  | UPow => if b <? 0 then None else Some (a ^ b)
  | UEq => Some (if a =? b then 1 else 0)
  | UNe => Some (if a =? b then 0 else 1)
  | ULt => Some (if a <? b then 1 else 0)
  | ULe => Some (if a <=? b then 1 else 0)
  | UGt => Some (if b <? a then 1 else 0)
  | UGe => Some (if b <=? a then 1 else 0)
  | UAnd => Some (if a =? 0 then a else b)
  | UOr => Some (if a =? 0 then b else a)
  end.

(** User formulas. [FSum] is Python's builtin [sum([...])]. *)
Inductive formula : Type :=
| FInt (n : Z)
| FVar (x : name)
| FPar (p : nat) (x : name)
| FNeg (f : formula)
| FAbs (f : formula)
| FBin (u : uop) (f g : formula)
| FSum (fs : list formula).

Definition is01 (a : Z) : bool := (a =? 0) || (a =? 1).

(** Mathematical meaning.  "&" and "|" are only given a meaning on truth values
    0/1 (see C02 for the operator-level statement on arbitrary values). *)
Fixpoint meaning (ps : nat -> Z) (a : assignment) (f : formula) : option Z :=
  match f with
  | FInt n => Some n
  | FVar x => Some (a x)
  | FPar p _ => Some (ps p)
  | FNeg g => match meaning ps a g with Some v => Some (- v) | None => None end
  | FAbs g => match meaning ps a g with Some v => Some (Z.abs v) | None => None end
  | FBin u g h =>
      match meaning ps a g, meaning ps a h with
      | Some v, Some w =>
          match u with
          | UAnd | UOr => if is01 v && is01 w then arith u v w else None
          | _ => arith u v w
          end
      | _, _ => None
      end
  | FSum gs =>
      (fix go (l : list formula) : option Z :=
         match l with
         | [] => Some 0
         | g :: l' => match meaning ps a g, go l' with
                      | Some v, Some w => Some (v + w)
                      | _, _ => None
                      end
         end) gs
  end.

(** Names of the variables occurring in a formula. *)
Fixpoint fvars (f : formula) : list name :=
  match f with
  | FInt _ | FPar _ _ => []
  | FVar x => [x]
  | FNeg g | FAbs g => fvars g
  | FBin _ g h => fvars g ++ fvars h
  | FSum gs => flat_map fvars gs
  end.

(** Running the Python source of a formula: every operator is the overloaded
    one of the library (model side: [py_op], [py_neg], [py_abs], [sum]). *)
Fixpoint build (f : formula) : res operand :=
  match f with
  | FInt n => Ok (OInt n)
  | FVar x => Ok (OExpr (Var x))
  | FPar p x => Ok (OExpr (Param p x))
  | FNeg g => let! o := build g in Ok (py_neg o)
  | FAbs g => let! o := build g in Ok (py_abs o)
  | FBin u g h => let! a := build g in let! b := build h in py_op u a b
  | FSum gs =>
      (fix go (acc : operand) (l : list formula) : res operand :=
         match l with
         | [] => Ok acc
         | g :: l' => let! o := build g in let! a := py_op UAdd acc o in go a l'
         end) (OInt 0) gs
  end.

(** Value of an operand under a substitution: an int is itself. *)
Definition oval (ps : pstore) (s : subst) (o : operand) : res Z :=
  match o with OInt n => Ok n | OExpr e => evaluate ps s e end.

(** A substitution (dict) that gives the names in [xs] their values under [a]. *)
Definition binds (s : subst) (a : assignment) (xs : list name) : Prop :=
  forall x, In x xs -> dget s x = Some (a x).

(** The formula certainly builds an Expression object (rather than a Python int):
    arithmetic on at least one variable, parameter or such a formula. *)
Fixpoint surely_expr (f : formula) : bool :=
  match f with
  | FInt _ => false
  | FVar _ | FPar _ _ => true
  | FNeg g | FAbs g => surely_expr g
  | FBin u g h =>
      match u with
      | UAdd | USub | UMul | UMod | UPow => surely_expr g || surely_expr h
      | UDiv => surely_expr g
      | _ => false
      end
  | FSum gs => existsb surely_expr gs
  end.

(** Every division in the formula is [expr / something], the only form that the
    library supports ([n / expr] and [//] are the subject of C08). *)
Fixpoint div_ok (f : formula) : bool :=
  match f with
  | FInt _ | FVar _ | FPar _ _ => true
  | FNeg g | FAbs g => div_ok g
  | FBin u g h =>
      match u with UDiv => surely_expr g | UFloorDiv => false | _ => true end
      && div_ok g && div_ok h
  | FSum gs => forallb div_ok gs
  end.

(** A variable name occurs in an expression object. *)
Inductive occurs (x : name) : expr -> Prop :=
| occ_var : occurs x (Var x)
| occ_neg e : occurs x e -> occurs x (Neg e)
| occ_abs e : occurs x e -> occurs x (Abs e)
| occ_not e : occurs x e -> occurs x (Not e)
| occ_binl o l r : occurs x l -> occurs x (Bin o l r)
| occ_binr o l r : occurs x r -> occurs x (Bin o l r)
| occ_sum es c e : In e es -> occurs x e -> occurs x (Sum es c)
| occ_prod es c e : In e es -> occurs x e -> occurs x (Prod es c).
