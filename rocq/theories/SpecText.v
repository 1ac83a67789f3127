(** Specification: expressions whose names come from one model. *)
From Verif Require Import Py Expr PyText SpecFormula SpecSafe.
Open Scope string_scope.
Open Scope Z_scope.

(** What the names of a model denote: a variable ([None]) or the parameter [p]. *)
Definition kinds := name -> option nat.

(** The names are identifiers and denote what the expression uses them for; sums and products
    have at least three printed values, as all those built by the operators. *)
Fixpoint printable (kind : kinds) (e : expr) : Prop :=
  match e with
  | Const _ => True
  | Var x => identifier x = true /\ kind x = None
  | Param p x => identifier x = true /\ kind x = Some p
  | Neg e1 | Abs e1 | Not e1 => printable kind e1
  | Bin _ l r => printable kind l /\ printable kind r
  | Sum es c =>
      three_values KSum es c = true /\
      (fix go (l : list expr) : Prop := match l with [] => True | e1 :: l' => printable kind e1 /\ go l' end) es
  | Prod es c =>
      three_values KProd es c = true /\
      (fix go (l : list expr) : Prop := match l with [] => True | e1 :: l' => printable kind e1 /\ go l' end) es
  end.

(** The same for formulas written with operators. *)
Fixpoint f_named (kind : kinds) (f : formula) : Prop :=
  match f with
  | FInt _ => True
  | FVar x => identifier x = true /\ kind x = None
  | FPar p x => identifier x = true /\ kind x = Some p
  | FNeg g | FAbs g => f_named kind g
  | FBin _ g h => f_named kind g /\ f_named kind h
  | FSum gs => (fix go (l : list formula) : Prop := match l with [] => True | g :: l' => f_named kind g /\ go l' end) gs
  end.

(** A parameter below unary operators only: [p], [-p], [abs(-p)], ... *)
Inductive bare_parameter : expr -> Prop :=
| bare_p p x : bare_parameter (Param p x)
| bare_neg e : bare_parameter e -> bare_parameter (Neg e)
| bare_abs e : bare_parameter e -> bare_parameter (Abs e)
| bare_not e : bare_parameter e -> bare_parameter (Not e).
