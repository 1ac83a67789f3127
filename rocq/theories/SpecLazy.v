(** Specification: evaluation with Python's [and] and [or], which do not evaluate the second
    operand if the first one decides. *)
From Verif Require Import Py Expr.
Open Scope Z_scope.

Fixpoint lazy (ps : pstore) (s : subst) (e : expr) {struct e} : res Z :=
  match e with
  | Const z => Ok z
  | Var x => match dget s x with Some v => Ok v | None => Err EvaluationError end
  | Param p _ => Ok (ps p)
  | Neg e1 => let! v := lazy ps s e1 in Ok (- v)
  | Abs e1 => let! v := lazy ps s e1 in Ok (Z.abs v)
  | Not e1 => let! v := lazy ps s e1 in Ok (if v =? 0 then 1 else 0)
  | Bin OAnd l r => let! a := lazy ps s l in if a =? 0 then Ok a else lazy ps s r
  | Bin OOr l r => let! a := lazy ps s l in if a =? 0 then lazy ps s r else Ok a
  | Bin o l r => let! a := lazy ps s l in let! b := lazy ps s r in bin_op o a b
  | Sum es c =>
      let! vs := (fix go (l : list expr) : res (list Z) :=
                    match l with
                    | [] => Ok []
                    | e1 :: l' => let! v := lazy ps s e1 in let! vs := go l' in Ok (v :: vs)
                    end) es in
      Ok (fold_left Z.add vs c)
  | Prod es c =>
      let! vs := (fix go (l : list expr) : res (list Z) :=
                    match l with
                    | [] => Ok []
                    | e1 :: l' => let! v := lazy ps s e1 in let! vs := go l' in Ok (v :: vs)
                    end) es in
      Ok (fold_left Z.mul vs c)
  end.

(** No conjunction or disjunction. *)
Fixpoint no_logic (e : expr) : bool :=
  match e with
  | Const _ | Var _ | Param _ _ => true
  | Neg e1 | Abs e1 | Not e1 => no_logic e1
  | Bin o l r => match o with OAnd | OOr => false | _ => true end && no_logic l && no_logic r
  | Sum es _ | Prod es _ => forallb no_logic es
  end.
