(** Property theorems about the text of expressions (C73), [free_vars] (C74), and Python's
    [and], [or], [not] and chained comparisons of expressions (C75). *)
From Verif Require Import Py Expr PyText PyLogic SpecFormula SpecSafe SpecText StrFacts PyLogicFacts.
Open Scope string_scope.
Open Scope list_scope.
Open Scope Z_scope.

(** C73: expressions that print alike have the same value (or raise the same exception). *)
Theorem C73_unambiguous : forall kind e e',
  printable kind e -> printable kind e' -> str_expr e = str_expr e' ->
  forall ps s, evaluate ps s e = evaluate ps s e'.
Proof. exact text_determines. Qed.
Print Assumptions C73_unambiguous.

(** All formulas written with the operators and the names of one model build such
    expressions. *)
Theorem C73_formulas : forall kind f f' e e',
  f_named kind f -> f_named kind f' -> build f = Ok (OExpr e) -> build f' = Ok (OExpr e') ->
  str_expr e = str_expr e' -> forall ps s, evaluate ps s e = evaluate ps s e'.
Proof. exact formula_text_determines. Qed.
Print Assumptions C73_formulas.

(** [2 + x + y + p] and [x + (2 + y) + p] print alike and are different objects; a variable
    may be called [sum]. *)
Example C73_case :
  let kind := fun x => if String.eqb x "p" then Some 3%nat else None in
  let f := FBin UAdd (FBin UAdd (FBin UAdd (FInt 2) (FVar "sum")) (FVar "y")) (FPar 3 "p") in
  let f' := FBin UAdd (FBin UAdd (FVar "sum") (FBin UAdd (FInt 2) (FVar "y"))) (FPar 3 "p") in
  f_named kind f /\ f_named kind f' /\ f <> f' /\
  exists e e', build f = Ok (OExpr e) /\ build f' = Ok (OExpr e') /\ str_expr e = "sum([2, sum, y, p])" /\ str_expr e' = "sum([2, sum, y, p])".
Proof.
  intros kind f f'. split; [cbn; tauto|]. split; [cbn; tauto|]. split; [discriminate|].
  eexists; eexists. split; [reflexivity|]. split; [reflexivity|]. split; vm_compute; reflexivity.
Qed.

(** Sums and products made with the constructors of two elements are not parenthesised:
    [Sum([x, Prod([y, z])])] and [Prod([Sum([x, y]), z])] both print as [x + y * z]. *)
Theorem C73_constructed_refuted : exists e e',
  e = acc_init KSum [Var "x"; acc_init KProd [Var "y"; Var "z"] 1] 0 /\
  e' = acc_init KProd [acc_init KSum [Var "x"; Var "y"] 0; Var "z"] 1 /\
  str_expr e = "x + y * z" /\ str_expr e' = "x + y * z" /\
  exists ps s v v', evaluate ps s e = Ok v /\ evaluate ps s e' = Ok v' /\ v <> v'.
Proof.
  eexists; eexists. split; [reflexivity|]. split; [reflexivity|]. split; [vm_compute; reflexivity|]. split; [vm_compute; reflexivity|].
  exists (fun _ => 0), [("x", 1); ("y", 2); ("z", 3)], 7, 9. split; [vm_compute; reflexivity|]. split; [vm_compute; reflexivity|discriminate].
Qed.
Print Assumptions C73_constructed_refuted.

(** C74: when [free_vars(substitution)] returns, it lists the variables that are not in the
    substitution, each once, in the order of [vars()]. *)
Theorem C74_free_vars_partial : forall s e l, free_vars s e = Ok l ->
  NoDup l /\ (forall x, In x l <-> occurs x e /\ dmem s x = false) /\ l = filter (fun x => negb (dmem s x)) (vars e).
Proof. intros s e l H. exact (conj (proj1 (free_vars_ok s e l H)) (conj (proj2 (free_vars_ok s e l H)) (free_vars_filter s e l H))). Qed.
Print Assumptions C74_free_vars_partial.

Example C74_case :
  let e := Bin OEq (Sum [Var "y"; Var "x"; Abs (Var "z")] 3) (Neg (Bin OMul (Var "x") (Param 0 "p"))) in
  free_vars [("y", 1)] e = Ok ["x"; "z"] /\ vars e = ["y"; "x"; "z"].
Proof. split; reflexivity. Qed.

(** If there are none, evaluation does not complain about an undefined variable; if evaluation
    returns, there are none. *)
Theorem C74_evaluable : forall ps s e l, free_vars s e = Ok l ->
  (l = [] -> evaluate ps s e <> Err EvaluationError) /\ (forall v, evaluate ps s e = Ok v -> l = []).
Proof. exact free_vars_none. Qed.
Print Assumptions C74_evaluable.

Example C74_evaluable_case :
  let e := Bin ODiv (Var "x") (Var "y") in
  free_vars [("x", 1); ("y", 0)] e = Ok [] /\ evaluate (fun _ => 0) [("x", 1); ("y", 0)] e = Err ZeroDivisionError /\
  free_vars [("x", 1)] e = Ok ["y"] /\ evaluate (fun _ => 0) [("x", 1)] e = Err EvaluationError.
Proof. repeat split; reflexivity. Qed.

(** It does not return for a parameter alone or below unary operators, and only for those:
    [Parameter.free_vars] takes no substitution. *)
Theorem C74_parameter_refuted : forall s e,
  (bare_parameter e <-> exists ex, free_vars s e = Err ex) /\ forall ex, free_vars s e = Err ex -> ex = TypeError.
Proof. exact free_vars_err. Qed.
Print Assumptions C74_parameter_refuted.

Example C74_parameter_case : bare_parameter (Neg (Param 0 "p")) /\ evaluate (fun _ => 2) [] (Neg (Param 0 "p")) = Ok (-2) /\
  free_vars [] (Neg (Param 0 "p")) = Err TypeError.
Proof. repeat split; repeat constructor. Qed.

(** C75 fails: [0 <= x <= 5] is the expression [x <= 5], true for negative [x]. *)
Theorem C75_chained_refuted : exists o, py_chain ULe ULe (OInt 0) (OExpr (Var "x")) (OInt 5) = Ok (OExpr o) /\
  forall ps s v, dget s "x" = Some v -> v < 0 -> evaluate ps s o = Ok 1.
Proof. exact chain_refuted. Qed.
Print Assumptions C75_chained_refuted.

(** What is built: the last comparison, if the first one is an expression. *)
Theorem C75_chained_partial : forall u u' fa fb fc a b c e,
  build fa = Ok a -> build fb = Ok b -> build fc = Ok c -> py_op u a b = Ok (OExpr e) ->
  py_chain u u' a b c = py_op u' b c.
Proof. exact chain_last. Qed.
Print Assumptions C75_chained_partial.

Example C75_chained_case :
  py_chain ULt UEq (OExpr (Var "x")) (OExpr (Var "y")) (OExpr (Var "z")) = Ok (OExpr (Bin OEq (Var "y") (Var "z"))) /\
  py_chain ULt ULt (OInt 3) (OInt 2) (OExpr (Var "z")) = Ok (OInt 0).
Proof. split; reflexivity. Qed.

(** Whatever [a] says, [a and b] is [b], [a or b] is [a] and [not a] is False. *)
Theorem C75_logic_partial : forall f e, build f = Ok (OExpr e) ->
  (forall b, py_and (OExpr e) b = b) /\ (forall b, py_or (OExpr e) b = Ok (OExpr e)) /\ py_not (OExpr e) = OInt 0.
Proof. exact logic_python. Qed.
Print Assumptions C75_logic_partial.

Example C75_logic_case :
  build (FBin UEq (FVar "x") (FVar "y")) = Ok (OExpr (Bin OEq (Var "x") (Var "y"))) /\
  py_not (OExpr (Bin OEq (Var "x") (Var "y"))) = OInt 0 /\ py_bool (OExpr (acc_init KSum [] 0)) = false.
Proof. repeat split; reflexivity. Qed.
