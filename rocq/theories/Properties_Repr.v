(** C86: the representation of expressions, constraints and objectives. *)
From Verif Require Import Repr SpecDemo SpecSafe SpecRepr ReprFacts ReprCases.
Open Scope string_scope.
Open Scope list_scope.
Open Scope Z_scope.

(** C86: expressions over the same variables and parameters that have the same [repr] are the
    same expression. *)
Theorem C86_repr : forall kind e e', named kind e -> named kind e' -> repr_expr e = repr_expr e' -> e = e'.
Proof. exact repr_injective. Qed.
Print Assumptions C86_repr.

Example C86_repr_case : let e := Sum [Bin OMul (Const (-2)) (Var "it's"); Neg (Var "y"); Param 3 "p"] 12 in
  named two_kinds e /\
  repr_expr e = "Sum(Mul(Const(-2), Variable(""it's"")), Neg(Variable('y')), Parameter('p'), const=12)".
Proof. split; [named_literal|reflexivity]. Qed.

(** C86: the same for constraints, where the variables of all-different constraints are a set. *)
Theorem C86_constraint : forall kind c c', named_body kind c -> named_body kind c' -> repr_constraint c = repr_constraint c' -> same_body c c'.
Proof. exact constraint_repr. Qed.
Print Assumptions C86_constraint.

Example C86_constraint_case : named_body two_kinds (CAllDiff ["z"; "a"; "z"]) /\ named_body two_kinds (CAllDiff ["a"; "z"]) /\
  repr_constraint (CAllDiff ["z"; "a"; "z"]) = "AllDifferentConstraint(['a', 'z'])" /\ repr_constraint (CAllDiff ["a"; "z"]) = "AllDifferentConstraint(['a', 'z'])" /\
  repr_constraint (CExpr (Bin OLt (Var "x") (Const 3))) = "ExpressionConstraint(Lt(Variable('x'), Const(3)))" /\
  repr_constraint (CConst true) = "ConstConstraint(True)".
Proof. split; [cbn; named_literal|]. split; [cbn; named_literal|]. repeat split. Qed.

(** C86: and for objectives. *)
Theorem C86_objective : forall kind o o', named kind (o_expr o) -> named kind (o_expr o') -> repr_objective o = repr_objective o' -> o = o'.
Proof. exact objective_repr. Qed.
Print Assumptions C86_objective.

Example C86_objective_case : named two_kinds (Bin OSub (Var "x") (Param 3 "p")) /\
  repr_objective (Objective (Bin OSub (Var "x") (Param 3 "p")) true) = "Maximize(Sub(Variable('x'), Parameter('p')))".
Proof. split; [named_literal|reflexivity]. Qed.

(** C86: [eval(repr(e))]: Python can read the text in exactly one way, and it makes the same
    expression, unless there is a parameter or a Sum or Prod object in it, in which case it
    raises TypeError. *)
Theorem C86_eval_partial : forall kind e, named kind e -> several e ->
  exists T, reads T (repr_expr e) /\ (forall T', reads T' (repr_expr e) -> T' = T) /\
    (callable e -> eval T = Ok (VExpr e)) /\ (~ callable e -> eval T = Err TypeError).
Proof. exact repr_evaluates. Qed.
Print Assumptions C86_eval_partial.

Example C86_eval_case : let e := Bin OEq (Bin OAdd (Var "x") (Const 3)) (Abs (Var "y")) in
  named two_kinds e /\ several e /\ callable e /\ repr_expr e = "Eq(Add(Variable('x'), Const(3)), Abs(Variable('y')))".
Proof. split; [named_literal|]. split; [parts|]. split; [parts|reflexivity]. Qed.

(** C86: that [eval(repr(e))] makes the same expression is false: of [x + y + z] it raises
    TypeError. *)
Theorem C86_eval_refuted : exists s e T,
  py_op UAdd (OExpr (Var "x")) (OExpr (Var "y")) = Ok s /\ py_op UAdd s (OExpr (Var "z")) = Ok (OExpr e) /\
  reads T (repr_expr e) /\ eval T = Err TypeError.
Proof.
  eexists _, _, (tree_of (Sum [Var "x"; Var "y"; Var "z"] 0)). split; [vm_compute; reflexivity|]. split; [vm_compute; reflexivity|].
  split; [|vm_compute; reflexivity]. refine (repr_reads (fun _ => None) (Sum [Var "x"; Var "y"; Var "z"] 0) _ _); [named_literal|parts].
Qed.
Print Assumptions C86_eval_refuted.

(** C86: for a Sum object with one element, as made by [Sum([x - y], const=3)], it can be an
    expression with another value. *)
Theorem C86_eval_value_refuted : exists e T e' s v v',
  reads T (repr_expr e) /\ eval T = Ok (VExpr e') /\ evaluate (fun _ => 0) s e = Ok v /\ evaluate (fun _ => 0) s e' = Ok v' /\ v <> v'.
Proof.
  exists (acc_init KSum [Bin OSub (Var "x") (Var "y")] 3), (tree_of (Sum [Bin OSub (Var "x") (Var "y")] 3)).
  eexists _, [("x", 0); ("y", 1)], _, _. split; [|split; [vm_compute; reflexivity|split; [vm_compute; reflexivity|split; [vm_compute; reflexivity|discriminate]]]].
  apply (reads_call "Sum" [_] ["Sub(Variable('x'), Variable('y'))"] (Some 3) ["const=3"]); [reflexivity| |].
  - constructor; [|constructor]. apply (repr_reads (fun _ => None) (Bin OSub (Var "x") (Var "y"))); [named_literal|parts].
  - exists "3". split; [apply (str_int_text 3)|reflexivity].
Qed.
Print Assumptions C86_eval_value_refuted.
