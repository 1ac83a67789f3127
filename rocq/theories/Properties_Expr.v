(** Property theorems about expressions (C01-C04, C07, C08). *)
From Verif Require Import Py Expr SpecFormula ExprFacts ExprProps.

(** C01.  Binary arithmetic: whatever object the overloaded operator returns, its
    value is the integer result. *)
Theorem C01_arithmetic_operators : forall ps s u a b va vb v o,
  In u [UAdd; USub; UMul; UDiv; UFloorDiv; UMod; UPow] ->
  oval ps s a = Ok va -> oval ps s b = Ok vb -> arith u va vb = Some v ->
  py_op u a b = Ok o -> oval ps s o = Ok v.
Proof. exact arith_ok. Qed.
Print Assumptions C01_arithmetic_operators.

(** [2 * (x + y + 3)] with flattening, then [% 5]. *)
Example C01_case :
  let s := [("x"%string, 4); ("y"%string, -9)] in
  exists o1 o2 o3,
    py_op UAdd (OExpr (Bin OAdd (Var "x") (Var "y"))) (OInt 3) = Ok o1 /\
    py_op UMul (OInt 2) o1 = Ok o2 /\ py_op UMod o2 (OInt 5) = Ok o3 /\
    oval (fun _ => 0) s o2 = Ok (-4) /\ oval (fun _ => 0) s o3 = Ok 1.
Proof. do 3 eexists; repeat split; vm_compute; reflexivity. Qed.

(** C01.  Unary [-], [abs], [+]. *)
Theorem C01_unary_operators : forall ps s o v,
  oval ps s o = Ok v ->
  oval ps s (py_neg o) = Ok (- v) /\ oval ps s (py_abs o) = Ok (Z.abs v) /\
  oval ps s (py_pos o) = Ok v.
Proof. exact neg_abs_ok. Qed.
Print Assumptions C01_unary_operators.

Example C01_unary_case :
  oval (fun _ => 7) [] (py_abs (py_neg (OExpr (Param 0 "p")))) = Ok 7.
Proof. reflexivity. Qed.

(** C02.  Comparisons: the value is 1 when the comparison holds and 0 otherwise. *)
Theorem C02_comparison_operators : forall ps s u a b va vb v o,
  In u [UEq; UNe; ULt; ULe; UGt; UGe] ->
  oval ps s a = Ok va -> oval ps s b = Ok vb -> arith u va vb = Some v ->
  py_op u a b = Ok o -> oval ps s o = Ok v.
Proof. exact compare_ok. Qed.
Print Assumptions C02_comparison_operators.

(** [x < p] with [p] a Parameter is dispatched to Parameter.__gt__. *)
Example C02_case :
  py_op ULt (OExpr (Var "x")) (OExpr (Param 0 "p")) = Ok (OExpr (Bin OGt (Param 0 "p") (Var "x"))) /\
  oval (fun _ => 5) [("x"%string, 3)] (OExpr (Bin OGt (Param 0 "p") (Var "x"))) = Ok 1.
Proof. split; reflexivity. Qed.

(** C02.  [&] and [|], at least one operand being an Expression: Python's [and]/[or]. *)
Theorem C02_logical_operators : forall ps s u a b va vb v o,
  (u = UAnd \/ u = UOr) -> is_int a && is_int b = false ->
  oval ps s a = Ok va -> oval ps s b = Ok vb -> arith u va vb = Some v ->
  py_op u a b = Ok o ->
  oval ps s o = Ok v /\
  truthy v = match u with UAnd => truthy va && truthy vb | _ => truthy va || truthy vb end.
Proof. exact logic_ok. Qed.
Print Assumptions C02_logical_operators.

Example C02_logical_case :
  exists o, py_op UAnd (OInt 2) (OExpr (Bin OGt (Var "x") (Const 0))) = Ok o /\
            oval (fun _ => 0) [("x"%string, 4)] o = Ok 1.
Proof. eexists; split; reflexivity. Qed.

(** C03.  A whole formula: if it builds, the object's value is the formula's value. *)
Theorem C03_formula_meaning : forall ps a s f v o,
  binds s a (fvars f) -> meaning ps a f = Some v -> build f = Ok o ->
  oval ps s o = Ok v.
Proof. exact (fun ps a s f v o => build_meaning ps a s f v o). Qed.
Print Assumptions C03_formula_meaning.

(** C03.  And it does build when every division is of the supported form. *)
Theorem C03_formula_builds : forall ps a s f v,
  binds s a (fvars f) -> meaning ps a f = Some v -> div_ok f = true ->
  exists o, build f = Ok o /\ oval ps s o = Ok v.
Proof.
  exact (fun ps a s f v Hb Hm Hd =>
    match build_total ps a s f v Hb Hm Hd with
    | ex_intro _ o Ho => ex_intro _ o (conj Ho (build_meaning ps a s f v o Hb Hm Ho))
    end).
Qed.
Print Assumptions C03_formula_builds.

(** [sum([2*x, y, -p]) / 3 == 1] & [abs(y) < 5 ** x]. *)
Definition C03_f : formula :=
  FBin UAnd
    (FBin UEq (FBin UDiv (FSum [FBin UMul (FInt 2) (FVar "x"); FVar "y"; FNeg (FPar 0 "p")]) (FInt 3))
       (FInt 1))
    (FBin ULt (FAbs (FVar "y")) (FBin UPow (FInt 5) (FVar "x"))).
Example C03_case :
  let a := fun x => if String.eqb x "x" then 4 else -2 in
  binds [("y"%string, -2); ("x"%string, 4)] a (fvars C03_f) /\
  meaning (fun _ => 1) a C03_f = Some 1 /\ div_ok C03_f = true.
Proof.
  repeat split; try (vm_compute; reflexivity).
  intros x. simpl. intros [<-|[<-|[<-|[<-|[]]]]]; vm_compute; reflexivity.
Qed.

(** C03, outside truth values: [((x*0) == (y*0)) & 2].  The comparison collapses to
    the Python int 1 and Python computes the bitwise [1 & 2 = 0], although both
    operands of the conjunction are true. *)
Theorem C03_logic_on_collapsed_constants_refuted :
  exists f g of og o ps s vf vg,
    build f = Ok of /\ build g = Ok og /\ oval ps s of = Ok vf /\ oval ps s og = Ok vg /\
    truthy vf && truthy vg = true /\ build (FBin UAnd f g) = Ok o /\ oval ps s o = Ok 0.
Proof. exact collapsed_logic. Qed.
Print Assumptions C03_logic_on_collapsed_constants_refuted.

(** C04.  [vars()] *)
Theorem C04_vars : forall ps e,
  NoDup (vars e) /\
  (forall x, In x (vars e) <-> occurs x e) /\
  (forall s, (forall x, In x (vars e) -> dget s x <> None) -> evaluate ps s e <> Err EvaluationError) /\
  (forall s s', (forall x, In x (vars e) -> dget s x = dget s' x) -> evaluate ps s e = evaluate ps s' e).
Proof. exact vars_spec. Qed.
Print Assumptions C04_vars.

(** C04.  Building a formula introduces no variable that the user did not write. *)
Theorem C04_vars_of_formula : forall f o x,
  build f = Ok o -> In x (match o with OInt _ => [] | OExpr e => vars e end) -> In x (fvars f).
Proof. exact build_vars. Qed.
Print Assumptions C04_vars_of_formula.

Example C04_case :
  vars (Sum [Bin OMul (Var "y") (Var "x"); Neg (Var "y"); Param 0 "p"] 3) = ["y"%string; "x"%string] /\
  evaluate (fun _ => 10) [("z"%string, 1); ("x"%string, 2); ("y"%string, 5)]
    (Sum [Bin OMul (Var "y") (Var "x"); Neg (Var "y"); Param 0 "p"] 3) = Ok 18.
Proof. split; vm_compute; reflexivity. Qed.

(** C07 is false: [(x + y).equals(z + w)] is true. *)
Theorem C07_equals_refuted :
  exists a b ps s, equals a b = true /\ evaluate ps s a = Ok 3 /\ evaluate ps s b = Ok 7.
Proof. exact equals_wrong. Qed.
Print Assumptions C07_equals_refuted.

(** C07, what holds: it is exact on constants and variables, and reflexive.
    Missing: everything built with an operator (see C07_equals_refuted). *)
Theorem C07_equals_atoms_partial : forall a b ps s,
  (match a with Const _ | Var _ => True | _ => False end) ->
  (equals a a = true) /\ (equals a b = true -> evaluate ps s a = evaluate ps s b).
Proof. exact (fun a b ps s Ha => conj (equals_refl a) (equals_atoms a b ps s Ha)). Qed.
Print Assumptions C07_equals_atoms_partial.

Example C07_case : equals (Var "x") (Var "x") = true /\ equals (Var "x") (Var "y") = false.
Proof. split; reflexivity. Qed.

(** C08 is false, for every int and every expression: the division raises. *)
Theorem C08_int_div_expr_refuted : forall n e,
  py_op UDiv (OInt n) (OExpr e) = Err TypeError.
Proof. exact (fun n e => eq_refl). Qed.
Print Assumptions C08_int_div_expr_refuted.

(** C08, the supported direction: [e / n] is floor division, for every [n <> 0]. *)
Theorem C08_expr_div_int_partial : forall ps s e n v,
  evaluate ps s e = Ok v -> n <> 0 ->
  exists o, py_op UDiv (OExpr e) (OInt n) = Ok o /\ oval ps s o = Ok (v / n).
Proof. exact expr_div_int. Qed.
Print Assumptions C08_expr_div_int_partial.

Example C08_case :
  exists o, py_op UDiv (OExpr (Neg (Var "x"))) (OInt 2) = Ok o /\
            oval (fun _ => 0) [("x"%string, 3)] o = Ok (-2).
Proof. eexists; split; reflexivity. Qed.
