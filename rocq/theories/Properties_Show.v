(** Property theorems about the output of [show_model] (C81). *)
From Verif Require Import DemoModel SpecFormula SpecSafe SpecText SpecSolve SpecShow ShowFacts.
Open Scope string_scope.
Open Scope list_scope.
Open Scope Z_scope.

(** C81: two models that are shown alike ask the same question, if parameters of the same name
    have the same value. *)
Theorem C81_shown_partial : forall dom dom' m m' ps ps', showable dom m -> showable dom' m' ->
  stdout (print_model dom m) = stdout (print_model dom' m') -> same_parameters m m' ps ps' -> same_question m m' ps ps'.
Proof. intros dom dom' m m' ps ps' H H' E. exact (shown_determines dom dom' m m' H H' E ps ps'). Qed.
Print Assumptions C81_shown_partial.

(** C81: and so they have the same solutions. *)
Theorem C81_solutions_partial : forall dom dom' m m' ps ps' s, showable dom m -> showable dom' m' ->
  stdout (print_model dom m) = stdout (print_model dom' m') -> same_parameters m m' ps ps' ->
  (solves (holds ps) m (m_cons m) s <-> solves (holds ps') m' (m_cons m') s).
Proof. intros dom dom' m m' ps ps' s H H' E Hp. exact (question_solutions m m' ps ps' s (shown_determines dom dom' m m' H H' E ps ps' Hp)). Qed.
Print Assumptions C81_solutions_partial.

(** Two programs; the second one creates another parameter first and builds the sum in
    another order.  [range(0, 3)] and [(0, 1)] are the domains. *)
Example C81_case :
  let dom := fun x => if String.eqb x "x" then DRange 0 3 else DTuple [0; 1] in
  let vars p := [("x", VVar [0; 1; 2]); ("y", VVar [0; 1]); ("p", VPar p)] in
  let m := Model (vars 0%nat) [Constraint 0 (CAllDiff ["y"; "x"; "y"]); Constraint 1 (CExpr (Bin OLe (Sum [Var "x"; Var "y"; Param 0 "p"] 2) (Const 5)))] true in
  let m' := Model (vars 4%nat) [Constraint 7 (CAllDiff ["x"; "y"]); Constraint 3 (CExpr (Bin OLe (Sum [Const 2; Var "x"; Var "y"; Param 4 "p"] 0) (Const 5)))] true in
  showable dom m /\ showable dom m' /\ print_model dom m = print_model dom m' /\
  print_model dom m =
    [String newline "=== model variables: ==="; "    0) 'x' domain: range(0, 3)"; "    1) 'y' domain: (0, 1)"; "    2) 'p' domain: None";
     String newline "=== model constraints: ==="; "    0) AllDifferentConstraint(['x', 'y'])"; "    1) (sum([2, x, y, p]) <= 5)"].
Proof.
  intros dom vars m m'. split; [|split; [|split; vm_compute; reflexivity]].
  - split; [repeat constructor; cbn; intuition discriminate|]. split; [intros x Hx; cbn in Hx; intuition; now subst|].
    split; [intros x d Hx; cbn in Hx; intuition; try discriminate; match goal with H : _ = _ |- _ => injection H as <- <- end; reflexivity|].
    intros c Hc. cbn in Hc. destruct Hc as [<-|[<-|[]]]; cbn.
    + split; [discriminate|]. intros x Hx. intuition; now subst.
    + split; [intuition|]. intros x [H|(p & H)]; discriminate.
  - split; [repeat constructor; cbn; intuition discriminate|]. split; [intros x Hx; cbn in Hx; intuition; now subst|].
    split; [intros x d Hx; cbn in Hx; intuition; try discriminate; match goal with H : _ = _ |- _ => injection H as <- <- end; reflexivity|].
    intros c Hc. cbn in Hc. destruct Hc as [<-|[<-|[]]]; cbn.
    + split; [discriminate|]. intros x Hx. intuition; now subst.
    + split; [intuition|]. intros x [H|(p & H)]; discriminate.
Qed.

(** C81 fails in general: the value of a parameter is not shown. *)
Theorem C81_parameter_refuted : exists dom w w' s,
  let prog v := op_bind (add_parameter v (Some "p")) (fun _ => op_bind (add_int_variable [0; 1] (Some "x")) (fun _ =>
    add_formula (FBin UEq (FVar "x") (FPar 0 "p")))) in
  prog 0 init_world = (w, Ok tt) /\ prog 1 init_world = (w', Ok tt) /\
  showable dom (w_model w) /\ showable dom (w_model w') /\
  stdout (print_model dom (w_model w)) = stdout (print_model dom (w_model w')) /\
  solves (holds (w_par w)) (w_model w) (m_cons (w_model w)) s /\ ~ solves (holds (w_par w')) (w_model w') (m_cons (w_model w')) s.
Proof.
  pose (prog v := op_bind (add_parameter v (Some "p")) (fun _ => op_bind (add_int_variable [0; 1] (Some "x")) (fun _ => add_formula (FBin UEq (FVar "x") (FPar 0 "p"))))).
  exists (fun _ => DTuple [0; 1]), (fst (prog 0 init_world)), (fst (prog 1 init_world)), [("x", 0)]. split; [reflexivity|]. split; [reflexivity|].
  assert (E0 : w_model (fst (prog 0 init_world)) = Model [("p", VPar 0); ("x", VVar [0; 1])] [Constraint 0 (CExpr (Bin OEq (Param 0 "p") (Var "x")))] true) by (vm_compute; reflexivity).
  assert (E1 : w_model (fst (prog 1 init_world)) = Model [("p", VPar 0); ("x", VVar [0; 1])] [Constraint 0 (CExpr (Bin OEq (Param 0 "p") (Var "x")))] true) by (vm_compute; reflexivity).
  rewrite E0, E1.
  assert (S : showable (fun _ => DTuple [0; 1]) (Model [("p", VPar 0); ("x", VVar [0; 1])] [Constraint 0 (CExpr (Bin OEq (Param 0 "p") (Var "x")))] true)).
  { split; [repeat constructor; cbn; intuition discriminate|]. split; [intros x Hx; cbn in Hx; intuition; now subst|].
    split; [intros x d Hx; cbn in Hx; intuition; try discriminate; match goal with H : _ = _ |- _ => injection H as <- <- end; reflexivity|].
    intros c Hc. cbn in Hc. destruct Hc as [<-|[]]; cbn. split; [auto|]. intros x [H|(p & H)]; discriminate. }
  split; [exact S|]. split; [exact S|]. split; [reflexivity|]. split.
  - split.
    + split; [repeat constructor; intros []|]. split.
      * intros x. cbn. split; [intros [<-|[]]; exists [0; 1]; right; now left|]. intros (d & [H|[H|[]]]); [discriminate|]. injection H as <- _. now left.
      * intros x v d Hx Hd. cbn in Hx, Hd. destruct Hx as [Hx|[]]. injection Hx as <- <-. destruct Hd as [Hd|[Hd|[]]]; [discriminate|]. injection Hd as <-. now left.
    + intros c Hc _. cbn in Hc. destruct Hc as [<-|[]]. exists 1. split; [reflexivity|discriminate].
  - intros [_ H]. assert (C : concerns (Model [("p", VPar 0); ("x", VVar [0; 1])] [Constraint 0 (CExpr (Bin OEq (Param 0 "p") (Var "x")))] true) (Constraint 0 (CExpr (Bin OEq (Param 0 "p") (Var "x"))))).
    { split; [exists "x"; apply occ_binr; constructor|]. intros x Hx. cbn in Hx. inversion Hx as [| | | |? ? ? Hy|? ? ? Hy| |]; subst; inversion Hy; subst. exists [0; 1]. right. now left. }
    destruct (H _ (or_introl eq_refl) C) as (v & Hv & Hne). cbn in Hv. injection Hv as <-. now apply Hne.
Qed.
Print Assumptions C81_parameter_refuted.

(** C81 fails for a variable called [False]: the constraint that it is true and the constraint
    that is never satisfied are shown alike. *)
Theorem C81_false_refuted : exists clk shuffle dom e e' w w' s fuel e1 e2,
  let prog a := op_bind (add_int_variable [0; 1] (Some "False")) (fun _ => add_constraint a) in
  prog (AExpr (Var "False")) init_world = (w, Ok tt) /\ prog (ABool false) init_world = (w', Ok tt) /\ e = new_env w /\ e' = new_env w' /\
  stdout (print_model dom (w_model w)) = stdout (print_model dom (w_model w')) /\
  solve_all clk shuffle fuel e (new_solver GROUPS LNone LNone false) no_args = Some ([s], e1, None) /\
  solve_all clk shuffle fuel e' (new_solver GROUPS LNone LNone false) no_args = Some ([], e2, None).
Proof.
  pose (prog a := op_bind (add_int_variable [0; 1] (Some "False")) (fun _ => add_constraint a)).
  pose (w := fst (prog (AExpr (Var "False")) init_world)). pose (w' := fst (prog (ABool false) init_world)).
  exists (fun _ => 0), (fun l => l), (fun _ => DTuple [0; 1]), (new_env w), (new_env w'), w, w', [("False", 1)], 50%nat. eexists; eexists.
  split; [reflexivity|]. split; [reflexivity|]. split; [reflexivity|]. split; [reflexivity|].
  split; [vm_compute; reflexivity|]. split; vm_compute; reflexivity.
Qed.
Print Assumptions C81_false_refuted.
