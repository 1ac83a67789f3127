(** What the search of a KnapsackOptimizer tries. *)
From Coq Require Import Permutation.
From Verif Require Import KnapsackWatch SpecPuzzle Nonogram Queens SpecSafe SpecSolve SpecOptimize SpecWatch SpecBound ExprFacts ExprProps DictFacts
  CodeFacts ModelFacts SafeFacts CompileFacts SetupFacts LoopFacts MasterFacts SolverProps SolverMore OptimizeFacts OptimizeRun OptimizeProps
  OptimizeMore NameFacts PuzzleFacts NonogramFacts SpecFormula SpecKnapsack KnapsackFacts BoundFacts BoundProps SpecSelections.
Open Scope list_scope.
Open Scope Z_scope.

(** ** The constraints after an optimisation *)

Lemma opt_holds clk shuffle f e sv os a ys e' r c t : opt_valid shuffle e os a ->
  optimize_all clk shuffle f e sv os a = Some (ys, e', r) -> r = None -> ~ In OOther os ->
  let m := w_model (e_world e) in let cs := all_cons m a in
  m_solvable m = true -> has_variable m ->
  faithful (e_world e) (s_compile sv) cs -> no_error (w_par (e_world e)) m cs -> In c cs -> concerns m c ->
  (forall x v, In (x, v) t -> exists d, is_variable m x d /\ In v d) -> (forall x, mentions c x -> In x (map fst t)) ->
  (evaluates_true (e_world e') t c <-> holds (w_par (e_world e)) t c).
Proof.
  intros Hv Hrun Hr Hoo m cs Hsol Hhv Hf Hne Hc Hcc Ht Hm.
  assert (Hk : known (e_world e) cs) by exact (proj1 (proj2 (proj2 Hv))).
  destruct (opt_run clk shuffle f e sv os a ys e' r Hv Hrun) as [(Hin & _)|(wA & oms & Emk & Hany)]; [contradiction|].
  destruct (opt_loop clk shuffle e sv os a ys e' r Hv wA oms Emk Hany) as [(_ & _ & [(C & _)|(_ & w & u & _ & _ & Hu)])|(_ & _ & u & ys0 & w' & r0 & _ & _ & _ & (ys' & HI) & _)].
  - fold m in C. congruence.
  - destruct u as [u|ex]; [|congruence]. destruct Hu as [_ Hu]. contradiction.
  - set (w1 := compile_all (s_compile sv) wA (all_cons (w_model wA) (with_objectives a oms))) in *.
    assert (E1 : ceval (e_world e') c t = ceval w1 c t) by exact (Inv_stable shuffle e sv os a Hv wA oms Emk ys' (e_world e') c t HI Hc).
    destruct (made_facts shuffle e os a Hv wA oms Emk) as ((aux & Hx) & _ & _ & _). destruct Hx as (_ & _ & _ & _ & Hpar & Hcode).
    destruct (made_objects shuffle e os a Hv wA oms Emk) as [HidA _].
    pose proof (made_cons shuffle e os a Hv wA oms Emk) as Ecs. fold m cs in Ecs.
    assert (Hin1 : forall c, In c cs -> In c (all_cons (w_model wA) (with_objectives a oms))) by (intros c0 Hc0; rewrite Ecs; apply in_or_app; now left).
    assert (Hid : forall c c', In c cs -> In c' cs -> c_id c = c_id c' -> c_body c = c_body c') by (intros c1 c2 H1 H2; apply HidA; auto).
    assert (E2 : ceval w1 c t = ceval (compile_all (s_compile sv) wA cs) c t) by (apply compile_all_agree; auto).
    assert (HfA : faithful wA (s_compile sv) cs).
    { intros c0 ex Hc0 Hb. pose proof (Hf c0 ex Hc0 Hb) as H1. destruct (s_compile sv); [exact H1|]. rewrite Hcode; [exact H1|now apply (Hk c0 Hc0)]. }
    assert (Hpp : forall c0 ex p, In c0 cs -> c_body c0 = CExpr ex -> In p (params ex) -> w_par wA p = w_par (e_world e) p).
    { intros c0 ex p Hc0 Hb Hp. apply Hpar. now apply (proj2 (Hk c0 Hc0) ex). }
    assert (HneA : no_error (w_par wA) m cs).
    { intros c0 ex t0 Hc0 Hb Hcc0 Ht0 Hm0. destruct (Hne c0 ex t0 Hc0 Hb Hcc0 Ht0 Hm0) as (v & E). exists v. rewrite <- E.
      apply evaluate_params. intros p Hp. eapply Hpp; eauto. }
    destruct (holds_iff wA (s_compile sv) cs m c t Hid HfA HneA Hc Hcc Ht Hm) as (b & Eb & Hiff).
    unfold evaluates_true. rewrite E1, E2, Eb. transitivity (b = true); [split; congruence|]. rewrite Hiff.
    split; apply holds_params; intros ex p Hb Hp; [|symmetry]; eapply Hpp; eauto.
Qed.

(** ** The items of a weighted sum *)

Lemma mul_occurs x y c : ooccurs x (match py_op UMul (OExpr (Var y)) (OInt c) with Ok o => o | Err _ => OInt 0 end) -> x = y /\ c <> 0.
Proof.
  cbn [py_op expr_op expr_mul as_const]. unfold make_acc. cbn [expand coerce app macc_loop as_acc neutral].
  destruct (Z.eqb_spec c 1) as [->|H1].
  - cbn. intros H. inversion H; subst. split; [reflexivity|lia].
  - cbn [absorbs]. destruct (Z.eqb_spec c 0) as [->|H0].
    + cbn. intros H. inversion H.
    + intros H. split; [|exact H0]. unfold acc_op in H. rewrite Z.mul_1_l in H.
      rewrite (proj2 (Z.eqb_neq c 0) H0) in H. cbn in H. rewrite (proj2 (Z.eqb_neq c 1) H1) in H. cbn in H.
      inversion H; subst; match goal with HH : occurs _ _ |- _ => inversion HH; subst end; reflexivity.
Qed.
