(** Operators introduce no new Parameter object (as they introduce no new variable, ExprFacts.v). *)
From Coq Require Import Lia.
From Verif Require Import Expr SpecFormula SpecOptimize SpecKnapsackUser ExprFacts.
Open Scope list_scope.
Open Scope Z_scope.

Inductive poccurs (x : nat) : expr -> Prop :=
| pocc_par y : poccurs x (Param x y)
| pocc_neg e : poccurs x e -> poccurs x (Neg e)
| pocc_abs e : poccurs x e -> poccurs x (Abs e)
| pocc_not e : poccurs x e -> poccurs x (Not e)
| pocc_binl o l r : poccurs x l -> poccurs x (Bin o l r)
| pocc_binr o l r : poccurs x r -> poccurs x (Bin o l r)
| pocc_sum es c e : In e es -> poccurs x e -> poccurs x (Sum es c)
| pocc_prod es c e : In e es -> poccurs x e -> poccurs x (Prod es c).

Definition opoccurs (x : nat) (o : operand) : Prop :=
  match o with OInt _ => False | OExpr e => poccurs x e end.

Lemma poccurs_mk_acc x k es c : poccurs x (mk_acc k es c) <-> exists e, In e es /\ poccurs x e.
Proof.
  destruct k; simpl; split.
  - inversion 1; subst; eauto.
  - intros (e & H1 & H2); eapply pocc_sum; eauto.
  - inversion 1; subst; eauto.
  - intros (e & H1 & H2); eapply pocc_prod; eauto.
Qed.

Definition poccs (x : nat) (es : list expr) : Prop := exists e, In e es /\ poccurs x e.
Lemma poccs_app x a b : poccs x (a ++ b) <-> poccs x a \/ poccs x b.
Proof.
  unfold poccs; split.
  - intros (e & H & Ho). apply in_app_or in H. destruct H; eauto.
  - intros [(e & H & Ho)|(e & H & Ho)]; exists e; rewrite in_app_iff; auto.
Qed.
Lemma poccs_cons x e es : poccs x (e :: es) <-> poccurs x e \/ poccs x es.
Proof.
  unfold poccs; split.
  - intros (e' & [->|H] & Ho); eauto.
  - intros [H|(e' & H & Ho)]; [exists e|exists e']; simpl; auto.
Qed.
Lemma poccs_nil x : ~ poccs x [].
Proof. intros (e & [] & _). Qed.

Lemma acc_loop_poccs x k es : forall const elist,
  poccs x (snd (acc_loop k es const elist)) -> poccs x elist \/ poccs x es.
Proof.
  induction es as [|e es IH]; intros const elist H; [simpl in H; auto|].
  rewrite poccs_cons.
  assert (Hsame : forall c', poccs x (snd (acc_loop k es c' elist)) -> poccs x elist \/ poccurs x e \/ poccs x es).
  { intros c' H'. apply IH in H'. tauto. }
  assert (Hother : poccs x (snd (acc_loop k es const (elist ++ [e]))) -> poccs x elist \/ poccurs x e \/ poccs x es).
  { intros H'. apply IH in H'. rewrite poccs_app, poccs_cons in H'.
    destruct H' as [[H'|[H'|H']]|H']; auto. contradict H'. apply poccs_nil. }
  assert (Hacc : forall es' c c', e = mk_acc k es' c ->
      poccs x (snd (acc_loop k es c' (elist ++ es'))) -> poccs x elist \/ poccurs x e \/ poccs x es).
  { intros es' c c' -> H'. apply IH in H'. rewrite poccs_app in H'.
    destruct H' as [[H'|H']|H']; auto. right; left. apply poccurs_mk_acc. exact H'. }
  assert (Hz : poccs x (snd (0, @nil expr)) -> poccs x elist \/ poccurs x e \/ poccs x es).
  { intros H'. contradict H'. apply poccs_nil. }
  destruct e as [z|y|p y|e1|e1|e1|o l r|es1 c1|es1 c1];
    try (destruct k; apply Hother; exact H).
  - cbn [acc_loop] in H. destruct (z =? neutral k); [eauto|]. destruct (absorbs k z); eauto.
  - destruct es1; [simpl in H; eauto|]. cbn [acc_loop as_empty_acc] in H.
    destruct k; cbn [as_acc] in H; [|auto].
    destruct (absorbs KSum c1); [auto|]. eapply Hacc; [reflexivity|exact H].
  - destruct es1; [simpl in H; eauto|]. cbn [acc_loop as_empty_acc] in H.
    destruct k; cbn [as_acc] in H; [auto|].
    destruct (absorbs KProd c1); [auto|]. eapply Hacc; [reflexivity|exact H].
Qed.

Lemma acc_init_poccurs x k es c : poccurs x (acc_init k es c) -> poccs x es.
Proof.
  unfold acc_init. destruct (acc_loop k es c []) as [c' el] eqn:He.
  rewrite poccurs_mk_acc. intros H.
  pose proof (acc_loop_poccs x k es c []) as Hl. rewrite He in Hl.
  destruct (Hl H) as [H'|H']; [contradict H'; apply poccs_nil|assumption].
Qed.

Lemma macc_loop_poccs x k es : forall const elist,
  poccs x (snd (macc_loop k es const elist)) -> poccs x elist \/ poccs x es.
Proof.
  induction es as [|e es IH]; intros const elist H; [simpl in H; auto|].
  rewrite poccs_cons.
  assert (Hsame : forall c', poccs x (snd (macc_loop k es c' elist)) -> poccs x elist \/ poccurs x e \/ poccs x es).
  { intros c' H'. apply IH in H'. tauto. }
  assert (Hother : poccs x (snd (macc_loop k es const (elist ++ [e]))) -> poccs x elist \/ poccurs x e \/ poccs x es).
  { intros H'. apply IH in H'. rewrite poccs_app, poccs_cons in H'.
    destruct H' as [[H'|[H'|H']]|H']; auto. contradict H'. apply poccs_nil. }
  assert (Hacc : forall es' c c', e = mk_acc k es' c ->
      poccs x (snd (macc_loop k es c' (elist ++ es'))) -> poccs x elist \/ poccurs x e \/ poccs x es).
  { intros es' c c' -> H'. apply IH in H'. rewrite poccs_app in H'.
    destruct H' as [[H'|H']|H']; auto. right; left. apply poccurs_mk_acc. exact H'. }
  assert (Hz : forall z : Z, poccs x (snd (z, @nil expr)) -> poccs x elist \/ poccurs x e \/ poccs x es).
  { intros z H'. contradict H'. apply poccs_nil. }
  destruct e as [z|y|p y|e1|e1|e1|o l r|es1 c1|es1 c1];
    try (destruct k; apply Hother; exact H).
  - cbn [macc_loop] in H. destruct (z =? neutral k); [eauto|].
    destruct (absorbs k z); [eauto|]. cbn zeta in H.
    destruct (absorbs k (acc_op k const z)); eauto.
  - cbn [macc_loop] in H. destruct k; cbn [as_acc] in H; [|auto].
    destruct es1; [eauto|]. destruct (c1 =? neutral KSum); [eapply Hacc; [reflexivity|exact H]|].
    cbn zeta in H. destruct (absorbs KSum (acc_op KSum const c1)); [eauto|].
    eapply Hacc; [reflexivity|exact H].
  - cbn [macc_loop] in H. destruct k; cbn [as_acc] in H; [auto|].
    destruct es1; [eauto|]. destruct (c1 =? neutral KProd); [eapply Hacc; [reflexivity|exact H]|].
    cbn zeta in H. destruct (absorbs KProd (acc_op KProd const c1)); [eauto|].
    eapply Hacc; [reflexivity|exact H].
Qed.

Lemma poccurs_coerce x o : poccurs x (coerce o) -> opoccurs x o.
Proof. destruct o; simpl; [inversion 1|auto]. Qed.

Lemma expand_poccs x k o : poccs x (expand k o) -> opoccurs x o.
Proof.
  assert (Hdef : poccs x [coerce o] -> opoccurs x o).
  { rewrite poccs_cons. intros [H|H]; [now apply poccurs_coerce|contradict H; apply poccs_nil]. }
  assert (Hbin : forall op l r, poccs x [l; r] -> poccurs x (Bin op l r)).
  { intros op l r. rewrite !poccs_cons. intros [H|[H|H]]; [now apply pocc_binl|now apply pocc_binr|contradict H; apply poccs_nil]. }
  destruct o as [n|e]; [destruct k; exact Hdef|].
  destruct k, e; try exact Hdef; destruct o; try exact Hdef; apply Hbin.
Qed.

Lemma make_acc_poccurs x k l r : poccurs x (make_acc k l r) -> opoccurs x l \/ opoccurs x r.
Proof.
  intros H.
  enough (Ho : poccs x (expand k l ++ expand k r)).
  { apply poccs_app in Ho. destruct Ho as [Ho|Ho]; apply expand_poccs in Ho; auto. }
  revert H. unfold make_acc.
  pose proof (macc_loop_poccs x k (expand k l ++ expand k r) (neutral k) []) as Hl.
  destruct (macc_loop k (expand k l ++ expand k r) (neutral k) []) as [c el].
  cbn [snd] in Hl.
  assert (Hel : poccs x el -> poccs x (expand k l ++ expand k r)).
  { intros H. destruct (Hl H) as [H'|H']; [contradict H'; apply poccs_nil|assumption]. }
  intros H. apply Hel.
  destruct el as [|e1 [|e2 [|e3 el]]].
  - inversion H.
  - rewrite poccs_cons. left. destruct (c =? neutral k); [assumption|]. inversion H; subst; [|assumption].
    match goal with H : poccurs x (Const _) |- _ => inversion H end.
  - destruct (c =? neutral k); [|now apply acc_init_poccurs in H].
    rewrite !poccs_cons. inversion H; auto.
  - destruct (c =? neutral k); now apply acc_init_poccurs in H.
Qed.

Lemma py_op_poccurs x u a b o : py_op u a b = Ok o -> opoccurs x o -> opoccurs x a \/ opoccurs x b.
Proof.
  assert (Hmk : forall k l r, opoccurs x (OExpr (make_acc k l r)) -> opoccurs x l \/ opoccurs x r)
    by (intros; now apply make_acc_poccurs with (k := k)).
  assert (Hbin : forall op l r, poccurs x (Bin op l (coerce r)) -> poccurs x l \/ opoccurs x r).
  { intros op l r H. inversion H; subst; [auto|]. right. now apply poccurs_coerce. }
  assert (Hneg : forall r, poccurs x (Neg (coerce r)) -> opoccurs x r).
  { intros r H. inversion H; subst. now apply poccurs_coerce. }
  assert (Hadd : forall l r o', expr_add l r = Ok o' -> opoccurs x o' -> poccurs x l \/ opoccurs x r).
  { intros l r o' H Ho. destruct l; cbn [expr_add] in H;
      try (destruct (as_const r) as [w|]; [destruct (w =? 0)|]; inv_ok; auto;
           exact (Hmk KSum _ _ Ho)).
    destruct (z =? 0); [inv_ok; right; now apply poccurs_coerce|].
    destruct (as_const r); inv_ok; [inversion Ho|exact (Hmk KSum _ _ Ho)]. }
  assert (Hsub : forall l r o', expr_sub l r = Ok o' -> opoccurs x o' -> poccurs x l \/ opoccurs x r).
  { intros l r o' H Ho. destruct l; cbn [expr_sub] in H;
      try (destruct (as_const r) as [w|]; [destruct (w =? 0)|]; inv_ok; auto;
           exact (Hbin _ _ _ Ho)).
    destruct (z =? 0); [inv_ok; right; now apply Hneg|].
    destruct (as_const r); inv_ok; [inversion Ho|exact (Hbin _ _ _ Ho)]. }
  assert (Hmul : forall l r o', expr_mul l r = Ok o' -> opoccurs x o' -> poccurs x l \/ opoccurs x r).
  { intros l r o' H Ho. destruct l; cbn [expr_mul] in H;
      try (destruct (as_const r) as [w|]; [destruct (w =? 0); [|destruct (w =? 1)]|]; inv_ok; auto;
           try (inversion Ho; fail);
           exact (Hmk KProd _ _ Ho)).
    destruct (z =? 0); [inv_ok; inversion Ho|].
    destruct (z =? 1); [inv_ok; right; now apply poccurs_coerce|].
    destruct (as_const r); inv_ok; [inversion Ho|exact (Hmk KProd _ _ Ho)]. }
  assert (Hdiv : forall l r o', expr_div l r = Ok o' -> opoccurs x o' -> poccurs x l \/ opoccurs x r).
  { intros l r o' H Ho. destruct l; cbn [expr_div] in H;
      try (destruct (as_const r) as [w|]; [destruct (w =? 1)|]; inv_ok; auto;
           exact (Hbin _ _ _ Ho)).
    destruct (z =? 0); [inv_ok; inversion Ho|].
    destruct (as_const r).
    - apply bind_Ok in H. destruct H as (q & Hq & H). inv_ok. inversion Ho.
    - inv_ok. exact (Hbin _ _ _ Ho). }
  assert (Hmod : forall l r o', expr_mod l r = Ok o' -> opoccurs x o' -> poccurs x l \/ opoccurs x r).
  { intros l r o' H Ho. destruct l; cbn [expr_mod] in H; try (inv_ok; exact (Hbin _ _ _ Ho)).
    destruct (as_const r).
    - apply bind_Ok in H. destruct H as (q & Hq & H). inv_ok. inversion Ho.
    - inv_ok. exact (Hbin _ _ _ Ho). }
  assert (Hpow : forall l r o', expr_pow l r = Ok o' -> opoccurs x o' -> poccurs x l \/ opoccurs x r).
  { intros l r o' H Ho. destruct l; cbn [expr_pow] in H;
      try (destruct (as_const r) as [w|]; [destruct (w =? 0); [|destruct (w =? 1)]|]; inv_ok; auto;
           try (inversion Ho; fail);
           exact (Hbin _ _ _ Ho)).
    destruct (z =? 1); [inv_ok; inversion Ho|].
    destruct (as_const r).
    - apply bind_Ok in H. destruct H as (q & Hq & H). inv_ok. inversion Ho.
    - inv_ok. exact (Hbin _ _ _ Ho). }
  assert (Hcmp : forall op l r o', expr_cmp op l r = Ok o' -> opoccurs x o' -> poccurs x l \/ opoccurs x r).
  { intros op l r o' H Ho. destruct l; cbn [expr_cmp] in H; try (inv_ok; exact (Hbin _ _ _ Ho)).
    destruct (as_const r).
    - apply bind_Ok in H. destruct H as (q & Hq & H). inv_ok. inversion Ho.
    - inv_ok. exact (Hbin _ _ _ Ho). }
  assert (Hc : forall n, poccurs x (Const n) -> False) by (intros n H; inversion H).
  intros H Ho. destruct a as [n|l], b as [m|r]; cbn [py_op] in H.
  - destruct u; simpl in H; try (inv_ok; inversion Ho; fail);
      unfold py_floordiv, py_mod, py_pow in H;
      repeat match type of H with context [if ?c then _ else _] => destruct c end;
      simpl in H; try discriminate; inv_ok; inversion Ho.
  - right. destruct u; cbn [int_expr_op cmp_of] in H; try discriminate;
      try (destruct (Hcmp _ _ _ _ H Ho) as [H'|H']; [exact H'|contradiction]);
      try (first [destruct (Hadd _ _ _ H Ho) as [H'|H'] | destruct (Hsub _ _ _ H Ho) as [H'|H']
           | destruct (Hmul _ _ _ H Ho) as [H'|H'] | destruct (Hmod _ _ _ H Ho) as [H'|H']
           | destruct (Hpow _ _ _ H Ho) as [H'|H']]; [exfalso; eapply Hc; eassumption|exact H']);
      inv_ok; inversion Ho; subst; auto; exfalso; eapply Hc; eassumption.
  - destruct u; cbn [expr_op cmp_of] in H; try discriminate; eauto;
      try (rewrite expr_logic_is_cmp in H; eauto).
  - destruct u; cbn [expr_op cmp_of] in H; try discriminate; eauto;
      try (rewrite expr_logic_is_cmp in H; eauto);
      try (destruct (is_var_param l r); [destruct (Hcmp _ _ _ _ H Ho); auto|eauto]).
Qed.

Lemma build_poccurs x f : forall o, build f = Ok o -> opoccurs x o -> In x (fparams f).
Proof.
  induction f as [n|y|p y|f IH|f IH|u f g IHf IHg|fs IH] using formula_ind'; intros o Hbd Ho.
  - simpl in *. inv_ok. contradiction.
  - simpl in *. inv_ok. inversion Ho.
  - simpl in *. inv_ok. inversion Ho; auto.
  - simpl in *. apply bind_Ok in Hbd. destruct Hbd as (o1 & H1 & H2). inv_ok.
    apply (IH o1 H1). destruct o1; simpl in *; [contradiction|]. inversion Ho; assumption.
  - simpl in *. apply bind_Ok in Hbd. destruct Hbd as (o1 & H1 & H2). inv_ok.
    apply (IH o1 H1). destruct o1; simpl in *; [contradiction|]. inversion Ho; assumption.
  - cbn [build] in Hbd. apply bind_Ok in Hbd. destruct Hbd as (of & H1 & Hbd).
    apply bind_Ok in Hbd. destruct Hbd as (og & H2 & Hbd). cbn [fparams]. rewrite in_app_iff.
    destruct (py_op_poccurs x _ _ _ _ Hbd Ho); eauto.
  - cbn [build] in Hbd. cbn [fparams].
    assert (Hgen : forall acc,
      (fix go (acc : operand) (l : list formula) : res operand :=
         match l with
         | [] => Ok acc
         | g :: l' => let! o := build g in let! a := py_op UAdd acc o in go a l'
         end) acc fs = Ok o -> opoccurs x acc \/ In x (flat_map fparams fs)).
    { clear Hbd. induction IH as [|f fs Hf Hfs IH']; intros acc Hbd.
      - inv_ok. auto.
      - apply bind_Ok in Hbd. destruct Hbd as (of & H1 & Hbd).
        apply bind_Ok in Hbd. destruct Hbd as (acc' & H2 & Hbd).
        cbn [flat_map]. rewrite in_app_iff.
        destruct (IH' _ Hbd) as [H|H]; [|auto].
        destruct (py_op_poccurs x _ _ _ _ H2 H); eauto. }
    destruct (Hgen _ Hbd) as [H|H]; [contradiction|assumption].
Qed.

Lemma params_poccurs x e : In x (params e) -> poccurs x e.
Proof.
  induction e as [z|y|p y|e IH|e IH|e IH|o l r IHl IHr|es c IH|es c IH] using expr_ind'; cbn [params]; intros H; try contradiction.
  - destruct H as [<-|[]]. constructor.
  - constructor. auto.
  - constructor. auto.
  - constructor. auto.
  - apply in_app_or in H. destruct H; [apply pocc_binl|apply pocc_binr]; auto.
  - apply in_flat_map in H. destruct H as (e & Hin & H). rewrite Forall_forall in IH. eapply pocc_sum; eauto.
  - apply in_flat_map in H. destruct H as (e & Hin & H). rewrite Forall_forall in IH. eapply pocc_prod; eauto.
Qed.

Lemma build_params f e : fparams f = [] -> build f = Ok (OExpr e) -> params e = [].
Proof.
  intros Hf Hb. destruct (params e) as [|p l] eqn:E; [reflexivity|exfalso].
  assert (H : In p (params e)) by (rewrite E; now left). apply params_poccurs in H.
  pose proof (build_poccurs p f (OExpr e) Hb H) as C. rewrite Hf in C. contradiction.
Qed.
