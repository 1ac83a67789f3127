(** Truth values of expressions; [free_vars]. *)
From Coq Require Import Lia.
From Verif Require Import Dec PyText PyLogic SpecFormula SpecSafe SpecText ExprFacts CompileFacts SafeFacts StrFacts.
Open Scope list_scope.
Open Scope Z_scope.

(** ** The operators never build empty sums or products *)
Fixpoint sized (e : expr) : bool :=
  match e with
  | Const _ | Var _ | Param _ _ => true
  | Neg e1 | Abs e1 | Not e1 => sized e1
  | Bin _ l r => sized l && sized r
  | Sum es c => three_values KSum es c && forallb sized es
  | Prod es c => three_values KProd es c && forallb sized es
  end.
Lemma sized_acc k es c : sized (mk_acc k es c) = three_values k es c && forallb sized es.
Proof. destruct k; reflexivity. Qed.
Definition full (e : expr) : Prop := sized e = true /\ normal e = true.
Definition full_elem k (e : expr) : Prop := full e /\ elem k e = true.
Lemma full_elems k es c : full (mk_acc k es c) -> Forall (full_elem k) es.
Proof.
  intros [P N]. rewrite sized_acc in P. apply andb_true_iff in P. destruct P as [_ P]. rewrite normal_acc, forallb_forall in N. rewrite forallb_forall in P.
  apply Forall_forall. intros e He. specialize (N e He). apply andb_true_iff in N. destruct N. repeat split; auto.
Qed.
Lemma full_elem_of k e : full e -> (forall z, e <> Const z) -> as_acc k e = None -> full_elem k e.
Proof. intros F Hc Ha. split; [exact F|]. destruct e; destruct k; try reflexivity; try discriminate Ha; now destruct (Hc z). Qed.
Lemma sized_nonempty k es c : sized (mk_acc k es c) = true -> es <> [].
Proof. rewrite sized_acc. intros H ->. unfold three_values in H. destruct (c =? neutral k); discriminate. Qed.
Lemma full_elem_ok k e : full_elem k e -> elem_ok k e.
Proof.
  intros [[P _] E]. assert (He : as_empty_acc e = None).
  { destruct (as_empty_acc e) as [c|] eqn:Ee; [|reflexivity]. apply as_empty_acc_inv in Ee. destruct Ee as (k' & ->). now apply sized_nonempty in P. }
  split; [|split; [|assumption]]; destruct e; destruct k; try discriminate; reflexivity.
Qed.
Lemma full_const z : full (Const z).
Proof. split; reflexivity. Qed.
Lemma full_bin o l r : full l -> full r -> full (Bin o l r).
Proof. intros [P N] [P' N']. split; cbn; [now rewrite P, P'|now rewrite N, N']. Qed.
Lemma full_bin_inv o l r : full (Bin o l r) -> full l /\ full r.
Proof. intros [P N]. cbn [normal sized] in *. apply andb_true_iff in P, N. destruct P, N. now repeat split. Qed.
Lemma full_acc_init k es c : Forall (full_elem k) es -> three_values k es c = true -> full (acc_init k es c).
Proof.
  intros H H3. unfold acc_init. rewrite acc_loop_copy by (eapply Forall_impl; [|exact H]; intros e; apply full_elem_ok).
  cbn [app]. rewrite Forall_forall in H. split.
  - rewrite sized_acc, H3. apply forallb_forall. intros e He. apply (H e He).
  - rewrite normal_acc. apply forallb_forall. intros e He. destruct (H e He) as [[_ N] E]. now rewrite E, N.
Qed.
Lemma full_make_acc k l r : full (coerce l) -> full (coerce r) -> full (make_acc k l r).
Proof.
  intros Hl Hr. unfold make_acc.
  pose proof (macc_loop_Forall k full (full_elem k) (full_elem_of k) (full_elems k) (expand k l ++ expand k r) (neutral k) []) as H.
  destruct (macc_loop k (expand k l ++ expand k r) (neutral k) []) as [const elist]. cbn [snd] in H.
  specialize (H ltac:(apply Forall_app; split; (apply expand_Forall; [intros a b; apply full_bin_inv|assumption])) (Forall_nil _)).
  destruct elist as [|e1 [|e2 [|e3 es]]].
  - apply full_const.
  - inversion H as [|? ? [H1 _] _]; subst. destruct (const =? neutral k); [assumption|]. apply full_bin; [apply full_const|assumption].
  - inversion H as [|? ? [H1 _] H']; subst. inversion H' as [|? ? [H2 _] _]; subst.
    destruct (const =? neutral k) eqn:E; [now apply full_bin|]. apply full_acc_init; [assumption|]. unfold three_values. now rewrite E.
  - destruct (const =? neutral k) eqn:E; apply full_acc_init; try assumption; unfold three_values; apply Nat.leb_le; cbn [length]; lia.
Qed.
Lemma full_py_op u a b o : full (coerce a) -> full (coerce b) -> py_op u a b = Ok o -> full (coerce o).
Proof. apply closed_py_op; [apply full_const|intros e [P N]; now split|apply full_bin|apply full_make_acc]. Qed.
Lemma build_full f : forall o, build f = Ok o -> full (coerce o).
Proof.
  induction f as [n|x|p x|g IH|g IH|u g h IHg IHh|gs IH] using formula_ind'; intros o H.
  - injection H as <-. apply full_const.
  - injection H as <-. split; reflexivity.
  - injection H as <-. split; reflexivity.
  - cbn [build] in *. destruct (build g) as [a|]; [|discriminate]. injection H as <-. specialize (IH a eq_refl). destruct a; [apply full_const|exact IH].
  - cbn [build] in *. destruct (build g) as [a|]; [|discriminate]. injection H as <-. specialize (IH a eq_refl). destruct a; [apply full_const|exact IH].
  - cbn [build] in *. destruct (build g) as [a|]; [|discriminate]. destruct (build h) as [b|]; [|discriminate]. cbn [bind] in H. eapply full_py_op; [| |exact H]; auto.
  - cbn [build] in *. assert (Hacc : full (coerce (OInt 0))) by apply full_const. revert Hacc H. generalize (OInt 0) as acc.
    induction gs as [|g gs IHgs]; intros acc Hacc H; [injection H as <-; assumption|].
    inversion IH as [|? ? IHg IH']; subst.
    destruct (build g) as [a|] eqn:Eg; [|discriminate]. cbn [bind] in H.
    destruct (py_op UAdd acc a) as [acc'|] eqn:E; [|discriminate]. cbn [bind] in H.
    eapply IHgs; [assumption| |exact H]. eapply full_py_op; [exact Hacc|exact (IHg a eq_refl)|exact E].
Qed.
Lemma full_true e : full e -> py_bool (OExpr e) = true.
Proof.
  intros [H _]. destruct e as [z|x|p x|e|e|e|o l r|es c|es c]; try reflexivity.
  - apply (sized_nonempty KSum) in H. now destruct es.
  - apply (sized_nonempty KProd) in H. now destruct es.
Qed.
Lemma build_true f e : build f = Ok (OExpr e) -> py_bool (OExpr e) = true.
Proof. intros H. apply full_true. exact (build_full f _ H). Qed.

Lemma chain_last u u' fa fb fc a b c e : build fa = Ok a -> build fb = Ok b -> build fc = Ok c -> py_op u a b = Ok (OExpr e) ->
  py_chain u u' a b c = py_op u' b c.
Proof.
  intros Ha Hb Hc H. unfold py_chain, py_and. rewrite H. cbn [bind]. rewrite full_true; [reflexivity|].
  apply (full_py_op u a b _ (build_full _ _ Ha) (build_full _ _ Hb) H).
Qed.
Lemma logic_python f e : build f = Ok (OExpr e) ->
  (forall b, py_and (OExpr e) b = b) /\ (forall b, py_or (OExpr e) b = Ok (OExpr e)) /\ py_not (OExpr e) = OInt 0.
Proof. intros H. unfold py_and, py_or, py_not. rewrite (build_true f e H). repeat split. Qed.
Lemma chain_refuted : exists o, py_chain ULe ULe (OInt 0) (OExpr (Var "x")) (OInt 5) = Ok (OExpr o) /\
  forall ps s v, dget s "x"%string = Some v -> v < 0 -> evaluate ps s o = Ok 1.
Proof.
  exists (Bin OLe (Var "x") (Const 5)). split; [reflexivity|]. intros ps s v E Hv. cbn. rewrite E. cbn.
  assert (H : (v <=? 5) = true) by (apply Z.leb_le; lia). now rewrite H.
Qed.

(** ** [free_vars] *)
Lemma dedup_id l : forall acc, NoDup (acc ++ l) -> dedup_acc acc l = acc ++ l.
Proof.
  induction l as [|x l IH]; intros acc H; cbn [dedup_acc]; [now rewrite app_nil_r|].
  assert (Hx : memb x acc = false). { apply memb_false. intros Hin. apply NoDup_remove_2 in H. apply H. apply in_or_app. now left. }
  rewrite Hx, IH; [now rewrite <- app_assoc|]. now rewrite <- app_assoc.
Qed.
Lemma dedup_vars e : dedup (vars e) = vars e.
Proof. apply (dedup_id (vars e) []). apply vars_NoDup. Qed.
Lemma free_vars_filter s e l : free_vars s e = Ok l -> l = filter (fun x => negb (dmem s x)) (vars e).
Proof.
  revert l. induction e as [z|y|p y|e IH|e IH|e IH|o l r IHl IHr|es c IH|es c IH] using expr_ind'; intros ls H; cbn [free_vars] in H; try (injection H as <-; reflexivity).
  - injection H as <-. cbn. now destruct (dmem s y).
  - discriminate.
  - cbn [vars]. rewrite dedup_vars. auto.
  - cbn [vars]. rewrite dedup_vars. auto.
  - cbn [vars]. rewrite dedup_vars. auto.
Qed.
Lemma free_vars_ok s e l : free_vars s e = Ok l -> NoDup l /\ forall x, In x l <-> occurs x e /\ dmem s x = false.
Proof.
  intros H. apply free_vars_filter in H. subst l. split.
  - apply NoDup_filter, vars_NoDup.
  - intros x. rewrite filter_In, vars_occurs, negb_true_iff. reflexivity.
Qed.
Lemma free_vars_err s e : (bare_parameter e <-> exists ex, free_vars s e = Err ex) /\ forall ex, free_vars s e = Err ex -> ex = TypeError.
Proof.
  induction e as [z|y|p y|e IH|e IH|e IH|o l r IHl IHr|es c IH|es c IH] using expr_ind'; cbn [free_vars];
    try (split; [split; [intros H; inversion H|intros (ex & H); discriminate]|intros ex H; discriminate]).
  - split; [split; [eexists; reflexivity|constructor]|]. intros ex H. now injection H.
  - destruct IH as [[I1 I2] I3]. split; [split; [intros H; inversion H; auto|intros H; constructor; auto]|exact I3].
  - destruct IH as [[I1 I2] I3]. split; [split; [intros H; inversion H; auto|intros H; constructor; auto]|exact I3].
  - destruct IH as [[I1 I2] I3]. split; [split; [intros H; inversion H; auto|intros H; constructor; auto]|exact I3].
Qed.
Lemma free_vars_none ps s e l : free_vars s e = Ok l ->
  (l = [] -> evaluate ps s e <> Err EvaluationError) /\ (forall v, evaluate ps s e = Ok v -> l = []).
Proof.
  intros H. destruct (free_vars_ok s e l H) as [_ HI]. split.
  - intros -> E. revert E. apply evaluate_bound. intros x Hx. destruct (dmem s x) eqn:Em.
    + unfold dmem in Em. destruct (dget s x); [discriminate|discriminate Em].
    + exfalso. now apply (proj2 (HI x)).
  - intros v E. destruct l as [|x l]; [reflexivity|]. exfalso. destruct (proj1 (HI x) (or_introl eq_refl)) as [Ho Hm].
    destruct (evaluate_Ok_bound ps s e v x E Ho) as (w & Hw). unfold dmem in Hm. now rewrite Hw in Hm.
Qed.
