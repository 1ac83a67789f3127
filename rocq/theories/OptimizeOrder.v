(** The solutions of an optimisation come in lexicographic order. *)
From Coq Require Import Permutation.
From Verif Require Import Optimize SolverWatch OptimizeWatch SpecFormula SpecSafe SpecSolve SpecOrder SpecSpace SpecWatch SpecOptimize ExprFacts DictFacts ModelFacts
  CompileFacts CodeFacts SearchFacts LoopFacts EnumFacts SetupFacts SolveFacts MasterFacts SolverProps SolverMore
  OrderFacts TraceFacts OptimizeFacts OptimizeRun OptimizeSingle OptimizeProps WatchFacts WatchProps SpecBound BoundFacts.
Open Scope list_scope.
Open Scope Z_scope.

(** Whatever the consumer does, the search finds a subsequence of all assignments. *)
Lemma search_subseq i consumer w0 xs : forall k w s ys w' r,
  search i consumer xs k w s = (ys, w', r) -> subseq ys (enum w0 (bare i) xs s).
Proof.
  induction xs as [|x rest IH]; intros k w s ys w' r H; cbn [search enum] in *.
  - destruct (consumer k w s); injection H as <- _ _; apply subseq_refl.
  - assert (Hall : filter (passed w0 (bare i) x s) (dom (bare i) x) = dom i x).
    { change (dom (bare i) x) with (dom i x). induction (dom i x) as [|v d IHd]; [reflexivity|]. cbn [filter]. rewrite bare_passed. now rewrite IHd. }
    rewrite Hall. destruct (filter_domain w i x s) as [d|ex] eqn:Ef; [|injection H as <- _ _; constructor].
    assert (Hd : d = filter (passed w i x s) (dom i x)).
    { unfold filter_domain in Ef. destruct (dget (i_doms i) x) as [dm|] eqn:Edm; [|discriminate].
      apply filterM_Ok in Ef. unfold dom, dget_or. rewrite Edm. exact Ef. }
    assert (Hsub : subseq (flat_map (fun v => enum w0 (bare i) rest (dset s x v)) d) (flat_map (fun v => enum w0 (bare i) rest (dset s x v)) (dom i x))).
    { rewrite Hd. apply subseq_flat_filter. }
    apply (subseq_trans _ _ Hsub). clear Hsub Hd Ef Hall.
    revert k w ys w' r H. induction d as [|v d IHd]; intros k w ys w' r H; cbn [values flat_map] in *.
    { injection H as <- _ _. constructor. }
    destruct (search i consumer rest k w (dset s x v)) as [[ys1 w1] [k1|ex]] eqn:Es.
    + destruct (values _ d k1 w1) as [[zs w2] r2] eqn:Ev. injection H as <- _ _.
      apply subseq_app; [exact (IH _ _ _ _ _ _ Es)|exact (IHd _ _ _ _ _ Ev)].
    + injection H as <- _ _. rewrite <- (app_nil_r ys1). apply subseq_app; [exact (IH _ _ _ _ _ _ Es)|constructor].
Qed.

Lemma prefix_subseq {A} (a b : list A) : prefix a b -> subseq a b.
Proof. intros [c ->]. rewrite <- (app_nil_r a) at 1. apply subseq_app; [apply subseq_refl|constructor]. Qed.

(** The order of the policies that do not depend on the constraints. *)
Lemma select_plain shuffle p m m' u : shuffles shuffle -> dkeys (u_doms u) = variables_of m ->
  (forall x, In x (variables_of m) -> domain_size m' x = domain_size m x) ->
  plain_order shuffle p m (select_order shuffle p m' u).
Proof.
  intros Hs Hk Hd. pose proof (select_order_perm shuffle p m' u Hs) as Hp. rewrite Hk in Hp.
  unfold plain_order. destruct p; try exact Hp; unfold select_order; rewrite Hk; try reflexivity.
  - apply (sorted_by_sorts _ (fun x => [dom_size m' x])); [| |reflexivity].
    + intros x y Hx Hy H. apply lex1 in H. now rewrite !domain_size_eq, !Hd in H by assumption.
    + intros x y Hx Hy E. now rewrite !domain_size_eq, !Hd, E by assumption.
  - apply (sorted_rev_sorts _ (fun x => [dom_size m' x])); [| |reflexivity].
    + intros x y Hx Hy H. apply lex1 in H. rewrite !domain_size_eq, !Hd in H by assumption. lia.
    + intros x y Hx Hy E. now rewrite !domain_size_eq, !Hd, E by assumption.
Qed.

Lemma some_order shuffle p m : shuffles shuffle -> exists order, Permutation order (variables_of m) /\ plain_order shuffle p m order.
Proof.
  intros Hs. set (u := Setup (map (fun x => (x, [])) (variables_of m)) [] [] [] [] []).
  assert (Hk : dkeys (u_doms u) = variables_of m).
  { unfold u, dkeys. cbn [u_doms]. rewrite map_map. apply map_id. }
  exists (select_order shuffle p m u). split; [rewrite <- Hk; now apply select_order_perm|]. now apply select_plain.
Qed.

Lemma optimize_order clk shuffle f e sv os a ys e' r :
  let m := w_model (e_world e) in
  opt_valid shuffle e os a -> optimize_all clk shuffle f e sv os a = Some (ys, e', r) ->
  exists order, Permutation order (variables_of m) /\
    plain_order shuffle (policy_of sv a) m order /\
    (forall s, In s ys -> map fst s = order) /\
    NoDup ys /\ ForallOrdPairs (lex_before order (declared m)) ys.
Proof.
  intros m Hv H.
  assert (Hs : shuffles shuffle) by exact (proj1 (proj1 Hv)).
  assert (Hn : well_named m) by exact (proj1 (proj2 (proj1 Hv))).
  assert (Hd : domains_ok m) by exact (proj1 (proj2 (proj2 (proj1 Hv)))).
  assert (Hnil : ys = [] -> exists order, Permutation order (variables_of m) /\
    plain_order shuffle (policy_of sv a) m order /\
    (forall s, In s ys -> map fst s = order) /\
    NoDup ys /\ ForallOrdPairs (lex_before order (declared m)) ys).
  { intros ->. destruct (some_order shuffle (policy_of sv a) m Hs) as (order & Hp & Ho). exists order.
    split; [exact Hp|]. split; [exact Ho|]. split; [intros s []|]. split; constructor. }
  destruct (opt_run clk shuffle f e sv os a ys e' r Hv H) as [(_ & E & _)|(wA & oms & Emk & Hany)]; [now apply Hnil|].
  destruct (opt_loop clk shuffle e sv os a ys e' r Hv wA oms Emk Hany) as [(E & _)|(_ & _ & u & ys0 & w' & r0 & Es & Hsearch & Hpre & _)]; [now apply Hnil|].
  set (aA := with_objectives a oms) in *.
  destruct (made_facts shuffle e os a Hv wA oms Emk) as ((aux & Hx) & HnA & Eos & M).
  pose proof Hx as (Em & Haux & _).
  assert (HoA : objects wA (all_cons (w_model wA) aA)) by exact (made_objects shuffle e os a Hv wA oms Emk).
  assert (Hvar : forall x d, is_variable (w_model wA) x d <-> is_variable m x d) by (intros x d; exact (extends_variable (e_world e) wA aux x d Hx)).
  assert (Hvars : dkeys (pure_variables (m_vars (w_model wA))) = variables_of m).
  { rewrite Em. cbn [m_vars]. rewrite pure_aux; [apply variables_of_pure|]. intros x j Hin.
    destruct (Haux x j Hin) as (p & -> & _). eauto. }
  destruct (opt_setup shuffle e sv os a Hv wA oms Emk _ u Es) as (Ew & Hu & Hg & Hpm & Hnd & Hin).
  fold aA in Ew, Hu, Hg, Hpm, Hnd, Hin.
  set (order := order_of shuffle sv aA (w_model wA) u) in *.
  set (i := GInfo (u_doms u) (u_cons u) (u_ad u)) in *.
  assert (Hk' : dkeys (u_doms u) = variables_of m).
  { rewrite (ui_keys _ _ _ _ Hu). exact Hvars. }
  assert (Hsub : subseq ys (enum wA (bare i) order [])).
  { apply (subseq_trans ys0); [exact (search_subseq _ _ wA _ _ _ _ _ _ _ Hsearch)|now apply prefix_subseq]. }
  assert (Hsorted : ForallOrdPairs (lex_before order (declared m)) ys).
  { apply (subseq_FOP _ _ _ Hsub).
    eapply FOP_impl; [|exact (enum_sorted wA (bare i) order [] Hnd)].
    intros s s' _ _ (p & x & q & b & c & E & Hp & Hb & Hc & Hbef).
    exists p, x, q, b, c. repeat split; try assumption.
    assert (Hxo : In x order) by (rewrite E; apply in_or_app; right; now left).
    apply (order_In (w_model wA) order Hpm) in Hxo. destruct Hxo as (d & Hxo).
    rewrite (declared_variable m x d Hn (proj1 (Hvar x d) Hxo)).
    exact (loop_dom shuffle (set_world e wA) sv aA _ u Hs HnA HoA Es x d b c Hxo Hbef). }
  exists order.
  split; [rewrite <- Hvars; exact Hpm|].
  split.
  { apply select_plain; [exact Hs|exact Hk'|]. intros x Hxn. rewrite <- Hvars in Hxn.
    apply (Permutation_in x (Permutation_sym Hpm)), (order_In (w_model wA) order Hpm) in Hxn. destruct Hxn as (d & Hxd).
    unfold domain_size. rewrite (declared_variable (w_model wA) x d HnA Hxd). now rewrite (declared_variable m x d Hn (proj1 (Hvar x d) Hxd)). }
  split; [|split; [|exact Hsorted]].
  - intros s Hsi. apply (subseq_In _ _ _ Hsub) in Hsi. apply (enum_In wA (bare i) order [] s Hnd) in Hsi.
    destruct Hsi as (l & -> & E & _). exact E.
  - revert Hsorted. apply FOP_NoDup. intros t (p & x & q & b & c & E & _ & Hb & Hc & Hbef).
    assert (Hxo : In x order) by (rewrite E; apply in_or_app; right; now left).
    apply (order_In (w_model wA) order Hpm) in Hxo. destruct Hxo as (d & Hxo). apply Hvar in Hxo.
    rewrite (declared_variable m x d Hn Hxo) in Hbef.
    apply (NoDup_before d b c (Hd x d Hxo) Hbef). congruence.
Qed.
