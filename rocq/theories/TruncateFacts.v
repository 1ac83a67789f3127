(** Limits and timeouts cut the search short. *)
From Coq Require Import Permutation.
From Verif Require Import Solver SolverWatch SpecFormula SpecSafe SpecSolve SpecOrder SpecWatch ExprFacts DictFacts ModelFacts
  CompileFacts CodeFacts SearchFacts LoopFacts EnumFacts SetupFacts SolveFacts MasterFacts HistoryFacts SolverProps
  OrderFacts WatchFacts WatchProps WatchCost.
Open Scope list_scope.
Open Scope Z_scope.

Lemma prefix_len {A} (l l' : list A) : prefix l l' -> len l <= len l'.
Proof. intros [q ->]. unfold len. rewrite app_length. lia. Qed.

Lemma truncated clk clk' shuffle f f' e sv a a' ts ts' ys ys' e1 e2 r' :
  let m := w_model (e_world e) in
  valid shuffle e a ->
  solve_watched clk shuffle f e sv a = Some (ts, ys, e1, None) ->
  solve_watched clk' shuffle f' e sv a' = Some (ts', ys', e2, r') ->
  e_interrupt e1 = None -> m_solvable m = true -> has_variable m ->
  x_additional a' = x_additional a -> policy_of sv a' = policy_of sv a ->
  prefix ts' ts /\ prefix ys' ys /\
  Z.of_nat (iterations clk' shuffle f' e (GInit sv a')) <= Z.of_nat (iterations clk shuffle f e (GInit sv a)) + 2.
Proof.
  intros m Hv H H' Hend Hsol Hhv Eadd Epol.
  assert (Hv' : valid shuffle e a').
  { destruct Hv as (H1 & H2 & H3 & H4). split; [exact H1|]. split; [exact H2|]. split; [exact H3|]. unfold all_cons in *. now rewrite Eadd. }
  pose proof (watched_all clk shuffle f e sv a ts ys e1 None H) as HA.
  destruct (watched_cases clk shuffle f e sv a ts ys e1 None Hv H) as [(_ & _ & [E|[E|E]])|(u & order & Es & Eo & _ & _ & Hall)];
    [contradiction|fold m in E; congruence|contradiction|].
  specialize (Hall eq_refl Hend). fold m in Eo, Hall.
  assert (Hys : ys = enum (e_world e1) (GInfo (u_doms u) (u_cons u) (u_ad u)) order []).
  { destruct (run_cases clk shuffle f e sv a ys e1 None Hv HA) as [(_ & _ & _ & [(E & _)|[(_ & E & _)|(_ & _ & _ & ex & E & _)]])|(_ & _ & _ & u' & order' & ys0 & r0 & Es' & Eo' & _ & _ & Hp0 & Hr0 & Hf & _)];
      try (fold m in E; congruence); try contradiction.
    fold m in Eo', Hp0, Hr0. rewrite Es in Es'. injection Es' as Eu. subst u'. rewrite <- Eo in Eo'. subst order'.
    destruct Hf as [Ey Er _ _ _ _ _| | | | ]; try congruence. destruct r0 as [k|ex]; [|discriminate]. subst ys. exact Hr0. }
  assert (Hne : ts <> []).
  { rewrite Hall. destruct (order_facts shuffle _ _ _ _ _ sv a (proj1 Hv) (proj1 (proj2 Hv)) (proj2 (proj2 (proj2 Hv))) Es) as (Hpm & _). fold m in Hpm. rewrite <- Eo in Hpm.
    destruct order as [|x q]; [|discriminate]. exfalso. apply Permutation_nil in Hpm. destruct Hhv as (x & d & Hx).
    assert (Hin : In x (dkeys (pure_variables (m_vars m)))) by (apply pure_keys_In; now exists d).
    rewrite Hpm in Hin. destruct Hin. }
  assert (Hpre : prefix ts' ts /\ prefix ys' ys).
  { destruct (watched_cases clk' shuffle f' e sv a' ts' ys' e2 r' Hv' H') as [(-> & -> & _)|(u' & order' & Es' & Eo' & Hpy & Hpt & _)].
    - split; [now exists ts|now exists ys].
    - rewrite Eadd, Es in Es'. injection Es' as Ew Eu. subst u'. rewrite <- Ew in Hpy, Hpt. fold m in Eo'.
      assert (E : order' = order).
      { rewrite Eo', Eo. unfold order_of. change (arg_or (x_policy a') (s_policy sv)) with (policy_of sv a').
        change (arg_or (x_policy a) (s_policy sv)) with (policy_of sv a). now rewrite Epol. }
      rewrite E in Hpt, Hpy. rewrite Hall, Hys. split; [exact Hpt|exact Hpy]. }
  destruct Hpre as [P1 P2]. split; [exact P1|]. split; [exact P2|].
  pose proof (prefix_len _ _ P1). pose proof (prefix_len _ _ P2).
  pose proof (proj2 (cost clk shuffle f e sv a ts ys e1 None Hv H) eq_refl Hend Hne).
  pose proof (proj1 (cost clk' shuffle f' e sv a' ts' ys' e2 r' Hv' H')). lia.
Qed.
