(** Proofs for Properties_OptProgram.v. *)
From Verif Require Import Solver Optimize Program OptProgram SpecSolve SpecIsolation SpecInterleave SpecOptimize SpecProgram SpecOptProgram
  DictFacts ModelFacts SolverMore SolverExtra InterleaveFacts OptimizeFacts ProgramFacts ProgramRun ProgramInv ProgramProps ProgramStats
  OptProgramFacts OptProgramInv OptProgramSim.
Open Scope list_scope.
Open Scope Z_scope.

Lemma fresh_handle B q h s a : oinv B q -> fresh q h s a -> (h < q_nhandles q)%nat.
Proof.
  intros Hi Hf. destruct (Nat.lt_ge_cases h (q_nhandles q)) as [H|H]; [exact H|]. exfalso.
  destruct (oi_end _ _ Hi h H) as (s' & i' & E). destruct Hf as [(g & i & E' & _)|(i & os & E')]; congruence.
Qed.

Lemma oprogram_interleaved clk clk' shuffle f F B xs0 log0 q h s a xs log q' ys e r :
  orun clk shuffle f init_oprog xs0 = Some (log0, q) -> oproper_run clk shuffle f B init_oprog (xs0 ++ Plain (Next h) :: xs) ->
  fresh q h s a -> s_compile (so_opts (p_solvers (q_base q) s)) = true -> timeout_of (so_opts (p_solvers (q_base q) s)) a = LNone ->
  by_itself clk' shuffle F q h = Some (ys, e, r) ->
  orun clk shuffle f q (Plain (Next h) :: xs) = Some (log, q') -> ~ In (Plain (Close h)) xs -> Forall assigns_none xs ->
  oresults_of h log = answers (onext_calls h (Plain (Next h) :: xs)) (filter (valued (p_par (q_base q)) (objectives_of q h)) ys) r.
Proof.
  intros H0 Hp Hfr. destruct (oproper_app clk shuffle f B xs0 _ _ _ _ Hp H0) as [Hp0 _].
  pose proof (orun_inv clk shuffle f B xs0 _ _ _ (oinv_init B) Hp0 H0) as Hi.
  intros Hc. eapply (interleaved true); eauto; [eapply fresh_handle; eauto|discriminate].
Qed.

Lemma oprogram_interpreted clk clk' shuffle f F B xs0 log0 q h s a xs log q' ys e r :
  orun clk shuffle f init_oprog xs0 = Some (log0, q) -> oproper_run clk shuffle f B init_oprog (xs0 ++ Plain (Next h) :: xs) ->
  fresh q h s a -> Forall ointerprets (xs0 ++ xs) -> timeout_of (so_opts (p_solvers (q_base q) s)) a = LNone ->
  by_itself clk' shuffle F q h = Some (ys, e, r) ->
  orun clk shuffle f q (Plain (Next h) :: xs) = Some (log, q') -> ~ In (Plain (Close h)) xs -> Forall assigns_none xs ->
  oresults_of h log = answers (onext_calls h (Plain (Next h) :: xs)) (filter (valued (p_par (q_base q)) (objectives_of q h)) ys) r.
Proof.
  intros H0 Hp Hfr Hint. destruct (oproper_app clk shuffle f B xs0 _ _ _ _ Hp H0) as [Hp0 _].
  pose proof (orun_inv clk shuffle f B xs0 _ _ _ (oinv_init B) Hp0 H0) as Hi.
  assert (Hpl : plain q).
  { apply Forall_app in Hint. eapply orun_plain; [apply (oinv_init B)|exact Hp0|exact plain_init|apply Hint|exact H0]. }
  eapply (interleaved false); eauto; [eapply fresh_handle; eauto|].
  apply (proj1 Hpl). destruct Hfr as [(g & i & Eh & Eg)|(i & os & Eh)].
  - pose proof (proj2 Hpl g (oi_gen _ _ Hi h g (or_introl Eh))) as Ho. rewrite Eg in Ho. exact Ho.
  - apply (oi_valid _ _ Hi h s i (ONew os a) Eh). discriminate.
Qed.

(** ** The models *)

Definition grown (m m' : model) : Prop :=
  exists aux, m' = Model (m_vars m ++ aux) (m_cons m) (m_solvable m) /\ forall x v, In (x, v) aux -> exists r, v = VPar r.

Lemma grown_refl m : grown m m.
Proof. exists []. rewrite app_nil_r. split; [now destruct m|intros x v []]. Qed.

Lemma grown_trans m1 m2 m3 : grown m1 m2 -> grown m2 m3 -> grown m1 m3.
Proof.
  intros (a & -> & A) (b & -> & C). exists (a ++ b). cbn. rewrite app_assoc. split; [reflexivity|].
  intros x v H. apply in_app_or in H. destruct H; eauto.
Qed.

Section Frame.
Variable clk : nat -> Z.
Variable shuffle : nat -> list name -> list name.
Variable f : nat.
Variable B : nat -> cbody.

Lemma round_model q p h s i g oms q' o j : tinv p -> round clk shuffle f q p h s i g oms = Some (q', o) -> (j < p_nmodels p)%nat ->
  p_models (q_base q') j = p_models p j.
Proof.
  intros Ht H Hj. unfold round in H. destruct (step clk shuffle f p (Next g)) as [[p1 o1]|] eqn:Es; [|discriminate].
  destruct (step_model clk shuffle f p (Next g) p1 o1 j Ht Es Logic.I Hj) as [Em _].
  destruct o1 as [r|ev|st]; [injection H as <- <-; exact Em| |injection H as <- <-; exact Em].
  destruct ev as [|sol| |ex]; try (injection H as <- <-; exact Em).
  destruct (add_each p1 i oms sol) as [p2 r] eqn:Ea. destruct (add_each_keeps i sol oms p1 p2 r Ea) as (M & _).
  destruct r; injection H as <- <-; cbn; rewrite M; exact Em.
Qed.

Lemma ostep_model q x q' o j : oinv B q -> oproper B q x -> ostep clk shuffle f q x = Some (q', o) -> leaves j x -> (j < p_nmodels (q_base q))%nat ->
  grown (p_models (q_base q) j) (p_models (q_base q') j).
Proof.
  intros Hi Hpr H Hl Hj. pose proof (oi_t _ _ Hi) as Ht.
  assert (Hbase : forall y p' o', step clk shuffle f (q_base q) y = Some (p', o') -> leaves_model j y -> grown (p_models (q_base q) j) (p_models p' j)).
  { intros y p' o' Es Hy. destruct (step_model clk shuffle f _ _ _ _ j Ht Es Hy Hj) as [-> _]. apply grown_refl. }
  destruct x as [x|s i os a].
  2:{ cbn [ostep] in H. cbv zeta in H. destruct (_ && _); injection H as <- <-; apply grown_refl. }
  assert (Hd : inert x \/ ~ inert x) by (destruct x; cbn; auto). destruct Hd as [Hx|Hx].
  - rewrite (ostep_inert clk shuffle f q x Hx) in H. destruct (step clk shuffle f (q_base q) x) as [[p' o']|] eqn:Es; [|discriminate].
    injection H as <- <-. eapply Hbase; eauto.
  - destruct x as [|k c| | | | | |s i a|k|k|]; try (elim Hx; exact Logic.I); cbn [ostep] in H; cbv zeta in H.
    + destruct (_ && _); [|injection H as <- <-; apply grown_refl].
      destruct (step clk shuffle f (q_base q) (Solve s i a)) as [[p' o']|] eqn:Es; [|discriminate]. injection H as <- <-. (eapply Hbase; [exact Es|exact Logic.I]).
    + destruct (Nat.ltb k (q_nhandles q)); [|injection H as <- <-; apply grown_refl]. destruct (q_handles q k) as [g|s i st] eqn:Eh.
      * destruct (step clk shuffle f (q_base q) (Next g)) as [[p' o']|] eqn:Es; [|discriminate]. injection H as <- <-. (eapply Hbase; [exact Es|exact Logic.I]).
      * destruct st as [os a|g oms|]; cbn [onext] in H; cbv zeta in H.
        -- assert (Hnum : numbered (w_model (world_of (q_base q) i))) by (destruct (oi_p _ _ Hi) as (_ & H2 & _); now apply inv_numbered).
           destruct (make_constraints os (world_of (q_base q) i)) as [w r] eqn:Em.
           destruct (make_constraints_spec os _ w r Hnum Em) as ((aux & (X1 & X2 & _) & _) & _).
           assert (Hw : grown (p_models (q_base q) j) (p_models (put_world (q_base q) i w) j)).
           { cbn. unfold upd. destruct (Nat.eqb_spec j i) as [->|]; [|apply grown_refl]. rewrite X1. exists aux. split; [reflexivity|].
             intros y v Hy. destruct (X2 y v Hy) as (r0 & -> & _). eauto. }
           destruct r as [oms|ex]; [|injection H as <- <-; exact Hw].
           destruct (start_parts clk shuffle f B q k s i os a w oms Hi Eh Hpr Em) as (Hst & _ & _ & Hsm & _).
           rewrite Hst in H. destruct (small_inv _ _ _ _ _ _ _ (Hsm (fun _ => False)) Ht (oi_p _ _ Hi)) as [Ht2 _].
           rewrite (round_model _ _ _ _ _ _ _ _ _ j Ht2 H); [exact Hw|exact Hj].
        -- rewrite (round_model _ _ _ _ _ _ _ _ _ j Ht H Hj). apply grown_refl.
        -- injection H as <- <-. apply grown_refl.
    + destruct (Nat.ltb k (q_nhandles q)); [|injection H as <- <-; apply grown_refl]. destruct (q_handles q k) as [g|s i st] eqn:Eh.
      * destruct (step clk shuffle f (q_base q) (Close g)) as [[p' o']|] eqn:Es; [|discriminate]. injection H as <- <-. (eapply Hbase; [exact Es|exact Logic.I]).
      * injection H as <- <-. apply grown_refl.
Qed.

Lemma orun_model xs j : forall q log q', oinv B q -> oproper_run clk shuffle f B q xs -> orun clk shuffle f q xs = Some (log, q') ->
  Forall (leaves j) xs -> (j < p_nmodels (q_base q))%nat -> grown (p_models (q_base q) j) (p_models (q_base q') j).
Proof.
  induction xs as [|x xs IH]; intros q log q' Hi Hp H Hl Hj; cbn in H, Hp; [injection H as <- <-; apply grown_refl|].
  destruct Hp as [P1 P2]. destruct (ostep clk shuffle f q x) as [[q1 o]|] eqn:Es; [|discriminate].
  destruct (orun clk shuffle f q1 xs) as [[log1 q2]|] eqn:Er; [|discriminate]. injection H as <- <-.
  apply Forall_cons_iff in Hl. destruct Hl as [L1 L2].
  pose proof (ostep_goes clk shuffle f B _ _ _ _ Hi P1 Es) as G.
  pose proof (small_sizes _ _ _ _ _ _ _ (go_small _ _ _ _ _ _ _ G) (oi_t _ _ Hi)) as Hz.
  eapply grown_trans; [exact (ostep_model q x q1 o j Hi P1 Es L1 Hj)|]. eapply IH; [exact (go_inv _ _ _ _ _ _ _ G)|exact P2|exact Er|exact L2|lia].
Qed.
End Frame.

Lemma oprogram_frame clk shuffle f B xs0 log0 q xs log q' j :
  orun clk shuffle f init_oprog xs0 = Some (log0, q) -> oproper_run clk shuffle f B init_oprog (xs0 ++ xs) ->
  orun clk shuffle f q xs = Some (log, q') -> Forall (leaves j) xs -> (j < p_nmodels (q_base q))%nat ->
  exists aux, p_models (q_base q') j = Model (m_vars (p_models (q_base q) j) ++ aux) (m_cons (p_models (q_base q) j)) (m_solvable (p_models (q_base q) j)) /\
    forall x v, In (x, v) aux -> exists r, v = VPar r.
Proof.
  intros H0 Hp H Hl Hj. destruct (oproper_app clk shuffle f B xs0 _ _ _ _ Hp H0) as [Hp0 Hp1].
  pose proof (orun_inv clk shuffle f B xs0 _ _ _ (oinv_init B) Hp0 H0) as Hi. exact (orun_model clk shuffle f B xs j q log q' Hi Hp1 H Hl Hj).
Qed.

(** ** The parameters of the program *)

Lemma oprogram_parameters clk shuffle f B xs0 log0 q xs log q' r :
  orun clk shuffle f init_oprog xs0 = Some (log0, q) -> oproper_run clk shuffle f B init_oprog (xs0 ++ xs) ->
  orun clk shuffle f q xs = Some (log, q') -> Forall assigns_none xs -> (r < p_npar (q_base q))%nat -> ~ hidden q r ->
  p_par (q_base q') r = p_par (q_base q) r.
Proof.
  intros H0 Hp H Hn Hr Hh. destruct (oproper_app clk shuffle f B xs0 _ _ _ _ Hp H0) as [Hp0 Hp1].
  pose proof (orun_inv clk shuffle f B xs0 _ _ _ (oinv_init B) Hp0 H0) as Hi. clear H0 Hp Hp0.
  revert q log q' Hi Hp1 H Hn Hr Hh. induction xs as [|x xs IH]; intros q log q' Hi Hp H Hn Hr Hh; cbn in H, Hp; [injection H as <- <-; reflexivity|].
  destruct Hp as [P1 P2]. destruct (ostep clk shuffle f q x) as [[q1 o]|] eqn:Es; [|discriminate].
  destruct (orun clk shuffle f q1 xs) as [[log1 q2]|] eqn:Er; [|discriminate]. injection H as <- <-.
  apply Forall_cons_iff in Hn. destruct Hn as [N1 N2].
  pose proof (ostep_goes clk shuffle f B _ _ _ _ Hi P1 Es) as G.
  pose proof (small_sizes _ _ _ _ _ _ _ (go_small _ _ _ _ _ _ _ G) (oi_t _ _ Hi)) as Hz.
  destruct (go_hides _ _ _ _ _ _ _ G) as [_ G2].
  rewrite (IH q1 log1 q2); [|exact (go_inv _ _ _ _ _ _ _ G)|exact P2|exact Er|exact N2|lia|].
  - apply (small_current clk shuffle f B _ (fun k => k = r) [] _ _ (go_small _ _ _ _ _ _ _ G) (oi_t _ _ Hi) (oi_p _ _ Hi)).
    + intros k Hk ->. destruct x as [y|]; [|contradiction]. destruct y as [|i0 [d nm|nm|v nm|ca|zs|b|r1 v|b|c0]| | | | | | |k0| |]; cbn in Hk, N1; try contradiction.
      destruct Hk as [Hk|Hk]; [apply Hh; now exists k0|lia].
    + intros k ->. exact Hr.
    + intros k (c & e & [] & _).
    + intros c [].
    + reflexivity.
  - intros (k & Hk). destruct (G2 k r Hk) as [Hk'|Hk']; [apply Hh; now exists k|lia].
Qed.
