(** Simulation between an enumeration that runs among others and the same one alone. *)
From Verif Require Import Solver SpecSolve SpecInterleave DictFacts ModelFacts CodeFacts SearchFacts LoopFacts SetupFacts
  MasterFacts SolverProps SolverMore SolverExtra.
Open Scope list_scope.
Open Scope Z_scope.

Definition twin_local (l l' : local) : Prop :=
  l_info l = l_info l' /\ l_timeout l = LNone /\ l_timeout l' = LNone /\ l_limit l = l_limit l'.

(** The two states of one enumeration: equal but for the number of the timer. *)
Definition twin (g g' : gen) : Prop :=
  match g, g' with
  | GInit sv a, GInit sv' a' => sv = sv' /\ a = a' /\ timeout_of sv a = LNone
  | GLoop l c n, GLoop l' c' n' => c = c' /\ n = n' /\ twin_local l l'
  | GYield l c n, GYield l' c' n' => c = c' /\ n = n' /\ twin_local l l'
  | GDone, GDone => True
  | _, _ => False
  end.

Definition local_of (g : gen) : option local :=
  match g with GLoop l _ _ | GYield l _ _ => Some l | _ => None end.

(** The timer of a started enumeration exists, and runs exactly between the yields. *)
Definition timed (e : env) (g : gen) : Prop :=
  match g with
  | GLoop l _ _ => (l_timer l < e_ntimers e)%nat /\ t_running (e_timers e (l_timer l)) = true
  | GYield l _ _ => (l_timer l < e_ntimers e)%nat /\ t_running (e_timers e (l_timer l)) = false
  | _ => True
  end.

(** What a step on [g] may do to the timers of others. *)
Definition frame (e : env) (g : gen) (e' : env) (g' : gen) : Prop :=
  (e_ntimers e <= e_ntimers e')%nat /\
  (forall r, (r < e_ntimers e)%nat -> (forall l, local_of g = Some l -> l_timer l <> r) -> e_timers e' r = e_timers e r) /\
  (forall l', local_of g' = Some l' -> (e_ntimers e <= l_timer l')%nat \/ exists l, local_of g = Some l /\ l_timer l = l_timer l').

Lemma frame_refl e g : frame e g e GDone.
Proof. split; [lia|]. split; [reflexivity|]. intros l' E. discriminate. Qed.

Section Sim.
Variables (clk clk' : nat -> Z) (shuffle : list name -> list name).
Variables (w0 : world) (cmp : bool) (sv : solver) (a : nat -> args).
Hypothesis Hcmp : s_compile sv = cmp.
Let cs j := all_cons (w_model w0) (a j).
Hypothesis Hids : forall j k c c', In c (cs j) -> In c' (cs k) -> c_id c = c_id c' -> c_body c = c_body c'.
Hypothesis Hobj : forall j, objects w0 (cs j).
Hypothesis Hto : forall j, timeout_of sv (a j) = LNone.

(** The state of the program among the enumerations: what was compiled so far. *)
Definition world_at (L : list constraint) (w : world) : Prop :=
  w = compile_all cmp w0 L /\ forall c, In c L -> exists j, In c (cs j).

(** Generator [j] in program state compiled [L]: if started, its constraints are in [L]. *)
Definition grounded (j : nat) (L : list constraint) (g : gen) : Prop :=
  match g with
  | GInit sv' a' => sv' = sv /\ a' = a j
  | GLoop l _ _ | GYield l _ _ => incl (cs j) L /\ forall x c, In c (dget_or (i_cons (l_info l)) x []) -> In c (cs j)
  | GDone => True
  end.

Lemma grounded_mono j L L' g : grounded j L g -> incl L L' -> grounded j L' g.
Proof.
  destruct g as [sv' a'|l c n|l c n|]; cbn; auto; intros [H1 H2] H; (split; [|exact H2]); intros c0 Hc; apply H, H1, Hc.
Qed.

(** Alone: the program state is [w0] before the start and [compile_all cmp w0 (cs j)] after. *)
Definition alone (j : nat) (w : world) (g : gen) : Prop :=
  match g with GInit _ _ => w = w0 | GDone => True | _ => w = compile_all cmp w0 (cs j) end.

Lemma eval_same j L w c s : world_at L w -> incl (cs j) L -> In c (cs j) ->
  ceval w c s = ceval (compile_all cmp w0 (cs j)) c s.
Proof.
  intros [-> HL] Hi Hc. apply compile_all_agree; auto.
  - intros c' Hc' E. destruct (HL c' Hc') as (k & Hk). now apply (Hids k j).
  - intros c' Hc' E. now apply (Hids j j).
Qed.

Lemma filter_domain_agree w w' i x s : (forall c s, In c (dget_or (i_cons i) x []) -> ceval w c s = ceval w' c s) ->
  filter_domain w i x s = filter_domain w' i x s.
Proof.
  intros H. unfold filter_domain. destruct (dget (i_doms i) x) as [d|]; [|reflexivity].
  induction d as [|v d IHd]; [reflexivity|]. simpl. rewrite (accept_agree w w' i x s v) by (intros; now apply H).
  rewrite IHd. reflexivity.
Qed.

Lemma core_step_agree w w' i c : (forall x c s, In c (dget_or (i_cons i) x []) -> ceval w c s = ceval w' c s) ->
  core_step w i c = core_step w' i c.
Proof.
  intros H. unfold core_step. destruct (g_stack c) as [|[[|x rest] s] stack]; try reflexivity.
  rewrite (filter_domain_agree w w' i x s) by (intros; eapply H; eauto). reflexivity.
Qed.

(** Starting. *)
Lemma begin_sim j L e e' : world_at L (e_world e) -> e_world e' = w0 ->
  exists L' e1 g1 e1' g1' ev,
    begin clk shuffle e sv (a j) = (e1, g1, ev) /\ begin clk' shuffle e' sv (a j) = (e1', g1', ev) /\
    incl L L' /\ world_at L' (e_world e1) /\ grounded j L' g1 /\ alone j (e_world e1') g1' /\ twin g1 g1' /\
    timed e1 g1 /\ timed e1' g1' /\ frame e (GInit sv (a j)) e1 g1 /\ (forall sv' a', g1 <> GInit sv' a').
Proof.
  intros HL Hw'. unfold begin. rewrite Hcmp.
  change (e_world (reset e)) with (e_world e). change (e_world (reset e')) with (e_world e'). rewrite Hw'.
  assert (Em : w_model (e_world e) = w_model w0) by (destruct HL as [-> _]; apply compile_all_model).
  assert (Ep : w_par (e_world e) = w_par w0) by (destruct HL as [-> _]; apply compile_all_par).
  assert (Hfr : forall g1, local_of g1 = None -> frame e (GInit sv (a j)) (reset e) g1).
  { intros g1 Hg. split; [cbn; lia|]. split.
    - intros r Hr _. cbn. apply upd_other. lia.
    - intros l' E. congruence. }
  rewrite Em. destruct (negb (m_solvable (w_model w0))).
  { exists L, (reset e), GDone, (reset e'), GDone, EvStop. repeat (split; [reflexivity|]). split; [apply incl_refl|].
    split; [exact HL|]. repeat (split; [exact Logic.I|]). split; [now apply Hfr|discriminate]. }
  assert (Hag : snd (do_setup cmp (e_world e) (x_additional (a j))) = snd (do_setup cmp w0 (x_additional (a j)))).
  { apply do_setup_agree; auto. intros Hf id. destruct HL as [-> _]. rewrite Hf. now rewrite compile_all_false. }
  destruct (do_setup_world cmp (e_world e) (x_additional (a j))) as (pre & post & Epre & Efst). rewrite Em in Epre.
  fold (all_cons (w_model w0) (a j)) in Epre. fold (cs j) in Epre.
  assert (HL' : world_at (L ++ pre) (compile_all cmp (e_world e) pre)).
  { destruct HL as [-> HL]. split; [symmetry; apply compile_all_app|]. intros c Hc. apply in_app_or in Hc. destruct Hc as [Hc|Hc]; [auto|].
    exists j. rewrite Epre. apply in_or_app. now left. }
  assert (HiL : incl L (L ++ pre)) by (intros c Hc; apply in_or_app; now left).
  destruct (do_setup cmp (e_world e) (x_additional (a j))) as [w1 [u|ex]] eqn:E1;
    destruct (do_setup cmp w0 (x_additional (a j))) as [w2 [u'|ex']] eqn:E2; cbn [snd fst] in *; try discriminate; injection Hag as <-.
  2:{ exists (L ++ pre), (set_world (reset e) w1), GDone, (set_world (reset e') w2), GDone, (EvRaise ex).
      repeat (split; [reflexivity|]). split; [exact HiL|]. split; [cbn; now rewrite Efst|]. repeat (split; [exact Logic.I|]).
      split; [|discriminate]. destruct (Hfr GDone eq_refl) as (A & B & C). split; [exact A|]. split; [exact B|]. intros l' E; discriminate. }
  destruct (do_setup_spec cmp w0 (x_additional (a j)) w2 u (Hobj j) E2) as (Ew2 & Hu & _).
  fold (all_cons (w_model w0) (a j)) in Ew2, Hu. fold (cs j) in Ew2, Hu.
  assert (Ho1 : objects (e_world e) (m_cons (w_model (e_world e)) ++ x_additional (a j))).
  { rewrite Em. fold (all_cons (w_model w0) (a j)). fold (cs j). destruct HL as [-> HL]. split; [exact (proj1 (Hobj j))|].
    intros c e0 f Hc Hb Hf. destruct (compile_all_code cmp L w0 c e0) as [Ec|(_ & c' & _ & _ & Ec)]; auto.
    - intros c' Hc' Eid. destruct (HL c' Hc') as (k & Hk). now apply (Hids k j).
    - rewrite Ec in Hf. eapply (proj2 (Hobj j)); eauto.
    - rewrite Ec in Hf. injection Hf as <-. eauto. }
  destruct (do_setup_spec cmp (e_world e) (x_additional (a j)) w1 u Ho1 E1) as (Ew1 & _).
  rewrite Em in Ew1. fold (all_cons (w_model w0) (a j)) in Ew1. fold (cs j) in Ew1.
  assert (HLc : world_at (L ++ cs j) w1).
  { rewrite Ew1. destruct HL as [-> HL]. split; [symmetry; apply compile_all_app|]. intros c Hc. apply in_app_or in Hc. destruct Hc as [Hc|Hc]; [auto|].
    now exists j. }
  assert (HiLc : incl L (L ++ cs j)) by (intros c Hc; apply in_or_app; now left).
  change (arg_or (x_policy (a j)) (s_policy sv)) with (policy_of sv (a j)).
  destruct (select_order shuffle (policy_of sv (a j)) (w_model w0) u) as [|x names].
  { exists (L ++ cs j), (set_world (reset e) w1), GDone, (set_world (reset e') w2), GDone, EvStop.
    repeat (split; [reflexivity|]). split; [exact HiLc|]. split; [exact HLc|]. repeat (split; [exact Logic.I|]).
    split; [|discriminate]. destruct (Hfr GDone eq_refl) as (A & B & C). split; [exact A|]. split; [exact B|]. intros l' E; discriminate. }
  unfold do_start. cbn [set_world reset e_timer e_timers e_clk]. rewrite !upd_same. cbn [timer_start t_running t_start new_timer].
  do 6 eexists. split; [reflexivity|]. split; [reflexivity|]. split; [exact HiLc|]. split; [exact HLc|].
  split; [split|split; [|split; [|split; [|split; [|split]]]]].
  - intros c Hc. apply in_or_app. now right.
  - intros y c Hc. cbn in Hc. now apply (ui_cons _ _ _ _ Hu) in Hc.
  - exact Ew2.
  - cbn. repeat split; apply Hto.
  - cbn. rewrite upd_same. cbn. split; [lia|reflexivity].
  - cbn. rewrite upd_same. cbn. split; [lia|reflexivity].
  - split; [cbn; lia|]. split.
    + intros r Hr _. cbn. rewrite !upd_other by lia. reflexivity.
    + intros l' E. injection E as <-. left. cbn. lia.
  - discriminate.
Qed.

Lemma micro_sim j L e e' g g' : world_at L (e_world e) -> grounded j L g -> alone j (e_world e') g' -> twin g g' ->
  timed e g -> timed e' g' ->
  exists L' e1 g1 e1' g1' ev,
    micro clk shuffle e g = (e1, g1, ev) /\ micro clk' shuffle e' g' = (e1', g1', ev) /\
    incl L L' /\ world_at L' (e_world e1) /\ grounded j L' g1 /\ alone j (e_world e1') g1' /\ twin g1 g1' /\
    timed e1 g1 /\ timed e1' g1' /\ frame e g e1 g1.
Proof.
  intros HL Hg Hal Htw Ht Ht'. destruct g as [sv1 a1|l c n|l c n|], g' as [sv1' a1'|l' c' n'|l' c' n'|]; cbn [twin] in Htw; try contradiction.
  - destruct Hg as [-> ->]. destruct Htw as (<- & <- & _). cbn [alone] in Hal.
    destruct (begin_sim j L e e' HL Hal) as (L' & e1 & g1 & e1' & g1' & ev & H). exists L', e1, g1, e1', g1', ev. cbn [micro]. tauto.
  - destruct Htw as (<- & <- & Hi & Hn & Hn' & Hl). destruct Hg as [Hg1 Hg2]. cbn [alone] in Hal. cbn [timed] in Ht, Ht'.
    destruct Ht as [Ht1 Ht2], Ht' as [Ht1' Ht2']. cbn [micro].
    destruct (g_stack c) as [|top stack] eqn:Est.
    { exists L, e, GDone, e', GDone, EvStop. repeat (split; [reflexivity|]). split; [apply incl_refl|]. split; [exact HL|].
      repeat (split; [exact Logic.I|]). apply frame_refl. }
    unfold check_timeout. rewrite Hn, Hn'. rewrite <- Hi.
    rewrite (core_step_agree (e_world e) (e_world e') (l_info l) c).
    2:{ intros x c0 s Hc. rewrite Hal. apply (eval_same j L); auto. eapply Hg2; eauto. }
    destruct (core_step (e_world e') (l_info l) c) as [c1|s c1|ex].
    + exists L, e, (GLoop l c1 n), e', (GLoop l' c1 n), EvNone. repeat (split; [reflexivity|]). split; [apply incl_refl|]. split; [exact HL|].
      split; [split; [exact Hg1|exact Hg2]|]. split; [exact Hal|]. split; [repeat split; assumption|].
      split; [split; assumption|]. split; [split; assumption|]. split; [lia|]. split; [reflexivity|].
      intros l0 E. injection E as <-. right. exists l. auto.
    + unfold do_stop, timer_stop. unfold t_running in Ht2, Ht2'.
      destruct (t_start (e_timers e (l_timer l))) as [b|] eqn:Eb; [|discriminate].
      destruct (t_start (e_timers e' (l_timer l'))) as [b'|] eqn:Eb'; [|discriminate].
      do 6 eexists. split; [reflexivity|]. split; [reflexivity|]. split; [apply incl_refl|]. split; [exact HL|].
      split; [split; [exact Hg1|exact Hg2]|]. split; [exact Hal|]. split; [repeat split; assumption|].
      split; [cbn; rewrite upd_same; split; [assumption|reflexivity]|]. split; [cbn; rewrite upd_same; split; [assumption|reflexivity]|].
      split; [cbn; lia|]. split.
      * intros r Hr Hne. cbn. apply upd_other. intros ->. now apply (Hne l).
      * intros l0 E. injection E as <-. right. exists l. auto.
    + exists L, e, GDone, e', GDone, (EvRaise ex). repeat (split; [reflexivity|]). split; [apply incl_refl|]. split; [exact HL|].
      repeat (split; [exact Logic.I|]). split; [lia|]. split; [reflexivity|]. intros l0 E. discriminate.
  - destruct Htw as (<- & <- & Hi & Hn & Hn' & Hl). destruct Hg as [Hg1 Hg2]. cbn [alone] in Hal. cbn [timed] in Ht, Ht'.
    destruct Ht as [Ht1 Ht2], Ht' as [Ht1' Ht2']. cbn [micro].
    assert (Hres : exists L' e1 g1 e1' g1' ev,
      match do_start clk e (l_timer l) with (e1, Err ex) => (e1, GDone, EvRaise ex) | (e1, Ok _) => (e1, GLoop l c n, EvNone) end = (e1, g1, ev) /\
      match do_start clk' e' (l_timer l') with (e1, Err ex) => (e1, GDone, EvRaise ex) | (e1, Ok _) => (e1, GLoop l' c n, EvNone) end = (e1', g1', ev) /\
      incl L L' /\ world_at L' (e_world e1) /\ grounded j L' g1 /\ alone j (e_world e1') g1' /\ twin g1 g1' /\
      timed e1 g1 /\ timed e1' g1' /\ frame e (GYield l c n) e1 g1).
    { unfold do_start, timer_start. rewrite Ht2, Ht2'.
      do 6 eexists. split; [reflexivity|]. split; [reflexivity|]. split; [apply incl_refl|]. split; [exact HL|].
      split; [split; [exact Hg1|exact Hg2]|]. split; [exact Hal|]. split; [repeat split; assumption|].
      split; [cbn; rewrite upd_same; split; [assumption|reflexivity]|]. split; [cbn; rewrite upd_same; split; [assumption|reflexivity]|].
      split; [cbn; lia|]. split.
      * intros r Hr Hne. cbn. apply upd_other. intros ->. now apply (Hne l).
      * intros l0 E. injection E as <-. right. exists l. auto. }
    rewrite <- Hl. destruct (l_limit l) as [|m|]; [exact Hres| |].
    + destruct (m <=? n); [|exact Hres]. unfold do_abort. rewrite Ht2, Ht2'.
      exists L, (set_interrupt e ILimit), GDone, (set_interrupt e' ILimit), GDone, EvStop. repeat (split; [reflexivity|]). split; [apply incl_refl|]. split; [exact HL|].
      repeat (split; [exact Logic.I|]). split; [cbn; lia|]. split; [reflexivity|]. intros l0 E. discriminate.
    + exists L, e, GDone, e', GDone, (EvRaise TypeError). repeat (split; [reflexivity|]). split; [apply incl_refl|]. split; [exact HL|].
      repeat (split; [exact Logic.I|]). split; [lia|]. split; [reflexivity|]. intros l0 E. discriminate.
  - exists L, e, GDone, e', GDone, EvStop. cbn [micro]. repeat (split; [reflexivity|]). split; [apply incl_refl|]. split; [exact HL|].
    repeat (split; [exact Logic.I|]). apply frame_refl.
Qed.

Lemma frame_trans e g e1 g1 e2 g2 : frame e g e1 g1 -> frame e1 g1 e2 g2 -> frame e g e2 g2.
Proof.
  intros (A1 & B1 & C1) (A2 & B2 & C2). split; [lia|]. split.
  - intros r Hr Hne. rewrite B2; [now apply B1|lia|]. intros l El E.
    destruct (C1 l El) as [H|(l0 & E0 & H)]; [lia|]. apply (Hne l0); [assumption|congruence].
  - intros l' El. destruct (C2 l' El) as [H|(l1 & E1 & H)]; [left; lia|].
    destruct (C1 l1 E1) as [H'|(l0 & E0 & H')]; [left; lia|right; exists l0; split; [assumption|congruence]].
Qed.

Lemma next_sim f : forall j L e e' g g', world_at L (e_world e) -> grounded j L g -> alone j (e_world e') g' -> twin g g' ->
  timed e g -> timed e' g' ->
  (next clk shuffle f e g = None /\ next clk' shuffle f e' g' = None) \/
  exists L' e1 g1 e1' g1' ev,
    next clk shuffle f e g = Some (e1, g1, ev) /\ next clk' shuffle f e' g' = Some (e1', g1', ev) /\
    incl L L' /\ world_at L' (e_world e1) /\ grounded j L' g1 /\ alone j (e_world e1') g1' /\ twin g1 g1' /\
    timed e1 g1 /\ timed e1' g1' /\ frame e g e1 g1.
Proof.
  induction f as [|f IH]; intros j L e e' g g' HL Hg Hal Htw Ht Ht'; [now left|]. cbn [next].
  destruct (micro_sim j L e e' g g' HL Hg Hal Htw Ht Ht')
    as (L1 & e1 & g1 & e1' & g1' & ev & E & E' & Hi & HL1 & Hg1 & Hal1 & Htw1 & Ht1 & Ht1' & Hf1).
  rewrite E, E'. destruct ev as [|s| |ex].
  2-4: right; exists L1, e1, g1, e1', g1'; eexists; split; [reflexivity|split; [reflexivity|tauto]].
  destruct (IH j L1 e1 e1' g1 g1' HL1 Hg1 Hal1 Htw1 Ht1 Ht1')
    as [H|(L2 & e2 & g2 & e2' & g2' & ev & E2 & E2' & Hi2 & HL2 & Hg2 & Hal2 & Htw2 & Ht2 & Ht2' & Hf2)]; [now left|].
  right. exists L2, e2, g2, e2', g2', ev. repeat (split; [assumption|]). split; [eapply incl_tran; eauto|].
  repeat (split; [assumption|]). eapply frame_trans; eauto.
Qed.

End Sim.

Lemma set_world_same e : set_world e (e_world e) = e. Proof. destruct e. reflexivity. Qed.

(** The first call of [next] on an enumeration that is consumed to its end. *)
Lemma drain_next clk shuffle F : forall k e g ys ex r, drain clk shuffle F passive k e g = Some (ys, ex, r) ->
  exists e1 g1 ev, next clk shuffle F e g = Some (e1, g1, ev) /\
  match ev with
  | EvYield s => exists ys' k', ys = s :: ys' /\ drain clk shuffle F passive k' e1 g1 = Some (ys', ex, r)
  | EvStop => ys = [] /\ r = None /\ g1 = GDone
  | EvRaise x => ys = [] /\ r = Some x /\ g1 = GDone
  | EvNone => False
  end.
Proof.
  induction F as [|F IH]; intros k e g ys ex r H; [discriminate|].
  pose proof (fun e' g' v => next_end clk shuffle (S F) e g e' g' v) as He.
  rewrite drain_S in H. cbn [next] in *.
  destruct (micro clk shuffle e g) as [[e1 g1] [|s| |x]].
  - destruct (IH k e1 g1 ys ex r H) as (e2 & g2 & ev & E & Hev). exists e2, g2, ev. split; [exact E|].
    destruct ev as [|s| |x]; auto. destruct Hev as (ys' & k' & -> & Hd). exists ys', k'. split; [reflexivity|].
    apply (drain_mono _ _ _ _ _ _ _ _ 1) in Hd. now rewrite Nat.add_1_r in Hd.
  - cbn [passive] in H. rewrite set_world_same in H.
    destruct (drain clk shuffle F passive (S k) e1 g1) as [[[ys' e2] r']|] eqn:Ed; [|discriminate]. injection H as <- <- <-.
    exists e1, g1, (EvYield s). split; [reflexivity|]. exists ys', (S k). split; [reflexivity|].
    apply (drain_mono _ _ _ _ _ _ _ _ 1) in Ed. now rewrite Nat.add_1_r in Ed.
  - injection H as <- <- <-. exists e1, g1, EvStop. repeat (split; [reflexivity|]). exact (He _ _ _ eq_refl).
  - injection H as <- <- <-. exists e1, g1, (EvRaise x). repeat (split; [reflexivity|]). exact (He _ _ _ eq_refl).
Qed.

Lemma next_mono clk shuffle f : forall e g r n, next clk shuffle f e g = Some r -> next clk shuffle (f + n) e g = Some r.
Proof.
  induction f as [|f IH]; intros e g r n H; [discriminate|]. cbn [Nat.add next] in *.
  destruct (micro clk shuffle e g) as [[e1 g1] [|s| |x]]; auto.
Qed.

Lemma next_det clk shuffle f1 f2 e g r1 r2 : next clk shuffle f1 e g = Some r1 -> next clk shuffle f2 e g = Some r2 -> r1 = r2.
Proof.
  intros H1 H2. apply (next_mono _ _ _ _ _ _ f2) in H1. apply (next_mono _ _ _ _ _ _ f1) in H2.
  rewrite Nat.add_comm in H2. congruence.
Qed.

Lemma drain_done clk shuffle F k e : (0 < F)%nat -> drain clk shuffle F passive k e GDone = Some ([], e, None).
Proof. destruct F; [lia|reflexivity]. Qed.

Lemma answers_nil n : answers n [] None = repeat EvStop n. Proof. destruct n; reflexivity. Qed.

Lemma drain_pos clk shuffle F consumer k e g x : drain clk shuffle F consumer k e g = Some x -> (0 < F)%nat.
Proof. destruct F; [discriminate|lia]. Qed.

Section Play.
Variables (clk clk' : nat -> Z) (shuffle : nat -> list name -> list name).
Variables (w0 : world) (sv : solver) (a : nat -> args).
Let cs j := all_cons (w_model w0) (a j).
Hypothesis Hids : forall j k c c', In c (cs j) -> In c' (cs k) -> c_id c = c_id c' -> c_body c = c_body c'.
Hypothesis Hobj : forall j, objects w0 (cs j).
Hypothesis Hto : forall j, timeout_of sv (a j) = LNone.

(** What the enumerations will still give when run alone, with the fuel for it. *)
Definition targets := nat -> option (list subst * option exn * nat).

Definition inv (T : targets) (L : list constraint) (e : env) (gs : nat -> gen) : Prop :=
  world_at w0 (s_compile sv) a L (e_world e) /\
  (forall j, grounded w0 sv a j L (gs j) /\ timed e (gs j) /\
     exists e' g', alone w0 (s_compile sv) a j (e_world e') g' /\ twin (gs j) g' /\ timed e' g' /\
     forall ys r F, T j = Some (ys, r, F) -> exists k ex, drain clk' (shuffle j) F passive k e' g' = Some (ys, ex, r)) /\
  (forall j k l l', j <> k -> local_of (gs j) = Some l -> local_of (gs k) = Some l' -> l_timer l <> l_timer l').

Definition advance (t : option (list subst * option exn * nat)) : option (list subst * option exn * nat) :=
  match t with
  | Some (_ :: ys, r, F) => Some (ys, r, F)
  | Some ([], r, F) => Some ([], None, F)
  | None => None
  end.

Lemma timed_lt e g l : timed e g -> local_of g = Some l -> (l_timer l < e_ntimers e)%nat.
Proof. destruct g; cbn; intros H E; inversion E; subst; tauto. Qed.

Lemma timed_frame e g e' g' h : timed e h -> frame e g e' g' ->
  (forall l l', local_of g = Some l -> local_of h = Some l' -> l_timer l <> l_timer l') -> timed e' h.
Proof.
  intros Ht (A & B & _) Hd. destruct h as [sv1 a1|l c n|l c n|]; cbn in *; auto.
  all: destruct Ht as [Ht1 Ht2]; rewrite B; [split; [lia|assumption]|assumption|]; intros l0 E0; apply (Hd l0 l E0 eq_refl).
Qed.

Lemma play_step T L e gs j f e1 g1 ev : inv T L e gs -> next clk (shuffle j) f e (gs j) = Some (e1, g1, ev) ->
  (exists L', inv (upd T j (advance (T j))) L' e1 (upd gs j g1)) /\
  forall ys r F n, T j = Some (ys, r, F) ->
    exists ys' r', advance (T j) = Some (ys', r', F) /\ answers (S n) ys r = ev :: answers n ys' r'.
Proof.
  intros (HL & Hj & Hd) Hn. destruct (Hj j) as (Hg & Ht & e' & g' & Hal & Htw & Ht' & HT).
  destruct (next_sim clk clk' (shuffle j) w0 (s_compile sv) sv a eq_refl Hids Hobj Hto f j L e e' (gs j) g' HL Hg Hal Htw Ht Ht')
    as [[H _]|(L1 & e2 & g2 & e1' & g1' & ev' & E & E' & Hi & HL1 & Hg1 & Hal1 & Htw1 & Ht1 & Ht1' & Hf)]; [congruence|].
  rewrite Hn in E. injection E as <- <- <-.
  assert (HTn : forall ys r F, T j = Some (ys, r, F) -> exists ys' r' k ex,
     advance (T j) = Some (ys', r', F) /\ drain clk' (shuffle j) F passive k e1' g1' = Some (ys', ex, r') /\
     forall n, answers (S n) ys r = ev :: answers n ys' r').
  { intros ys r F ET. destruct (HT ys r F ET) as (k & ex & Hdr).
    destruct (drain_next clk' (shuffle j) F k e' g' ys ex r Hdr) as (e3 & g3 & ev3 & E3 & Hev).
    pose proof (next_det _ _ _ _ _ _ _ _ E' E3) as Eq. injection Eq as <- <- <-.
    pose proof (drain_pos _ _ _ _ _ _ _ _ Hdr) as HF. rewrite ET.
    destruct ev as [|s| |x]; [contradiction| | |].
    - destruct Hev as (ys' & k' & -> & Hd'). exists ys', r, k', ex. auto.
    - destruct Hev as (-> & -> & ->). exists [], None, O, e1'. split; [reflexivity|]. split; [now apply drain_done|].
      intros n. cbn. now rewrite answers_nil.
    - destruct Hev as (-> & -> & ->). exists [], None, O, e1'. split; [reflexivity|]. split; [now apply drain_done|].
      intros n. cbn. now rewrite answers_nil. }
  split.
  - exists L1. split; [exact HL1|]. split.
    + intros k. unfold upd. destruct (Nat.eqb k j) eqn:Ek.
      * apply Nat.eqb_eq in Ek. subst k. split; [exact Hg1|]. split; [exact Ht1|].
        exists e1', g1'. split; [exact Hal1|]. split; [exact Htw1|]. split; [exact Ht1'|].
        intros ys r F EA. destruct (T j) as [[[ys0 r0] F0]|]; [|discriminate].
        destruct (HTn _ _ _ eq_refl) as (ys' & r' & k & ex & EA' & Hdr & _). rewrite EA in EA'. injection EA' as -> -> ->. eauto.
      * apply Nat.eqb_neq in Ek. destruct (Hj k) as (Hgk & Htk & Hrest). split; [eapply grounded_mono; eauto|].
        split; [|exact Hrest]. eapply timed_frame; [exact Htk|exact Hf|]. intros l l' El El'. apply (Hd j k l l'); auto.
    + intros i k l l' Hik. unfold upd.
      assert (Hnew : forall m l l', m <> j -> local_of g1 = Some l -> local_of (gs m) = Some l' -> l_timer l <> l_timer l').
      { intros m l0 l0' Hm El El'. destruct Hf as (_ & _ & Cf). destruct (Cf l0 El) as [H|(l1 & E1 & H)].
        - destruct (Hj m) as (_ & Htm & _). pose proof (timed_lt _ _ _ Htm El'). lia.
        - rewrite <- H. apply (Hd j m); auto. }
      destruct (Nat.eqb i j) eqn:Ei; destruct (Nat.eqb k j) eqn:Ek; intros El El'.
      * exfalso. apply Hik. apply Nat.eqb_eq in Ei, Ek. congruence.
      * apply Nat.eqb_neq in Ek. apply (Hnew k); auto.
      * apply Nat.eqb_neq in Ei. intros E. symmetry in E. revert E. apply (Hnew i); auto.
      * apply (Hd i k); auto.
  - intros ys r F n ET. destruct (HTn ys r F ET) as (ys' & r' & _ & _ & EA & _ & Ho). exists ys', r'. auto.
Qed.

Lemma play_results f j ys0 : forall sched T L e gs evs e1 r F, inv T L e gs -> T j = Some (ys0, r, F) ->
  play clk shuffle f sched e gs = Some (evs, e1) -> results j evs = answers (calls j sched) ys0 r.
Proof.
  intros sched. revert ys0. induction sched as [|k sched IH]; intros ys0 T L e gs evs e1 r F Hi HT Hp; cbn [play] in Hp.
  - injection Hp as <- <-. reflexivity.
  - destruct (next clk (shuffle k) f e (gs k)) as [[[e2 g2] ev]|] eqn:En; [|discriminate].
    destruct (play clk shuffle f sched e2 (upd gs k g2)) as [[evs' e3]|] eqn:Ep; [|discriminate]. injection Hp as <- <-.
    destruct (play_step T L e gs k f e2 g2 ev Hi En) as ((L' & Hi') & Ho).
    unfold results, calls in *. cbn [filter count_occ fst]. destruct (Nat.eq_dec k j) as [->|Hk].
    + rewrite Nat.eqb_refl. cbn [map snd]. destruct (Ho ys0 r F (count_occ Nat.eq_dec sched j) HT) as (ys' & r' & EA & Eo). rewrite Eo.
      f_equal. eapply IH; [exact Hi'| |exact Ep]. rewrite upd_same. exact EA.
    + destruct (Nat.eqb k j) eqn:Ekj; [apply Nat.eqb_eq in Ekj; contradiction|].
      eapply IH; [exact Hi'| |exact Ep]. rewrite upd_other by auto. exact HT.
Qed.

Lemma play_progress F : forall sched T L e gs, inv T L e gs -> (forall j, In j sched -> exists ys r, T j = Some (ys, r, F)) ->
  exists x, play clk shuffle F sched e gs = Some x.
Proof.
  induction sched as [|j sched IH]; intros T L e gs Hi HT; cbn [play]; [eauto|].
  destruct (next clk (shuffle j) F e (gs j)) as [[[e1 g1] ev]|] eqn:En.
  - destruct (play_step T L e gs j F e1 g1 ev Hi En) as ((L' & Hi') & Ho).
    destruct (IH _ L' e1 (upd gs j g1) Hi') as ([evs e2] & E); [|rewrite E; eauto].
    intros k Hk. destruct (Nat.eq_dec k j) as [->|Hkj].
    + rewrite upd_same. destruct (HT j (or_introl eq_refl)) as (ys & r & ET).
      destruct (Ho ys r F O ET) as (ys' & r' & EA & _). eauto.
    + rewrite upd_other by assumption. apply HT. now right.
  - exfalso. destruct Hi as (HL & Hj & _). destruct (Hj j) as (Hg & Ht & e' & g' & Hal & Htw & Ht' & HTj).
    destruct (HT j (or_introl eq_refl)) as (ys & r & ET). destruct (HTj ys r F ET) as (k & ex & Hdr).
    destruct (drain_next clk' (shuffle j) F k e' g' ys ex r Hdr) as (e3 & g3 & ev3 & E3 & _).
    destruct (next_sim clk clk' (shuffle j) w0 (s_compile sv) sv a eq_refl Hids Hobj Hto F j L e e' (gs j) g' HL Hg Hal Htw Ht Ht')
      as [[_ H]|(L1 & e2 & g2 & e1' & g1' & ev' & E & _)]; congruence.
Qed.

Lemma inv_start e (T : targets) : e_world e = w0 ->
  (forall j ys r F, T j = Some (ys, r, F) -> exists e0 e1, e_world e0 = w0 /\ solve_all clk' (shuffle j) F e0 sv (a j) = Some (ys, e1, r)) ->
  inv T [] e (fun j => GInit sv (a j)).
Proof.
  intros He HT. split; [split; [exact He|intros c []]|]. split; [|intros j k l l' _ E; discriminate].
  intros j. split; [split; reflexivity|]. split; [exact Logic.I|].
  destruct (T j) as [[[ys r] F]|] eqn:ET.
  - destruct (HT j ys r F ET) as (e0 & e1 & He0 & Hr). exists e0, (GInit sv (a j)). split; [exact He0|].
    split; [repeat split; apply Hto|]. split; [exact Logic.I|]. intros ys' r' F' E. injection E as <- <- <-. unfold solve_all in Hr. eauto.
  - exists e, (GInit sv (a j)). split; [exact He|]. split; [repeat split; apply Hto|]. split; [exact Logic.I|]. intros; discriminate.
Qed.

End Play.

Lemma interleaved clk clk' shuffle f F sched e e0 sv (a : nat -> args) evs e1 j ys e2 r :
  let m := w_model (e_world e) in
  (forall i, valid (shuffle i) e (a i)) ->
  (forall i k c c', In c (all_cons m (a i)) -> In c' (all_cons m (a k)) -> c_id c = c_id c' -> c_body c = c_body c') ->
  (forall i, timeout_of sv (a i) = LNone) ->
  play clk shuffle f sched e (fun i => GInit sv (a i)) = Some (evs, e1) ->
  e_world e0 = e_world e -> solve_all clk' (shuffle j) F e0 sv (a j) = Some (ys, e2, r) ->
  results j evs = answers (calls j sched) ys r.
Proof.
  intros m Hv Hids Hto Hp He0 Hs.
  eapply (play_results clk clk' shuffle (e_world e) sv a Hids (fun i => proj2 (proj2 (proj2 (Hv i)))) Hto f j ys sched
            (fun i => if Nat.eqb i j then Some (ys, r, F) else None) [] e _ evs e1 r F); [| |exact Hp].
  - apply inv_start; auto. intros i ys' r' F' E. destruct (Nat.eqb i j) eqn:Ei; [|discriminate]. apply Nat.eqb_eq in Ei. subst i.
    injection E as <- <- <-. eauto.
  - cbn. now rewrite Nat.eqb_refl.
Qed.

Lemma interleaved_runs clk shuffle sched e sv (a : nat -> args) :
  let m := w_model (e_world e) in
  (forall i, valid (shuffle i) e (a i)) ->
  (forall i k c c', In c (all_cons m (a i)) -> In c' (all_cons m (a k)) -> c_id c = c_id c' -> c_body c = c_body c') ->
  (forall i, timeout_of sv (a i) = LNone) ->
  exists f evs e1, play clk shuffle f sched e (fun i => GInit sv (a i)) = Some (evs, e1) /\ map fst evs = sched.
Proof.
  intros m Hv Hids Hto.
  assert (HF : exists F, forall j, In j sched -> exists x, solve_all clk (shuffle j) F e sv (a j) = Some x).
  { clear Hto. induction sched as [|j sched IH]; [exists O; intros j []|]. destruct IH as (F & HF).
    destruct (run_terminates clk (shuffle j) e sv (a j) passive) as (f & r & Hr); try apply (Hv j).
    exists (F + f)%nat. intros k [<-|Hk].
    - exists r. rewrite Nat.add_comm. unfold solve_all. now apply drain_mono.
    - destruct (HF k Hk) as (x & Hx). exists x. unfold solve_all in *. now apply drain_mono. }
  destruct HF as (F & HF).
  set (T := fun j => match solve_all clk (shuffle j) F e sv (a j) with Some (ys, _, r) => Some (ys, r, F) | None => None end).
  destruct (play_progress clk clk shuffle (e_world e) sv a Hids (fun i => proj2 (proj2 (proj2 (Hv i)))) Hto F sched T [] e
              (fun i => GInit sv (a i))) as ([evs e1] & Hp).
  - apply inv_start; auto. intros j ys r F' E. unfold T in E.
    destruct (solve_all clk (shuffle j) F e sv (a j)) as [[[ys' e2] r']|] eqn:Es; [|discriminate]. injection E as <- <- <-. eauto.
  - intros j Hj. destruct (HF j Hj) as ([[ys e2] r] & Es). unfold T. rewrite Es. eauto.
  - exists F, evs, e1. split; [exact Hp|]. clear - Hp. revert e evs e1 Hp.
    generalize (fun i => GInit sv (a i)). induction sched as [|j sched IH]; intros gs e evs e1 H; cbn [play] in H.
    + injection H as <- <-. reflexivity.
    + destruct (next clk (shuffle j) F e (gs j)) as [[[e2 g2] ev]|]; [|discriminate].
      destruct (play clk shuffle F sched e2 (upd gs j g2)) as [[evs' e3]|] eqn:Ep; [|discriminate]. injection H as <- <-.
      cbn. f_equal. eapply IH; eauto.
Qed.
