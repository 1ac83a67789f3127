(** Proofs about programs with several models, solvers and enumerations. *)
From Verif Require Import Solver Program SpecSolve SpecIsolation SpecInterleave SpecProgram DictFacts ModelFacts CodeFacts
  SearchFacts LoopFacts SetupFacts MasterFacts SolverProps SolverMore SolverExtra InterleaveFacts IsolationFacts InterleaveStats.
Open Scope list_scope.
Open Scope Z_scope.

(** ** Two runs of the same enumeration on worlds that agree about its constraints *)

Definition same_eval (w w' : world) (cs : list constraint) : Prop :=
  forall c s, In c cs -> ceval w c s = ceval w' c s.

(** The constraints mean the same at the moment they are set up. *)
Definition same_setup (cmp : bool) (w w' : world) (cs : list constraint) : Prop :=
  forall c s, In c cs -> ceval (compile1 cmp w c) c s = ceval (compile1 cmp w' c) c s.

Lemma compile1_twice cmp w c c2 s : ceval (compile1 cmp (compile1 cmp w c) c2) c2 s = ceval (compile1 cmp w c2) c2 s.
Proof.
  destruct cmp; [|reflexivity]. apply ceval_code; [now rewrite !compile1_par|].
  intros e Hb. unfold compile1, ccompile. rewrite Hb. cbn. rewrite !upd_same.
  destruct (c_body c); reflexivity.
Qed.

Lemma same_setup_next cmp w w' c cs : same_setup cmp w w' cs -> same_setup cmp (compile1 cmp w c) (compile1 cmp w' c) cs.
Proof. intros H c2 s Hc. rewrite !compile1_twice. now apply H. Qed.

Lemma setup_step_same cmp w w' u c : (forall s, ceval (compile1 cmp w c) c s = ceval (compile1 cmp w' c) c s) ->
  snd (setup_step cmp w u c) = snd (setup_step cmp w' u c).
Proof.
  intros Hev. unfold setup_step. fold (compile1 cmp w c) (compile1 cmp w' c).
  assert (Hf : forall x dom, filterM (fun v => ceval (compile1 cmp w c) c [(x, v)]) dom =
                             filterM (fun v => ceval (compile1 cmp w' c) c [(x, v)]) dom).
  { intros x dom. induction dom as [|v dom IH]; [reflexivity|]. cbn. now rewrite Hev, IH. }
  destruct (c_body c); [| |reflexivity]; (destruct (c_vars c) as [|x [|y l]]; try reflexivity;
    destruct (dget (u_doms u) x) as [dom|]; [|reflexivity]; rewrite Hf; destruct (filterM _ _); reflexivity).
Qed.

Lemma setup_loop_same cmp cs : forall w w' u, same_setup cmp w w' cs ->
  snd (setup_loop cmp w u cs) = snd (setup_loop cmp w' u cs).
Proof.
  induction cs as [|c cs IH]; intros w w' u H; [reflexivity|]. cbn [setup_loop].
  pose proof (setup_step_same cmp w w' u c (fun s => H c s (or_introl eq_refl))) as Hs.
  pose proof (setup_step_world cmp w u c) as H1. pose proof (setup_step_world cmp w' u c) as H2.
  destruct (setup_step cmp w u c) as [w1 [u1|x1]]; destruct (setup_step cmp w' u c) as [w2 [u2|x2]]; cbn in *; inversion Hs; subst; [|reflexivity].
  apply IH. apply same_setup_next. intros c0 s0 H0. apply H. now right.
Qed.

Lemma do_setup_same cmp w w' add : w_model w = w_model w' -> same_setup cmp w w' (m_cons (w_model w) ++ add) ->
  snd (do_setup cmp w add) = snd (do_setup cmp w' add).
Proof.
  intros Hm H. unfold do_setup. rewrite <- Hm.
  pose proof (setup_loop_same cmp _ w w'
    (Setup (pure_variables (m_vars (w_model w))) [] [] (map (fun p => (fst p, 0)) (pure_variables (m_vars (w_model w)))) [] []) H) as Hl.
  destruct (setup_loop cmp w _ _) as [w1 [u1|x1]]; destruct (setup_loop cmp w' _ _) as [w2 [u2|x2]];
    cbn in Hl; inversion Hl; subst; [|reflexivity].
  destruct (check_groups _ _); reflexivity.
Qed.

Lemma eval_after cmp w cs c s : In c cs -> (forall c', In c' cs -> c_id c' = c_id c -> c_body c' = c_body c) ->
  ceval (compile_all cmp w cs) c s = ceval (compile1 cmp w c) c s.
Proof.
  intros Hc Hid. change (compile1 cmp w c) with (compile_all cmp w [c]). apply compile_all_agree; auto.
  - now left.
  - intros c' [->|[]] _. reflexivity.
Qed.

(** The generator's constraints are among [cs]. *)
Definition within (cs : list constraint) (g : gen) : Prop :=
  forall l x c, local_of g = Some l -> In c (dget_or (i_cons (l_info l)) x []) -> In c cs.

Definition started (g : gen) : Prop := forall sv a, g <> GInit sv a.

Lemma begin_agree clk clk' shuffle e e' sv a :
  let cs := all_cons (w_model (e_world e)) a in
  w_model (e_world e) = w_model (e_world e') -> objects (e_world e) cs -> objects (e_world e') cs ->
  same_setup (s_compile sv) (e_world e) (e_world e') cs -> timeout_of sv a = LNone ->
  exists e1 g1 e1' g1' ev,
    begin clk shuffle e sv a = (e1, g1, ev) /\ begin clk' shuffle e' sv a = (e1', g1', ev) /\
    twin g1 g1' /\ timed e1 g1 /\ timed e1' g1' /\ started g1 /\ within cs g1 /\
    (local_of g1 <> None -> same_eval (e_world e1) (e_world e1') cs /\
       e_world e1 = compile_all (s_compile sv) (e_world e) cs /\ e_world e1' = compile_all (s_compile sv) (e_world e') cs).
Proof.
  intros cs Hm Ho Ho' Hs Hto. unfold begin. change (e_world (reset e)) with (e_world e). change (e_world (reset e')) with (e_world e').
  rewrite <- Hm. destruct (negb (m_solvable (w_model (e_world e)))).
  { exists (reset e), GDone, (reset e'), GDone, EvStop. repeat (split; [reflexivity|]). repeat (split; [exact Logic.I|]).
    split; [discriminate|]. split; [intros l x c E; discriminate|]. intros E; now elim E. }
  pose proof (do_setup_same (s_compile sv) _ _ (x_additional a) Hm Hs) as Hag.
  destruct (do_setup (s_compile sv) (e_world e) (x_additional a)) as [w1 [u|ex]] eqn:E1;
    destruct (do_setup (s_compile sv) (e_world e') (x_additional a)) as [w2 [u'|ex']] eqn:E2; cbn [snd] in Hag; inversion Hag; subst.
  2:{ exists (set_world (reset e) w1), GDone, (set_world (reset e') w2), GDone, (EvRaise ex').
      repeat (split; [reflexivity|]). repeat (split; [exact Logic.I|]).
      split; [discriminate|]. split; [intros l x c E; discriminate|]. intros E; now elim E. }
  destruct (do_setup_spec _ _ _ w1 u' Ho E1) as (Ew1 & Hu & _). fold (all_cons (w_model (e_world e)) a) in Ew1, Hu. fold cs in Ew1, Hu.
  assert (Ho2 : objects (e_world e') (m_cons (w_model (e_world e')) ++ x_additional a)) by (rewrite <- Hm; exact Ho').
  destruct (do_setup_spec _ _ _ w2 u' Ho2 E2) as (Ew2 & _). rewrite <- Hm in Ew2. fold (all_cons (w_model (e_world e)) a) in Ew2. fold cs in Ew2.
  destruct (select_order shuffle (arg_or (x_policy a) (s_policy sv)) (w_model (e_world e)) u') as [|x names].
  { exists (set_world (reset e) w1), GDone, (set_world (reset e') w2), GDone, EvStop.
    repeat (split; [reflexivity|]). repeat (split; [exact Logic.I|]).
    split; [discriminate|]. split; [intros l y c E; discriminate|]. intros E; now elim E. }
  unfold do_start. cbn [set_world reset e_timer e_timers e_clk]. rewrite !upd_same. cbn [timer_start t_running t_start new_timer].
  do 5 eexists. split; [reflexivity|]. split; [reflexivity|]. split; [cbn; repeat split; exact Hto|].
  split; [cbn; rewrite upd_same; split; [lia|reflexivity]|]. split; [cbn; rewrite upd_same; split; [lia|reflexivity]|].
  split; [discriminate|]. split.
  - intros l y c E Hc. injection E as <-. cbn in Hc. now apply (ui_cons _ _ _ _ Hu) in Hc.
  - intros _. cbn. split; [|split; assumption]. intros c s Hc. rewrite Ew1, Ew2.
    rewrite !eval_after; auto.
    + intros c' Hc' E. now apply (proj1 Ho').
    + intros c' Hc' E. now apply (proj1 Ho).
Qed.

Lemma micro_agree clk clk' shuffle cs e e' g g' : started g -> same_eval (e_world e) (e_world e') cs -> within cs g ->
  twin g g' -> timed e g -> timed e' g' ->
  exists e1 g1 e1' g1' ev,
    micro clk shuffle e g = (e1, g1, ev) /\ micro clk' shuffle e' g' = (e1', g1', ev) /\
    twin g1 g1' /\ timed e1 g1 /\ timed e1' g1' /\ started g1 /\ within cs g1 /\
    e_world e1 = e_world e /\ e_world e1' = e_world e'.
Proof.
  intros Hst Hev Hw Htw Ht Ht'. destruct g as [sv1 a1|l c n|l c n|], g' as [sv1' a1'|l' c' n'|l' c' n'|]; cbn [twin] in Htw; try contradiction.
  - now elim (Hst sv1 a1).
  - destruct Htw as (<- & <- & Hi & Hn & Hn' & Hl). cbn [timed] in Ht, Ht'.
    destruct Ht as [Ht1 Ht2], Ht' as [Ht1' Ht2']. cbn [micro].
    destruct (g_stack c) as [|top stack] eqn:Est.
    { exists e, GDone, e', GDone, EvStop. repeat (split; [reflexivity|]). repeat (split; [exact Logic.I|]).
      split; [discriminate|]. split; [intros l0 x c0 E; discriminate|]. split; reflexivity. }
    unfold check_timeout. rewrite Hn, Hn'. rewrite <- Hi.
    rewrite (core_step_agree (e_world e) (e_world e') (l_info l) c).
    2:{ intros x c0 s Hc. apply Hev. eapply Hw; [reflexivity|exact Hc]. }
    assert (Hw' : forall c1 n1, within cs (GLoop l c1 n1) /\ within cs (GYield l c1 n1)).
    { intros c1 n1. split; intros l0 x c0 E Hc; injection E as <-; eapply Hw; try reflexivity; exact Hc. }
    destruct (core_step (e_world e') (l_info l) c) as [c1|s c1|ex].
    + exists e, (GLoop l c1 n), e', (GLoop l' c1 n), EvNone. repeat (split; [reflexivity|]).
      split; [repeat split; assumption|]. split; [split; assumption|]. split; [split; assumption|].
      split; [discriminate|]. split; [apply Hw'|]. split; reflexivity.
    + unfold do_stop, timer_stop. unfold t_running in Ht2, Ht2'.
      destruct (t_start (e_timers e (l_timer l))) as [b|] eqn:Eb; [|discriminate].
      destruct (t_start (e_timers e' (l_timer l'))) as [b'|] eqn:Eb'; [|discriminate].
      do 5 eexists. split; [reflexivity|]. split; [reflexivity|].
      split; [repeat split; assumption|].
      split; [cbn; rewrite upd_same; split; [assumption|reflexivity]|]. split; [cbn; rewrite upd_same; split; [assumption|reflexivity]|].
      split; [discriminate|]. split; [apply Hw'|]. split; reflexivity.
    + exists e, GDone, e', GDone, (EvRaise ex). repeat (split; [reflexivity|]). repeat (split; [exact Logic.I|]).
      split; [discriminate|]. split; [intros l0 x c0 E; discriminate|]. split; reflexivity.
  - destruct Htw as (<- & <- & Hi & Hn & Hn' & Hl). cbn [timed] in Ht, Ht'.
    destruct Ht as [Ht1 Ht2], Ht' as [Ht1' Ht2']. cbn [micro].
    assert (Hres : exists e1 g1 e1' g1' ev,
      match do_start clk e (l_timer l) with (e1, Err ex) => (e1, GDone, EvRaise ex) | (e1, Ok _) => (e1, GLoop l c n, EvNone) end = (e1, g1, ev) /\
      match do_start clk' e' (l_timer l') with (e1, Err ex) => (e1, GDone, EvRaise ex) | (e1, Ok _) => (e1, GLoop l' c n, EvNone) end = (e1', g1', ev) /\
      twin g1 g1' /\ timed e1 g1 /\ timed e1' g1' /\ started g1 /\ within cs g1 /\ e_world e1 = e_world e /\ e_world e1' = e_world e').
    { unfold do_start, timer_start. rewrite Ht2, Ht2'.
      do 5 eexists. split; [reflexivity|]. split; [reflexivity|].
      split; [repeat split; assumption|].
      split; [cbn; rewrite upd_same; split; [assumption|reflexivity]|]. split; [cbn; rewrite upd_same; split; [assumption|reflexivity]|].
      split; [discriminate|]. split; [|split; reflexivity]. intros l0 x c0 E Hc. injection E as <-. eapply Hw; [reflexivity|exact Hc]. }
    rewrite <- Hl. destruct (l_limit l) as [|m|]; [exact Hres| |].
    + destruct (m <=? n); [|exact Hres]. unfold do_abort. rewrite Ht2, Ht2'.
      exists (set_interrupt e ILimit), GDone, (set_interrupt e' ILimit), GDone, EvStop. repeat (split; [reflexivity|]).
      repeat (split; [exact Logic.I|]). split; [discriminate|]. split; [intros l0 x c0 E; discriminate|]. split; reflexivity.
    + exists e, GDone, e', GDone, (EvRaise TypeError). repeat (split; [reflexivity|]). repeat (split; [exact Logic.I|]).
      split; [discriminate|]. split; [intros l0 x c0 E; discriminate|]. split; reflexivity.
  - exists e, GDone, e', GDone, EvStop. cbn [micro]. repeat (split; [reflexivity|]). repeat (split; [exact Logic.I|]).
    split; [discriminate|]. split; [intros l0 x c0 E; discriminate|]. split; reflexivity.
Qed.

Lemma next_agree clk clk' shuffle cs f : forall e e' g g', started g -> same_eval (e_world e) (e_world e') cs -> within cs g ->
  twin g g' -> timed e g -> timed e' g' ->
  (next clk shuffle f e g = None /\ next clk' shuffle f e' g' = None) \/
  exists e1 g1 e1' g1' ev,
    next clk shuffle f e g = Some (e1, g1, ev) /\ next clk' shuffle f e' g' = Some (e1', g1', ev) /\
    twin g1 g1' /\ timed e1 g1 /\ timed e1' g1' /\ started g1 /\ within cs g1 /\
    e_world e1 = e_world e /\ e_world e1' = e_world e'.
Proof.
  induction f as [|f IH]; intros e e' g g' Hst Hev Hw Htw Ht Ht'; [now left|]. cbn [next].
  destruct (micro_agree clk clk' shuffle cs e e' g g' Hst Hev Hw Htw Ht Ht')
    as (e1 & g1 & e1' & g1' & ev & E & E' & Htw1 & Ht1 & Ht1' & Hst1 & Hw1 & Ew & Ew').
  rewrite E, E'. destruct ev as [|s| |ex].
  2-4: right; do 5 eexists; split; [reflexivity|]; split; [reflexivity|]; repeat (split; [assumption|]); assumption.
  assert (Hev1 : same_eval (e_world e1) (e_world e1') cs) by (rewrite Ew, Ew'; exact Hev).
  destruct (IH e1 e1' g1 g1' Hst1 Hev1 Hw1 Htw1 Ht1 Ht1')
    as [H|(e2 & g2 & e2' & g2' & ev & E2 & E2' & Htw2 & Ht2 & Ht2' & Hst2 & Hw2 & Ew2 & Ew2')]; [now left|].
  right. do 5 eexists. split; [exact E2|]. split; [exact E2'|]. repeat (split; [assumption|]). split; congruence.
Qed.

(** The first call, on two worlds. *)
Lemma next_agree_init clk clk' shuffle f e e' sv a :
  let cs := all_cons (w_model (e_world e)) a in
  w_model (e_world e) = w_model (e_world e') -> objects (e_world e) cs -> objects (e_world e') cs ->
  same_setup (s_compile sv) (e_world e) (e_world e') cs -> timeout_of sv a = LNone ->
  (next clk shuffle f e (GInit sv a) = None /\ next clk' shuffle f e' (GInit sv a) = None) \/
  exists e1 g1 e1' g1' ev,
    next clk shuffle f e (GInit sv a) = Some (e1, g1, ev) /\ next clk' shuffle f e' (GInit sv a) = Some (e1', g1', ev) /\
    twin g1 g1' /\ timed e1 g1 /\ timed e1' g1' /\ started g1 /\ within cs g1 /\
    (local_of g1 <> None -> same_eval (e_world e1) (e_world e1') cs /\
       e_world e1 = compile_all (s_compile sv) (e_world e) cs /\ e_world e1' = compile_all (s_compile sv) (e_world e') cs).
Proof.
  intros cs Hm Ho Ho' Hs Hto. destruct f as [|f]; [now left|]. cbn [next micro].
  destruct (begin_agree clk clk' shuffle e e' sv a Hm Ho Ho' Hs Hto)
    as (e1 & g1 & e1' & g1' & ev & E & E' & Htw1 & Ht1 & Ht1' & Hst1 & Hw1 & Hl). fold cs in Hw1, Hl.
  rewrite E, E'. destruct ev as [|s| |ex].
  2-4: right; do 5 eexists; split; [reflexivity|]; split; [reflexivity|]; repeat (split; [assumption|]); assumption.
  destruct (local_of g1) as [l|] eqn:El.
  - destruct (Hl ltac:(discriminate)) as (Hev & Ew & Ew').
    destruct (next_agree clk clk' shuffle cs f e1 e1' g1 g1' Hst1 Hev Hw1 Htw1 Ht1 Ht1')
      as [H|(e2 & g2 & e2' & g2' & ev & E2 & E2' & Htw2 & Ht2 & Ht2' & Hst2 & Hw2 & Ew2 & Ew2')]; [now left|].
    right. do 5 eexists. split; [exact E2|]. split; [exact E2'|]. repeat (split; [assumption|]). intros _. rewrite Ew2, Ew2'. auto.
  - exfalso. destruct g1; try discriminate El; [now elim (Hst1 sv0 a0)|].
    unfold begin in E. destruct (negb _); [congruence|]. destruct (do_setup _ _ _) as [? []]; [|congruence].
    destruct (select_order _ _ _ _); [congruence|]. destruct (do_start _ _ _) as [? []]; congruence.
Qed.

(** ** Whole enumerations *)

Lemma drain_agree clk clk' shuffle cs F : forall k e e' g g' ys ex r, started g -> same_eval (e_world e) (e_world e') cs -> within cs g ->
  twin g g' -> timed e g -> timed e' g' ->
  drain clk shuffle F passive k e g = Some (ys, ex, r) -> exists ex', drain clk' shuffle F passive k e' g' = Some (ys, ex', r).
Proof.
  induction F as [|F IH]; intros k e e' g g' ys ex r Hst Hev Hw Htw Ht Ht' H; [discriminate|].
  rewrite drain_S in H |- *.
  destruct (micro_agree clk clk' shuffle cs e e' g g' Hst Hev Hw Htw Ht Ht')
    as (e1 & g1 & e1' & g1' & ev & E & E' & Htw1 & Ht1 & Ht1' & Hst1 & Hw1 & Ew & Ew').
  assert (Hev1 : same_eval (e_world e1) (e_world e1') cs) by (rewrite Ew, Ew'; exact Hev).
  rewrite E in H. rewrite E'. destruct ev as [|s| |x].
  - eapply IH; eauto.
  - cbn [passive] in *. rewrite set_world_same in *.
    destruct (drain clk shuffle F passive (S k) e1 g1) as [[[ys' e2] r']|] eqn:Ed; [|discriminate]. injection H as <- <- <-.
    destruct (IH _ _ _ _ g1' _ _ _ Hst1 Hev1 Hw1 Htw1 Ht1 Ht1' Ed) as (ex' & ->). eauto.
  - injection H as <- <- <-. eauto.
  - injection H as <- <- <-. eauto.
Qed.

Lemma drain_det clk shuffle f1 f2 k e g x y : drain clk shuffle f1 passive k e g = Some x -> drain clk shuffle f2 passive k e g = Some y -> x = y.
Proof.
  intros H1 H2. apply (drain_mono _ _ _ _ _ _ _ _ f2) in H1. apply (drain_mono _ _ _ _ _ _ _ _ f1) in H2.
  rewrite Nat.add_comm in H2. congruence.
Qed.

Lemma solve_agree clk clk' shuffle f f' e e' sv a ys e1 r ys' e1' r' :
  let cs := all_cons (w_model (e_world e)) a in
  w_model (e_world e) = w_model (e_world e') -> objects (e_world e) cs -> objects (e_world e') cs ->
  same_setup (s_compile sv) (e_world e) (e_world e') cs -> timeout_of sv a = LNone ->
  solve_all clk shuffle f e sv a = Some (ys, e1, r) -> solve_all clk' shuffle f' e' sv a = Some (ys', e1', r') ->
  ys = ys' /\ r = r'.
Proof.
  intros cs Hm Ho Ho' Hs Hto H H'. unfold solve_all in *. destruct f as [|f]; [discriminate|].
  assert (Hx : exists x, drain clk' shuffle (S f) passive 0 e' (GInit sv a) = Some (ys, x, r)).
  2:{ destruct Hx as (x & Hx). pose proof (drain_det _ _ _ _ _ _ _ _ _ Hx H') as E. injection E as <- _ <-. auto. }
  clear H'. rewrite drain_S in H |- *. cbn [micro] in *.
  destruct (begin_agree clk clk' shuffle e e' sv a Hm Ho Ho' Hs Hto)
    as (e2 & g1 & e2' & g1' & ev & E & E' & Htw1 & Ht1 & Ht1' & Hst1 & Hw1 & Hl). fold cs in Hw1, Hl.
  rewrite E in H. rewrite E'. destruct ev as [|s| |x].
  - destruct (local_of g1) as [l|] eqn:El.
    + destruct (Hl ltac:(discriminate)) as (Hev & _). eapply drain_agree; eauto.
    + destruct g1; try discriminate El; [now elim (Hst1 sv0 a0)|]. destruct g1'; try contradiction.
      destruct f; [discriminate|]. rewrite drain_S in *. cbn in *. injection H as <- <- <-. eauto.
  - exfalso. unfold begin in E. destruct (negb _); [congruence|]. destruct (do_setup _ _ _) as [? []]; [|congruence].
    destruct (select_order _ _ _ _); [congruence|]. destruct (do_start _ _ _) as [? []]; congruence.
  - injection H as <- <- <-. eauto.
  - injection H as <- <- <-. eauto.
Qed.

(** ** Timers, whatever the options *)

Lemma micro_timed clk shuffle e g e' g' ev : timed e g -> micro clk shuffle e g = (e', g', ev) -> timed e' g' /\ started g'.
Proof.
  intros Ht H. destruct g as [sv a|l c n|l c n|]; cbn [micro] in H.
  - unfold begin in H. destruct (negb _); [injection H as <- <- <-; split; [exact Logic.I|discriminate]|].
    destruct (do_setup _ _ _) as [w [u|ex]]; [|injection H as <- <- <-; split; [exact Logic.I|discriminate]].
    destruct (select_order _ _ _ _); [injection H as <- <- <-; split; [exact Logic.I|discriminate]|].
    unfold do_start in H. cbn [set_world reset e_timer e_timers e_clk] in H. rewrite upd_same in H. cbn in H.
    injection H as <- <- <-. cbn. rewrite upd_same. cbn. split; [split; [lia|reflexivity]|discriminate].
  - destruct Ht as [H1 H2]. destruct (g_stack c); [injection H as <- <- <-; split; [exact Logic.I|discriminate]|].
    assert (Hc : forall e1, (e1 = e \/ e1 = tick e) ->
      match core_step (e_world e1) (l_info l) c with
      | CErr ex => (e1, GDone, EvRaise ex)
      | CNext c' => (e1, GLoop l c' n, EvNone)
      | CYield s c' => match do_stop clk e1 (l_timer l) with (e'', Err ex) => (e'', GDone, EvRaise ex) | (e'', Ok _) => (e'', GYield l c' (n + 1), EvYield s) end
      end = (e', g', ev) -> timed e' g' /\ started g').
    { intros e1 He1 E. assert (T1 : (l_timer l < e_ntimers e1)%nat /\ t_running (e_timers e1 (l_timer l)) = true) by (destruct He1; subst; auto).
      destruct (core_step _ _ _).
      - injection E as <- <- <-. split; [exact T1|discriminate].
      - unfold do_stop in E. destruct T1 as [T1 T2]. unfold t_running in T2. unfold timer_stop in E.
        destruct (t_start (e_timers e1 (l_timer l))); [|discriminate]. injection E as <- <- <-.
        cbn. rewrite upd_same. cbn. split; [split; [exact T1|reflexivity]|discriminate].
      - injection E as <- <- <-. split; [exact Logic.I|discriminate]. }
    unfold check_timeout in H. destruct (l_timeout l) as [|t|].
    + apply (Hc e); auto.
    + destruct (t <? _); [injection H as <- <- <-; split; [exact Logic.I|discriminate]|]. apply (Hc (tick e)); auto.
    + injection H as <- <- <-. split; [exact Logic.I|discriminate].
  - destruct Ht as [H1 H2].
    assert (Hr : match do_start clk e (l_timer l) with (e1, Err ex) => (e1, GDone, EvRaise ex) | (e1, Ok _) => (e1, GLoop l c n, EvNone) end
      = (e', g', ev) -> timed e' g' /\ started g').
    { unfold do_start, timer_start. rewrite H2. intros E. injection E as <- <- <-. cbn. rewrite upd_same. cbn.
      split; [split; [exact H1|reflexivity]|discriminate]. }
    destruct (l_limit l) as [|m|]; [exact (Hr H)| |injection H as <- <- <-; split; [exact Logic.I|discriminate]].
    destruct (m <=? n); [injection H as <- <- <-; split; [exact Logic.I|discriminate]|exact (Hr H)].
  - injection H as <- <- <-. split; [exact Logic.I|discriminate].
Qed.

Lemma next_timed clk shuffle f : forall e g e' g' ev, timed e g -> next clk shuffle f e g = Some (e', g', ev) -> timed e' g' /\ started g'.
Proof.
  induction f as [|f IH]; intros e g e' g' ev Ht H; [discriminate|]. cbn [next] in H.
  destruct (micro clk shuffle e g) as [[e1 g1] ev1] eqn:E. destruct (micro_timed _ _ _ _ _ _ _ Ht E) as [H1 H2].
  destruct ev1; [eauto| | |]; injection H as <- <- <-; auto.
Qed.

Lemma next_frame clk shuffle f e g e' g' ev : next clk shuffle f e g = Some (e', g', ev) -> frame e g e' g'.
Proof.
  intros H. destruct g as [sv a|l c n|l c n|].
  - destruct (next_init clk shuffle f e sv a e' g' ev H) as (_ & En & Ho & _ & Hl). split; [lia|]. split.
    + intros r Hr _. apply Ho. lia.
    + intros l' El. left. rewrite (Hl l' El). lia.
  - destruct (next_live clk shuffle f e (GLoop l c n) e' g' ev l eq_refl H) as ((_ & En & Ho) & _ & Hl). split; [lia|]. split.
    + intros r Hr Hne. apply Ho. intros ->. now apply (Hne l).
    + intros l' El. right. exists l. split; [reflexivity|]. now rewrite (Hl l' El).
  - destruct (next_live clk shuffle f e (GYield l c n) e' g' ev l eq_refl H) as ((_ & En & Ho) & _ & Hl). split; [lia|]. split.
    + intros r Hr Hne. apply Ho. intros ->. now apply (Hne l).
    + intros l' El. right. exists l. split; [reflexivity|]. now rewrite (Hl l' El).
  - apply next_done in H. destruct H as (-> & -> & _). split; [lia|]. split; [reflexivity|]. discriminate.
Qed.

Lemma next_options clk shuffle f e g e' g' ev : started g -> next clk shuffle f e g = Some (e', g', ev) -> e_timer e' = e_timer e.
Proof.
  intros Hs H. destruct g as [sv a|l c n|l c n|]; [now elim (Hs sv a)| | |].
  - now destruct (next_live clk shuffle f e (GLoop l c n) e' g' ev l eq_refl H) as ((? & _) & _).
  - now destruct (next_live clk shuffle f e (GYield l c n) e' g' ev l eq_refl H) as ((? & _) & _).
  - apply next_done in H. now destruct H as (-> & _).
Qed.
