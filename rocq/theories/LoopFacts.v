(** The real loop (with timer, timeout and limit) truncates the untimed one. *)
From Verif Require Import Solver SpecSolve ExprFacts DictFacts SearchFacts.
Open Scope list_scope.
Open Scope Z_scope.

Lemma len_cons {A} (a : A) l : len (a :: l) = len l + 1.
Proof. unfold len. simpl length. lia. Qed.

Section Loop.
Variable clk : nat -> Z.
Variable shuffle : list name -> list name.
Variable consumer : nat -> world -> subst -> res world.

Notation drain := (drain clk shuffle).
Notation micro := (micro clk shuffle).

Definition running (e : env) (r : nat) : Prop := t_running (e_timers e r) = true.
Definition stopped (e : env) (r : nat) : Prop := t_running (e_timers e r) = false.

Lemma drain_S f k e g :
  drain (S f) consumer k e g =
      match micro e g with
      | (e', g', EvNone) => drain f consumer k e' g'
      | (e', g', EvYield s) =>
          match consumer k (e_world e') s with
          | Err ex => Some ([s], e', Some ex)
          | Ok w => match drain f consumer (S k) (set_world e' w) g' with
                    | Some (ys, e'', r) => Some (s :: ys, e'', r)
                    | None => None
                    end
          end
      | (e', g', EvStop) => Some ([], e', None)
      | (e', g', EvRaise ex) => Some ([], e', Some ex)
      end.
Proof. reflexivity. Qed.

Lemma drain_mono f : forall k e g r n, drain f consumer k e g = Some r -> drain (f + n) consumer k e g = Some r.
Proof.
  induction f as [|f IH]; intros k e g r n H; [discriminate|]. cbn [Nat.add]. rewrite drain_S in *.
  destruct (micro e g) as [[e' g'] [|s| |ex]]; try assumption; [now apply IH|].
  destruct (consumer k (e_world e') s) as [w|ex]; [|assumption].
  destruct (drain f consumer (S k) (set_world e' w) g') as [u|] eqn:E; [|discriminate].
  now rewrite (IH _ _ _ _ n E).
Qed.

Lemma drain_det f1 f2 k e g r1 r2 :
  drain f1 consumer k e g = Some r1 -> drain f2 consumer k e g = Some r2 -> r1 = r2.
Proof.
  intros H1 H2. apply (drain_mono _ _ _ _ _ f2) in H1. apply (drain_mono _ _ _ _ _ f1) in H2.
  rewrite Nat.add_comm in H2. congruence.
Qed.

(** *** Timer operations used by the loop never fail *)

Lemma upd_same {A} (f : nat -> A) k a : upd f k a k = a.
Proof. unfold upd. now rewrite Nat.eqb_refl. Qed.
Lemma upd_other {A} (f : nat -> A) k a j : j <> k -> upd f k a j = f j.
Proof. unfold upd. intros H. destruct (Nat.eqb_spec j k); [contradiction|reflexivity]. Qed.

Lemma do_stop_running e r : running e r ->
  exists t s, t_start (e_timers e r) = Some s /\
    t = Timer (t_elapsed (e_timers e r) + (clk (e_clk e) - s)) None (t_count (e_timers e r) + 1) /\
    do_stop clk e r = (tick (set_timer e r t), Ok tt).
Proof.
  unfold running, t_running, do_stop, timer_stop. intros H.
  destruct (t_start (e_timers e r)) as [s|]; [|discriminate]. do 2 eexists. repeat split.
Qed.

Lemma do_start_stopped e r : stopped e r ->
  exists t, t = Timer (t_elapsed (e_timers e r)) (Some (clk (e_clk e))) (t_count (e_timers e r)) /\
    do_start clk e r = (tick (set_timer e r t), Ok tt).
Proof.
  unfold stopped, do_start, timer_start. intros H. rewrite H. eexists. split; reflexivity.
Qed.

Lemma check_timeout_cases e l :
  (exists e', check_timeout clk e l = (e', None) /\ e_world e' = e_world e /\ e_timers e' = e_timers e
    /\ e_interrupt e' = e_interrupt e /\ e_timer e' = e_timer e /\ (e_clk e <= e_clk e')%nat
    /\ e_ntimers e' = e_ntimers e
    /\ (l_timeout l = LNone -> e' = e))
  \/ (exists t, l_timeout l = LNum t /\
      check_timeout clk e l = (set_interrupt (tick e) ITimeout, Some EvStop) /\
      t < timer_elapsed (clk (e_clk e)) (e_timers e (l_timer l)))
  \/ (l_timeout l = LInfinity /\ check_timeout clk e l = (tick e, Some (EvRaise TypeError))).
Proof.
  unfold check_timeout. destruct (l_timeout l) as [|t|].
  - left. exists e. repeat split; auto.
  - destruct (Z.ltb_spec t (timer_elapsed (clk (e_clk e)) (e_timers e (l_timer l)))).
    + right. left. exists t. auto.
    + left. exists (tick e). simpl. repeat split; auto. discriminate.
  - right. right. auto.
Qed.

(** *** Truncation *)

Definition limit_below (l : local) (n : Z) (ys : list subst) : Prop :=
  forall m, l_limit l = LNum m ->
    ys = [] \/ n + len ys < m \/ exists k w s ex, consumer k w s = Err ex.

Inductive finish (l : local) (c : cfg) (n : Z) (e e' : env) (ys : list subst) (r : option exn)
          (ys' : list subst) (w' : world) (r' : option exn) : Prop :=
| FinAll : ys = ys' -> r = r' -> e_world e' = w' -> e_interrupt e' = e_interrupt e ->
           limit_below l n ys -> (g_stack c <> [] -> l_timeout l <> LInfinity) ->
           (l_limit l = LInfinity -> ys = [] \/ exists k w s ex, consumer k w s = Err ex) ->
           finish l c n e e' ys r ys' w' r'
| FinLimit m : l_limit l = LNum m -> r = None -> e_interrupt e' = Some ILimit -> ys <> [] ->
           m <= n + len ys -> (n + len ys - 1 < m \/ len ys = 1) ->
           finish l c n e e' ys r ys' w' r'
| FinTimeout t : l_timeout l = LNum t -> r = None -> e_interrupt e' = Some ITimeout ->
           limit_below l n ys ->
           (exists j, e_clk e' = S j /\ t < timer_elapsed (clk j) (e_timers e' (l_timer l))) ->
           finish l c n e e' ys r ys' w' r'
| FinBadTimeout : l_timeout l = LInfinity -> ys = [] -> r = Some TypeError -> e_interrupt e' = e_interrupt e ->
           finish l c n e e' ys r ys' w' r'
| FinBadLimit : l_limit l = LInfinity -> len ys = 1 -> r = Some TypeError -> e_interrupt e' = e_interrupt e ->
           finish l c n e e' ys r ys' w' r'.

Lemma drain_urun f : forall k e l c n ys e' r,
  running e (l_timer l) ->
  drain f consumer k e (GLoop l c n) = Some (ys, e', r) ->
  forall f' ys' w' r', urun (l_info l) consumer f' k (e_world e) c = Some (ys', w', r') ->
  prefix ys ys' /\ finish l c n e e' ys r ys' w' r'.
Proof.
  induction f as [f IH] using lt_wf_ind. intros k e l c n ys e' r Hrun H f' ys' w' r' Hu.
  destruct f as [|f]; [discriminate|]. destruct f' as [|f']; [discriminate|].
  rewrite drain_S in H. cbn [Solver.micro] in H. rewrite urun_S in Hu.
  destruct (g_stack c) as [|entry stk] eqn:Estk.
  { inversion H; inversion Hu; subst. split; [exists []; reflexivity|].
    apply FinAll; auto; try congruence. intros m _. auto. }
  destruct (check_timeout_cases e l) as [(e1 & Hc & Hw & Ht & Hi & Htm & Hclk & Hnt & Hnone)|[(t & Hto & Hc & Hel)|(Hto & Hc)]];
    rewrite Hc in H.
  - (* no timeout *)
    assert (Hninf : l_timeout l <> LInfinity).
    { intros E. unfold check_timeout in Hc. rewrite E in Hc. discriminate. }
    rewrite Hw in H.
    destruct (core_step (e_world e) (l_info l) c) as [c'|s c'|ex].
    + assert (Hrun1 : running e1 (l_timer l)) by (unfold running; rewrite Ht; exact Hrun).
      rewrite <- Hw in Hu.
      destruct (IH f (Nat.lt_succ_diag_r f) k e1 l c' n ys e' r Hrun1 H f' ys' w' r' Hu) as [Hp Hf].
      split; [assumption|]. destruct Hf.
      * apply FinAll; auto. congruence.
      * eapply FinLimit; eauto.
      * eapply FinTimeout; eauto.
      * contradiction.
      * apply FinBadLimit; auto. congruence.
    + (* a solution *)
      assert (Hrun1 : running e1 (l_timer l)) by (unfold running; rewrite Ht; exact Hrun).
      destruct (do_stop_running e1 (l_timer l) Hrun1) as (t & s0 & Hs0 & Et & Hstop).
      rewrite Hstop in H. set (e2 := tick (set_timer e1 (l_timer l) t)) in *.
      assert (Hw2 : e_world e2 = e_world e) by exact Hw. rewrite Hw2 in H.
      destruct (consumer k (e_world e) s) as [w1|ex] eqn:Ecs.
      2:{ inversion H; inversion Hu; subst. split; [exists []; reflexivity|].
          apply FinAll; auto.
          - intros m _. right. right. eauto 6.
          - right. eauto 6. }
      destruct (drain f consumer (S k) (set_world e2 w1) (GYield l c' (n + 1))) as [[[zs e3] r3]|] eqn:Ed; [|discriminate].
      inversion H; subst ys e' r. clear H.
      destruct (urun (l_info l) consumer f' (S k) w1 c') as [[[zs' w3] r3']|] eqn:Eu; [|discriminate].
      simpl in Hu. inversion Hu; subst ys' w' r'. clear Hu.
      destruct f as [|f]; [discriminate|]. rewrite drain_S in Ed. cbn [Solver.micro] in Ed.
      assert (Hst : stopped (set_world e2 w1) (l_timer l)).
      { unfold stopped. simpl. rewrite upd_same. subst t. reflexivity. }
      destruct (do_start_stopped _ _ Hst) as (t4 & Et4 & Hstart). rewrite Hstart in Ed.
      set (e4 := tick (set_timer (set_world e2 w1) (l_timer l) t4)) in *.
      assert (Hrun4 : running e4 (l_timer l)).
      { unfold running. simpl. rewrite upd_same. subst t4. reflexivity. }
      assert (Hi4 : e_interrupt e4 = e_interrupt e) by exact Hi.
      destruct (l_limit l) as [|m|] eqn:El.
      * (* no limit *)
        destruct (IH f ltac:(lia) (S k) e4 l c' (n + 1) zs e3 r3 Hrun4 Ed f' zs' w3 r3' Eu) as [(q & Hq) Hf].
        split; [exists q; simpl; now rewrite Hq|]. destruct Hf.
        -- apply FinAll; auto; try congruence.
        -- congruence.
        -- eapply FinTimeout; eauto. intros m' E. congruence.
        -- contradiction.
        -- congruence.
      * destruct (Z.leb_spec m (n + 1)).
        -- (* limit reached *)
           inversion Ed; subst. split; [exists zs'; reflexivity|].
           eapply FinLimit with (m := m); auto; unfold len; simpl length; try lia. discriminate.
        -- destruct (IH f ltac:(lia) (S k) e4 l c' (n + 1) zs e3 r3 Hrun4 Ed f' zs' w3 r3' Eu) as [(q & Hq) Hf].
           split; [exists q; simpl; now rewrite Hq|].
           assert (Hlb : limit_below l (n + 1) zs -> limit_below l n (s :: zs)).
           { intros Hb m' E. destruct (Hb m' E) as [->|[Hlt|Hex]]; right.
             - left. unfold len; simpl. rewrite El in E. inversion E; subst. lia.
             - left. rewrite len_cons. lia.
             - right. exact Hex. }
           destruct Hf as [? ? ? ? ? ? ?|m' Hm ? ? ? ? Hor|t' ? ? ? ? ?| |].
           ++ apply FinAll; auto; try congruence.
           ++ rewrite El in Hm. inversion Hm; subst m'.
              eapply FinLimit with (m := m); auto; try discriminate; rewrite len_cons; [lia|].
              destruct Hor as [|Hone]; [left; lia|].
              left. lia.
           ++ eapply FinTimeout; eauto.
           ++ contradiction.
           ++ congruence.
      * (* limit = INFINITY *)
        inversion Ed; subst. split; [exists zs'; reflexivity|].
        apply FinBadLimit; auto.
    + inversion H; inversion Hu; subst. split; [exists []; reflexivity|].
      apply FinAll; auto. intros m _. auto.
  - inversion H; subst. split; [exists ys'; reflexivity|].
    eapply FinTimeout; eauto.
    + intros m _. auto.
    + exists (e_clk e). split; [reflexivity|exact Hel].
  - inversion H; subst. split; [exists ys'; reflexivity|]. apply FinBadTimeout; auto.
Qed.

(** If the untimed loop ends, so does the real one. *)
Lemma drain_terminates f' : forall k e l c n r',
  running e (l_timer l) ->
  urun (l_info l) consumer f' k (e_world e) c = Some r' ->
  exists r, drain (2 * f') consumer k e (GLoop l c n) = Some r.
Proof.
  induction f' as [|f' IH]; intros k e l c n r' Hrun Hu; [discriminate|].
  replace (2 * S f')%nat with (S (S (2 * f'))) by lia. rewrite urun_S in Hu.
  remember (S (2 * f')) as g eqn:Eg. rewrite drain_S. cbn [Solver.micro].
  destruct (g_stack c) as [|entry stk] eqn:Estk; [eauto|].
  destruct (check_timeout_cases e l) as [(e1 & Hc & Hw & Ht & Hi & Htm & Hclk & Hnt & Hnone)|[(t & Hto & Hc & Hel)|(Hto & Hc)]];
    rewrite Hc; [|eauto|eauto].
  rewrite Hw.
  assert (Hrun1 : running e1 (l_timer l)) by (unfold running; rewrite Ht; exact Hrun).
  destruct (core_step (e_world e) (l_info l) c) as [c'|s c'|ex]; [| |eauto].
  - rewrite <- Hw in Hu. destruct (IH k e1 l c' n r' Hrun1 Hu) as (r & Hr). exists r.
    subst g. replace (S (2 * f')) with (2 * f' + 1)%nat by lia. now apply drain_mono.
  - destruct (do_stop_running e1 (l_timer l) Hrun1) as (t & s0 & Hs0 & Et & Hstop).
    rewrite Hstop. set (e2 := tick (set_timer e1 (l_timer l) t)) in *.
    assert (Hw2 : e_world e2 = e_world e) by exact Hw. rewrite Hw2.
    destruct (consumer k (e_world e) s) as [w1|ex] eqn:Ecs; [|eauto].
    destruct (urun (l_info l) consumer f' (S k) w1 c') as [u|] eqn:Eu; [|discriminate].
    assert (Hst : stopped (set_world e2 w1) (l_timer l)).
    { unfold stopped. simpl. rewrite upd_same. subst t. reflexivity. }
    destruct (do_start_stopped _ _ Hst) as (t4 & Et4 & Hstart).
    set (e4 := tick (set_timer (set_world e2 w1) (l_timer l) t4)) in *.
    assert (Hrun4 : running e4 (l_timer l)).
    { unfold running. simpl. rewrite upd_same. subst t4. reflexivity. }
    destruct (IH (S k) e4 l c' (n + 1) u Hrun4 Eu) as ([[ys e5] r] & Hr).
    subst g. rewrite drain_S. cbn [Solver.micro]. rewrite Hstart.
    destruct (l_limit l) as [|m|]; [rewrite Hr; eauto| |eauto].
    destruct (m <=? n + 1); [eauto|]. rewrite Hr; eauto.
Qed.

(** *** Count and elapsed time *)

Lemma drain_stats f : forall k e l c n ys e' r a,
  t_start (e_timers e (l_timer l)) = Some (clk a) -> (a < e_clk e)%nat ->
  drain f consumer k e (GLoop l c n) = Some (ys, e', r) ->
  e_timer e' = e_timer e /\ e_ntimers e' = e_ntimers e /\
  (forall j, j <> l_timer l -> e_timers e' j = e_timers e j) /\
  t_count (e_timers e' (l_timer l)) = t_count (e_timers e (l_timer l)) + len ys /\
  exists segs, length segs = length ys /\
    (match segs with [] => True | (b, c) :: segs' => b = a /\ (a < c)%nat /\ ordered_from (S c) segs' end) /\
    t_elapsed (e_timers e' (l_timer l)) = t_elapsed (e_timers e (l_timer l)) + durations clk segs.
Proof.
  induction f as [f IH] using lt_wf_ind. intros k e l c n ys e' r a Hst Ha H.
  destruct f as [|f]; [discriminate|].
  assert (Hrun : running e (l_timer l)) by (unfold running, t_running; now rewrite Hst).
  rewrite drain_S in H. cbn [Solver.micro] in H.
  assert (Hnil : forall e1, e_timers e1 = e_timers e -> e_timer e1 = e_timer e -> e_ntimers e1 = e_ntimers e ->
            e_timer e1 = e_timer e /\ e_ntimers e1 = e_ntimers e /\
            (forall j, j <> l_timer l -> e_timers e1 j = e_timers e j) /\
            t_count (e_timers e1 (l_timer l)) = t_count (e_timers e (l_timer l)) + 0 /\
            exists segs, length segs = 0%nat /\
              (match segs with [] => True | (b, c) :: segs' => b = a /\ (a < c)%nat /\ ordered_from (S c) segs' end) /\
              t_elapsed (e_timers e1 (l_timer l)) = t_elapsed (e_timers e (l_timer l)) + durations clk segs).
  { intros e1 E1 E2 E3. rewrite E1, E2, E3. unfold len; simpl. repeat split; try lia.
    exists []. simpl. repeat split. lia. }
  destruct (g_stack c) as [|entry stk] eqn:Estk; [inversion H; subst; now apply Hnil|].
  destruct (check_timeout_cases e l) as [(e1 & Hc & Hw & Ht & Hi & Htm & Hclk & Hnt & Hnone)|[(t & Hto & Hc & Hel)|(Hto & Hc)]];
    rewrite Hc in H; [|inversion H; subst; now apply Hnil|inversion H; subst; now apply Hnil].
  rewrite Hw in H.
  destruct (core_step (e_world e) (l_info l) c) as [c'|s c'|ex].
  - rewrite <- Ht, <- Htm, <- Hnt. apply (IH f ltac:(lia) k e1 l c' n ys e' r a); try assumption; [now rewrite Ht|lia].
  - assert (Hrun1 : running e1 (l_timer l)) by (unfold running; rewrite Ht; exact Hrun).
    destruct (do_stop_running e1 (l_timer l) Hrun1) as (t & s0 & Hs0 & Et & Hstop).
    rewrite Hstop in H. set (e2 := tick (set_timer e1 (l_timer l) t)) in *.
    rewrite Ht, Hst in Hs0. inversion Hs0; subst s0.
    assert (He2t : e_timers e2 (l_timer l) = t) by (simpl; apply upd_same).
    assert (He2o : forall j, j <> l_timer l -> e_timers e2 j = e_timers e j).
    { intros j Hj. simpl. rewrite upd_other by assumption. now rewrite Ht. }
    rewrite Ht in Et.
    assert (Hone : forall e5, e_timers e5 = e_timers e2 -> e_timer e5 = e_timer e -> e_ntimers e5 = e_ntimers e ->
            e_timer e5 = e_timer e /\ e_ntimers e5 = e_ntimers e /\
            (forall j, j <> l_timer l -> e_timers e5 j = e_timers e j) /\
            t_count (e_timers e5 (l_timer l)) = t_count (e_timers e (l_timer l)) + len [s] /\
            exists segs, length segs = length [s] /\
              (match segs with [] => True | (b, c) :: segs' => b = a /\ (a < c)%nat /\ ordered_from (S c) segs' end) /\
              t_elapsed (e_timers e5 (l_timer l)) = t_elapsed (e_timers e (l_timer l)) + durations clk segs).
    { intros e5 E1 E2 E3. rewrite E1, E2, E3, He2t, Et. simpl. repeat split; auto.
      exists [(a, e_clk e1)]. simpl. repeat split; try lia. }
    destruct (consumer k (e_world e2) s) as [w1|ex] eqn:Ecs;
      [|inversion H; subst; apply Hone; [reflexivity|exact Htm|exact Hnt]].
    destruct (drain f consumer (S k) (set_world e2 w1) (GYield l c' (n + 1))) as [[[zs e3] r3]|] eqn:Ed; [|discriminate].
    inversion H; subst ys e3 r3. clear H.
    destruct f as [|f]; [discriminate|]. rewrite drain_S in Ed. cbn [Solver.micro] in Ed.
    assert (Hst2 : stopped (set_world e2 w1) (l_timer l)).
    { unfold stopped. cbn [e_timers set_world]. rewrite He2t, Et. reflexivity. }
    destruct (do_start_stopped _ _ Hst2) as (t4 & Et4 & Hstart). rewrite Hstart in Ed.
    set (e4 := tick (set_timer (set_world e2 w1) (l_timer l) t4)) in *.
    assert (He4 : e_timers e4 (l_timer l) = t4) by (simpl; apply upd_same).
    assert (Hrec : drain f consumer (S k) e4 (GLoop l c' (n + 1)) = Some (zs, e', r) ->
            e_timer e' = e_timer e /\ e_ntimers e' = e_ntimers e /\
            (forall j, j <> l_timer l -> e_timers e' j = e_timers e j) /\
            t_count (e_timers e' (l_timer l)) = t_count (e_timers e (l_timer l)) + len (s :: zs) /\
            exists segs, length segs = length (s :: zs) /\
              (match segs with [] => True | (b, c) :: segs' => b = a /\ (a < c)%nat /\ ordered_from (S c) segs' end) /\
              t_elapsed (e_timers e' (l_timer l)) = t_elapsed (e_timers e (l_timer l)) + durations clk segs).
    { intros Hd.
      destruct (IH f ltac:(lia) (S k) e4 l c' (n + 1) zs e' r (e_clk e2)) as (H1 & H0 & H2 & H3 & segs & H4 & H5 & H6).
      - rewrite He4, Et4. reflexivity.
      - simpl. lia.
      - exact Hd.
      - rewrite He4, Et4 in H3, H6. cbn [e_timers set_world] in H3, H6. rewrite He2t, Et in H3, H6. simpl in H3, H6.
        split; [rewrite H1; exact Htm|]. split; [rewrite H0; exact Hnt|]. split.
        { intros j Hj. rewrite H2 by assumption. simpl. rewrite !upd_other by assumption. now rewrite Ht. }
        split; [rewrite len_cons; lia|].
        exists ((a, e_clk e1) :: segs). simpl length. split; [lia|]. split.
        { split; [reflexivity|]. split; [lia|]. destruct segs as [|[b d] segs']; [exact I|].
          destruct H5 as (-> & Hlt & Ho). simpl. split; [|assumption]. simpl in Hlt. lia. }
        simpl. lia. }
    destruct (l_limit l) as [|m|] eqn:El.
    + now apply Hrec.
    + destruct (m <=? n + 1); [|now apply Hrec].
      assert (Hab : do_abort clk (set_world e2 w1) (l_timer l) = set_world e2 w1).
      { unfold do_abort. cbn [e_timers set_world]. now rewrite He2t, Et. }
      rewrite Hab in Ed. inversion Ed; subst zs e' r. apply Hone; [reflexivity|exact Htm|exact Hnt].
    + inversion Ed; subst zs e' r. apply Hone; [reflexivity|exact Htm|exact Hnt].
  - inversion H; subst. now apply Hnil.
Qed.
End Loop.
