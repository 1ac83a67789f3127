(** Lemmas: a timeout is noticed at the first reading of the clock after it. *)
From Coq Require Import Permutation Lia.
From Verif Require Import Solver DictFacts SpecSolve SpecOrder LoopFacts MasterFacts SolverProps.
Open Scope list_scope.
Open Scope Z_scope.

Section Timeout.
Variables (clk : nat -> Z) (shuffle : list name -> list name) (t : Z).

Definition ended (el : Z) (a : nat) (segs : list (nat * nat)) (last : nat) (e' : env) : Prop :=
  match e_interrupt e' with
  | Some ITimeout => e_clk e' = S last /\ t < el + durations clk segs + (clk last - clk (resumed a segs))
  | _ => e_clk e' = last
  end.

Lemma check_timeout_num e l : l_timeout l = LNum t ->
  (timer_elapsed (clk (e_clk e)) (e_timers e (l_timer l)) <= t /\ check_timeout clk e l = (tick e, None)) \/
  (t < timer_elapsed (clk (e_clk e)) (e_timers e (l_timer l)) /\ check_timeout clk e l = (set_interrupt (tick e) ITimeout, Some EvStop)).
Proof.
  intros E. unfold check_timeout. rewrite E. destruct (Z.ltb_spec t (timer_elapsed (clk (e_clk e)) (e_timers e (l_timer l)))); auto.
Qed.

Lemma drain_timely f : forall k e l c n ys e' r a,
  l_timeout l = LNum t -> t_start (e_timers e (l_timer l)) = Some (clk a) -> (a < e_clk e)%nat -> e_interrupt e = None ->
  in_time clk t (t_elapsed (e_timers e (l_timer l))) a (e_clk e) ->
  drain clk shuffle f passive k e (GLoop l c n) = Some (ys, e', r) ->
  exists segs last, length segs = length ys /\ timely clk t (t_elapsed (e_timers e (l_timer l))) a segs last /\
    ended (t_elapsed (e_timers e (l_timer l))) a segs last e'.
Proof.
  induction f as [f IH] using lt_wf_ind. intros k e l c n ys e' r a Hto Hst Ha Hi Hin H.
  destruct f as [|f]; [discriminate|]. assert (Hrun : running e (l_timer l)) by (unfold running, t_running; now rewrite Hst).
  set (el := t_elapsed (e_timers e (l_timer l))) in *.
  rewrite drain_S in H. cbn [Solver.micro] in H.
  destruct (g_stack c) as [|entry stk] eqn:Estk.
  { injection H as <- <- <-. exists [], (e_clk e). unfold ended. rewrite Hi. auto. }
  assert (Hel : timer_elapsed (clk (e_clk e)) (e_timers e (l_timer l)) = el + (clk (e_clk e) - clk a)) by (unfold timer_elapsed; now rewrite Hst).
  destruct (check_timeout_num e l Hto) as [[Hle Hc]|[Hlt Hc]]; rewrite Hc in H; rewrite Hel in *.
  2:{ injection H as <- <- <-. exists [], (e_clk e). split; [reflexivity|]. split; [exact Hin|]. unfold ended. cbn. split; [reflexivity|]. lia. }
  assert (Hin1 : in_time clk t el a (S (e_clk e))).
  { intros j Hj. destruct (Nat.eq_dec j (e_clk e)) as [->|]; [exact Hle|]. apply Hin. lia. }
  change (e_world (tick e)) with (e_world e) in H.
  destruct (core_step (e_world e) (l_info l) c) as [c'|s c'|ex].
  - apply (IH f ltac:(lia) k (tick e) l c' n ys e' r a); try assumption; cbn; lia.
  - destruct (do_stop_running clk (tick e) (l_timer l) Hrun) as (tm & s0 & Hs0 & Et & Hstop). rewrite Hstop in H.
    change (e_timers (tick e)) with (e_timers e) in Hs0, Et. rewrite Hst in Hs0. injection Hs0 as <-.
    set (e2 := tick (set_timer (tick e) (l_timer l) tm)) in *.
    assert (He2t : e_timers e2 (l_timer l) = tm) by (cbn; apply upd_same).
    assert (Hone : forall e5, e_clk e5 = e_clk e2 -> (e_interrupt e5 = Some ITimeout -> False) ->
       exists segs last, length segs = length [s] /\ timely clk t el a segs last /\ ended el a segs last e5).
    { intros e5 E1 E2. exists [(a, S (e_clk e))], (e_clk e2). split; [reflexivity|]. cbn [timely]. split.
      - split; [reflexivity|]. split; [lia|]. split; [exact Hin1|]. intros j Hj. unfold e2 in Hj. cbn in Hj. lia.
      - unfold ended. destruct (e_interrupt e5) as [[]|]; [exact E1|exfalso; auto|exact E1]. }
    change (passive k (e_world e2) s) with (@Ok world (e_world e2)) in H. cbn iota in H.
    destruct (drain clk shuffle f passive (S k) (set_world e2 (e_world e2)) (GYield l c' (n + 1))) as [[[zs e3] r3]|] eqn:Ed; [|discriminate].
    injection H as <- <- <-. rewrite set_world_same in Ed.
    destruct f as [|f]; [discriminate|]. rewrite drain_S in Ed. cbn [Solver.micro] in Ed.
    assert (Hst2 : stopped e2 (l_timer l)) by (unfold stopped; rewrite He2t, Et; reflexivity).
    destruct (do_start_stopped clk _ _ Hst2) as (t4 & Et4 & Hstart). rewrite Hstart in Ed.
    set (e4 := tick (set_timer e2 (l_timer l) t4)) in *.
    assert (He4 : e_timers e4 (l_timer l) = t4) by (cbn; apply upd_same).
    assert (Hrec : drain clk shuffle f passive (S k) e4 (GLoop l c' (n + 1)) = Some (zs, e3, r3) ->
      exists segs last, length segs = length (s :: zs) /\ timely clk t el a segs last /\ ended el a segs last e3).
    { intros Hd. assert (Eel : t_elapsed (e_timers e4 (l_timer l)) = el + (clk (S (e_clk e)) - clk a)).
      { rewrite He4, Et4. cbn [t_elapsed]. rewrite He2t, Et. reflexivity. }
      destruct (IH f ltac:(lia) (S k) e4 l c' (n + 1) zs e3 r3 (e_clk e2)) as (segs & last & H1 & H2 & H3).
      - exact Hto.
      - rewrite He4, Et4. reflexivity.
      - cbn. lia.
      - exact Hi.
      - intros j Hj. cbn in Hj. lia.
      - exact Hd.
      - rewrite Eel in H2, H3. exists ((a, S (e_clk e)) :: segs), last. split; [cbn; lia|]. split.
        + cbn [timely]. split; [reflexivity|]. split; [lia|]. split; [exact Hin1|exact H2].
        + unfold ended in *. destruct (e_interrupt e3) as [[]|]; try exact H3. destruct H3 as [H3 H4]. split; [exact H3|]. cbn [durations resumed].
          change (S (S (e_clk e))) with (e_clk e2). lia. }
    destruct (l_limit l) as [|m|].
    + now apply Hrec.
    + destruct (m <=? n + 1); [|now apply Hrec].
      assert (Hab : do_abort clk e2 (l_timer l) = e2) by (unfold do_abort; now rewrite He2t, Et).
      rewrite Hab in Ed. injection Ed as <- <- <-. apply Hone; [reflexivity|discriminate].
    + injection Ed as <- <- <-. apply Hone; [reflexivity|]. change (e_interrupt e2) with (e_interrupt e). congruence.
  - injection H as <- <- <-. exists [], (S (e_clk e)). split; [reflexivity|]. split; [exact Hin1|]. unfold ended. cbn. now rewrite Hi.
Qed.

Lemma run_timely f e sv a ys e' r : valid shuffle e a -> timeout_of sv a = LNum t ->
  solve_all clk shuffle f e sv a = Some (ys, e', r) ->
  exists segs last, length segs = length ys /\ timely clk t 0 (e_clk e) segs last /\
    match e_interrupt e' with
    | Some ITimeout => e_clk e' = S last /\ t < durations clk segs + (clk last - clk (resumed (e_clk e) segs))
    | _ => e_clk e' = last
    end.
Proof.
  intros Hv Hto H.
  assert (Hnil : forall b, in_time clk t 0 b b) by (intros b j Hj; lia).
  destruct (the_run clk shuffle f e sv a ys e' r Hv H) as [Hsol -> -> ->|w ex Hsol Es -> -> ->|w u Hsol Es Eo -> -> ->|w u f' ys0 r0 Hsol Es Eo Esearch Ed Hp Hf Hw].
  1-3: exists [], (e_clk e); split; [reflexivity|]; split; [apply Hnil|reflexivity].
  destruct (drain_timely f' 0 (start_env clk e w) (run_local e sv a u) (Cfg [(order_of shuffle sv a (w_model (e_world e)) u, [])] []) 0 ys e' r (e_clk e)) as (segs & last & H1 & H2 & H3).
  - exact Hto.
  - cbn. now rewrite upd_same.
  - cbn. lia.
  - reflexivity.
  - intros j Hj. cbn in Hj. lia.
  - exact Ed.
  - cbn in H2, H3. rewrite upd_same in H2, H3. cbn in H2, H3. unfold ended in H3. cbn in H3. exists segs, last. auto.
Qed.
End Timeout.
