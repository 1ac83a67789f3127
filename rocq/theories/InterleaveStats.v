(** What get_stats() reports when several enumerations of one solver are advanced in any
    order. *)
From Verif Require Import Solver SpecSolve SpecInterleave DictFacts LoopFacts InterleaveFacts.
Open Scope list_scope.
Open Scope Z_scope.

Definition gain (ev : event) : Z := match ev with EvYield _ => 1 | _ => 0 end.

Section Stats.
Variables (clk : nat -> Z).

Definition same_but (r : nat) (e e' : env) : Prop :=
  e_timer e' = e_timer e /\ e_ntimers e' = e_ntimers e /\
  forall k, k <> r -> e_timers e' k = e_timers e k.

Lemma same_but_refl r e : same_but r e e.
Proof. repeat split. Qed.

Lemma same_but_trans r e1 e2 e3 : same_but r e1 e2 -> same_but r e2 e3 -> same_but r e1 e3.
Proof.
  intros (A1 & B1 & C1) (A2 & B2 & C2). repeat split; [congruence|congruence|].
  intros k K. rewrite C2, C1; auto.
Qed.

Lemma do_start_ok e r e' x : do_start clk e r = (e', x) ->
  same_but r e e' /\ t_count (e_timers e' r) = t_count (e_timers e r) /\ e_interrupt e' = e_interrupt e.
Proof.
  unfold do_start, timer_start. destruct (t_running _); intros E; injection E as <- <-.
  - split; [apply same_but_refl|]. split; reflexivity.
  - cbn. rewrite upd_same. split; [|split; reflexivity].
    repeat split. intros k K. cbn. apply upd_other. exact K.
Qed.

Lemma do_stop_ok e r e' x : do_stop clk e r = (e', x) ->
  same_but r e e' /\ e_interrupt e' = e_interrupt e /\
  t_count (e_timers e' r) = t_count (e_timers e r) + match x with Ok _ => 1 | Err _ => 0 end.
Proof.
  unfold do_stop, timer_stop. destruct (t_start _); intros E; injection E as <- <-.
  - cbn. rewrite upd_same. split; [|split; reflexivity].
    repeat split. intros k K. cbn. apply upd_other. exact K.
  - split; [apply same_but_refl|]. split; [reflexivity|lia].
Qed.

Lemma do_abort_ok e r : same_but r e (do_abort clk e r) /\ t_count (e_timers (do_abort clk e r) r) = t_count (e_timers e r).
Proof.
  unfold do_abort, t_running. destruct (t_start (e_timers e r)) eqn:S.
  - cbn. rewrite upd_same. unfold timer_abort, timer_stop. rewrite S. cbn. split; [|lia].
    repeat split. intros k K. cbn. apply upd_other. exact K.
  - split; [apply same_but_refl|reflexivity].
Qed.

Lemma check_ok e l e' x : check_timeout clk e l = (e', x) ->
  same_but (l_timer l) e e' /\ e_timers e' = e_timers e /\
  (l_timeout l = LNone -> x = None /\ e_interrupt e' = e_interrupt e) /\
  match x with Some ev => gain ev = 0 | None => True end.
Proof.
  unfold check_timeout. destruct (l_timeout l) as [|t|]; cbn; intros E.
  - injection E as <- <-. repeat split; auto.
  - destruct (t <? _); injection E as <- <-; repeat split; auto; discriminate.
  - injection E as <- <-. repeat split; auto; discriminate.
Qed.

(** Steps of a started generator. *)
Lemma micro_live shuffle e g e' g' ev l : local_of g = Some l -> micro clk shuffle e g = (e', g', ev) ->
  same_but (l_timer l) e e' /\
  t_count (e_timers e' (l_timer l)) = t_count (e_timers e (l_timer l)) + gain ev /\
  (forall l', local_of g' = Some l' -> l' = l).
Proof.
  intros L M. destruct g as [sv a|l0 c n|l0 c n|]; try discriminate L; injection L as ->; cbn in M.
  - destruct (g_stack c).
    { injection M as <- <- <-. split; [apply same_but_refl|]. split; [cbn; lia|discriminate]. }
    destruct (check_timeout clk e l) as [e1 [ev1|]] eqn:C; apply check_ok in C; destruct C as (S1 & T1 & _ & G1).
    { injection M as <- <- <-. split; [exact S1|]. rewrite T1, G1. split; [lia|discriminate]. }
    destruct (core_step _ _ _) as [c'|s c'|ex].
    + injection M as <- <- <-. rewrite T1. split; [exact S1|]. split; [cbn; lia|]. cbn. congruence.
    + destruct (do_stop clk e1 (l_timer l)) as [e2 x] eqn:D. apply do_stop_ok in D. destruct D as (S2 & _ & K2).
      rewrite T1 in K2. destruct x; injection M as <- <- <-;
        (split; [eapply same_but_trans; eassumption|]; split; [cbn; exact K2|]; cbn; congruence).
    + injection M as <- <- <-. rewrite T1. split; [exact S1|]. split; [cbn; lia|discriminate].
  - assert (R : forall e', match do_start clk e (l_timer l) with
                           | (e1, Ok _) => (e1, GLoop l c n, EvNone)
                           | (e1, Err ex) => (e1, GDone, EvRaise ex) end = (e', g', ev) ->
              same_but (l_timer l) e e' /\
              t_count (e_timers e' (l_timer l)) = t_count (e_timers e (l_timer l)) + gain ev /\
              (forall l', local_of g' = Some l' -> l' = l)).
    { intros e0 E. destruct (do_start clk e (l_timer l)) as [e1 x] eqn:D. apply do_start_ok in D.
      destruct D as (S1 & K1 & _). destruct x; injection E as <- <- <-;
        (split; [exact S1|]; split; [cbn; lia|]; cbn; congruence). }
    destruct (l_limit l) as [|m|].
    + apply R. exact M.
    + destruct (m <=? n).
      * injection M as <- <- <-. destruct (do_abort_ok e (l_timer l)) as (S1 & K1).
        split; [exact S1|]. split; [cbn; lia|discriminate].
      * apply R. exact M.
    + injection M as <- <- <-. split; [apply same_but_refl|]. split; [cbn; lia|discriminate].
Qed.

Lemma next_done shuffle f e e' g' ev : next clk shuffle f e GDone = Some (e', g', ev) -> e' = e /\ g' = GDone /\ ev = EvStop.
Proof. destruct f; [discriminate|]. cbn. intros E. injection E as <- <- <-. auto. Qed.

Lemma next_live shuffle f : forall e g e' g' ev l, local_of g = Some l -> next clk shuffle f e g = Some (e', g', ev) ->
  same_but (l_timer l) e e' /\
  t_count (e_timers e' (l_timer l)) = t_count (e_timers e (l_timer l)) + gain ev /\
  (forall l', local_of g' = Some l' -> l' = l).
Proof.
  induction f as [|f IH]; intros e g e' g' ev l L N; [discriminate|]. cbn [next] in N.
  destruct (micro clk shuffle e g) as [[e1 g1] ev1] eqn:M.
  destruct (micro_live shuffle e g e1 g1 ev1 l L M) as (S1 & K1 & L1).
  destruct ev1; try (injection N as <- <- <-; auto; fail).
  destruct (local_of g1) as [l1|] eqn:L1e.
  - assert (l1 = l) by (apply L1; reflexivity). subst l1.
    destruct (IH _ _ _ _ _ _ L1e N) as (S2 & K2 & L2). split; [eapply same_but_trans; eassumption|].
    split; [cbn in K1; lia|exact L2].
  - destruct g1; try discriminate L1e.
    + exfalso. destruct g as [sv' a'|l0 c n|l0 c n|]; try discriminate L; cbn in M.
      * destruct (g_stack c); [discriminate|]. destruct (check_timeout clk e l0) as [? [?|]]; [discriminate|].
        destruct (core_step _ _ _); try discriminate. destruct (do_stop _ _ _) as [? []]; discriminate.
      * destruct (l_limit l0); [|destruct (_ <=? _); [discriminate|]|discriminate];
          destruct (do_start _ _ _) as [? []]; discriminate.
    + apply next_done in N. destruct N as (-> & -> & ->). split; [exact S1|]. split; [exact K1|discriminate].
Qed.

(** The first call: a fresh Timer becomes that of the solver, [_interrupt] is cleared. *)
Lemma next_init shuffle f e sv a e' g' ev : next clk shuffle f e (GInit sv a) = Some (e', g', ev) ->
  e_timer e' = e_ntimers e /\ e_ntimers e' = S (e_ntimers e) /\
  (forall k, k <> e_ntimers e -> e_timers e' k = e_timers e k) /\
  t_count (e_timers e' (e_ntimers e)) = gain ev /\
  (forall l', local_of g' = Some l' -> l_timer l' = e_ntimers e).
Proof.
  destruct f as [|f]; [discriminate|]. cbn [next micro]. intros N.
  assert (G : forall E G1 V, begin clk shuffle e sv a = (E, G1, V) ->
    same_but (e_ntimers e) (reset e) E /\ gain V = 0 /\ t_count (e_timers E (e_ntimers e)) = 0 /\
    match G1 with GLoop l _ _ => V = EvNone /\ l_timer l = e_ntimers e | GDone => V <> EvNone | _ => False end).
  { intros E G1 V B. unfold begin in B.
    assert (C0 : t_count (e_timers (reset e) (e_ntimers e)) = 0) by (cbn; rewrite upd_same; reflexivity).
    destruct (m_solvable _); cbn [negb] in B.
    2:{ injection B as <- <- <-. split; [apply same_but_refl|]. split; [reflexivity|]. split; [exact C0|discriminate]. }
    destruct (do_setup _ _ _) as [w [u|ex]].
    2:{ injection B as <- <- <-. split; [repeat split|]. split; [reflexivity|]. split; [exact C0|discriminate]. }
    destruct (select_order _ _ _ _).
    { injection B as <- <- <-. split; [repeat split|]. split; [reflexivity|]. split; [exact C0|discriminate]. }
    destruct (do_start clk (set_world (reset e) w) (e_timer (set_world (reset e) w))) as [e1 x] eqn:D.
    apply do_start_ok in D. destruct D as (S1 & K1 & _). cbn in S1, K1.
    assert (S1' : same_but (e_ntimers e) (reset e) e1).
    { destruct S1 as (A1 & B1 & C1). repeat split; assumption. }
    destruct x; injection B as <- <- <-; (split; [exact S1'|]; split; [reflexivity|];
      split; [cbn in C0; rewrite K1; exact C0|]); [split; reflexivity|discriminate]. }
  destruct (begin clk shuffle e sv a) as [[e1 g1] v1] eqn:B.
  destruct (G e1 g1 v1 eq_refl) as ((A1 & B1 & C1) & G0 & K1 & L1). cbn in A1, B1.
  assert (C1' : forall k, k <> e_ntimers e -> e_timers e1 k = e_timers e k).
  { intros k K. rewrite C1 by exact K. cbn. apply upd_other. exact K. }
  destruct g1 as [sv1 a1|l1 c1 n1|l1 c1 n1|]; try contradiction.
  - destruct L1 as (-> & L1).
    destruct (next_live shuffle f e1 (GLoop l1 c1 n1) e' g' ev l1 eq_refl N) as ((A2 & B2 & C2) & K2 & L2).
    rewrite L1 in C2, K2. repeat split; [congruence|congruence| |lia|].
    + intros k K. rewrite C2, C1'; auto.
    + intros l' E. rewrite (L2 _ E). exact L1.
  - destruct v1; [congruence| | |]; try discriminate G0; injection N as <- <- <-;
      (split; [exact A1|]; split; [exact B1|]; split; [exact C1'|]; split; [exact K1|discriminate]).
Qed.

(** *** Logs *)

Lemma results_app i l1 l2 : results i (l1 ++ l2) = results i l1 ++ results i l2.
Proof. unfold results. rewrite filter_app, map_app. reflexivity. Qed.

Lemma results_one i j ev : results i [(j, ev)] = if Nat.eqb j i then [ev] else [].
Proof. unfold results. cbn. destruct (Nat.eqb j i); reflexivity. Qed.

Lemma received_snoc i log j ev :
  received i (log ++ [(j, ev)]) = received i log + (if Nat.eqb j i then gain ev else 0).
Proof.
  unfold received. rewrite results_app, filter_app, app_length, results_one.
  destruct (Nat.eqb j i); [destruct ev|]; cbn [filter length gain]; lia.
Qed.

Lemma results_none i log : ~ In i (map fst log) -> results i log = [].
Proof.
  unfold results. induction log as [|[k v] log IH]; cbn; intros N; [reflexivity|].
  destruct (Nat.eqb_spec k i); [exfalso; apply N; left; congruence|]. apply IH. tauto.
Qed.

Lemma split_snoc {A} (log : list A) x pre y suf : log ++ [x] = pre ++ y :: suf ->
  (suf = [] /\ pre = log /\ y = x) \/ exists suf0, suf = suf0 ++ [x] /\ log = pre ++ y :: suf0.
Proof.
  intros E. destruct suf as [|z suf'] using rev_ind.
  - left. apply app_inj_tail in E. destruct E as [-> ->]. auto.
  - right. clear IHsuf'. exists suf'. 
    change (log ++ [x] = pre ++ (y :: suf') ++ [z]) in E. rewrite app_assoc in E.
    apply app_inj_tail in E. destruct E as [-> ->]. auto.
Qed.

Lemma last_start_snoc log j ev pre i v suf : log ++ [(j, ev)] = pre ++ (i, v) :: suf -> last_start pre i suf ->
  (suf = [] /\ pre = log /\ i = j /\ v = ev /\ ~ In j (map fst log)) \/
  exists suf0, suf = suf0 ++ [(j, ev)] /\ log = pre ++ (i, v) :: suf0 /\ last_start pre i suf0 /\ In j (map fst log).
Proof.
  intros E (N & L). apply split_snoc in E. destruct E as [(-> & -> & E)|(suf0 & -> & E)].
  - injection E as -> ->. left. auto.
  - right. exists suf0. split; [reflexivity|]. split; [exact E|]. split.
    + split; [exact N|]. intros k K. apply L. rewrite map_app. apply in_or_app. auto.
    + subst log. rewrite map_app. apply in_or_app. cbn.
      destruct (L j) as [->|K]; [rewrite map_app; apply in_or_app; cbn; auto|auto|auto].
Qed.

Variables (sv : solver) (a : nat -> args).

Definition started (g : gen) : Prop := match g with GInit _ _ => False | _ => True end.

(** *** The count *)
Record inv (log : list (nat * event)) (e : env) (gs : nat -> gen) : Prop := {
  i_new : forall i, ~ In i (map fst log) -> gs i = GInit sv (a i);
  i_old : forall i, In i (map fst log) -> started (gs i);
  i_lt : forall i l, local_of (gs i) = Some l -> (l_timer l < e_ntimers e)%nat;
  i_inj : forall i k l l', i <> k -> local_of (gs i) = Some l -> local_of (gs k) = Some l' -> l_timer l <> l_timer l';
  i_cur : forall pre j ev suf, log = pre ++ (j, ev) :: suf -> last_start pre j suf ->
    t_count (e_timers e (e_timer e)) = received j log /\ (e_timer e < e_ntimers e)%nat /\
    (forall l, local_of (gs j) = Some l -> l_timer l = e_timer e) /\
    (forall i l, i <> j -> local_of (gs i) = Some l -> l_timer l <> e_timer e) }.

Lemma started_next shuffle f e g e' g' ev : started g -> next clk shuffle f e g = Some (e', g', ev) -> started g'.
Proof.
  revert e g. induction f as [|f IH]; intros e g S N; [discriminate|]. cbn [next] in N.
  destruct (micro clk shuffle e g) as [[e1 g1] ev1] eqn:M.
  assert (S1 : started g1).
  { destruct g as [sv0 a0|l0 c n|l0 c n|]; [contradiction| | |]; cbn in M.
    - destruct (g_stack c); [injection M as <- <- <-; exact I|].
      destruct (check_timeout clk e l0) as [? [?|]]; [injection M as <- <- <-; exact I|].
      destruct (core_step _ _ _); try (injection M as <- <- <-; exact I).
      destruct (do_stop _ _ _) as [? []]; injection M as <- <- <-; exact I.
    - destruct (l_limit l0); [|destruct (_ <=? _); [injection M as <- <- <-; exact I|]|injection M as <- <- <-; exact I];
        destruct (do_start _ _ _) as [? []]; injection M as <- <- <-; exact I.
    - injection M as <- <- <-. exact I. }
  destruct ev1; try (injection N as <- <- <-; exact S1). exact (IH _ _ S1 N).
Qed.

Lemma started_init shuffle f e sv0 a0 e' g' ev : next clk shuffle f e (GInit sv0 a0) = Some (e', g', ev) -> started g'.
Proof.
  destruct f as [|f]; [discriminate|]. cbn [next micro]. unfold begin.
  destruct (m_solvable _); cbn [negb]; [|intros E; injection E as <- <- <-; exact I].
  destruct (do_setup _ _ _) as [w [u|ex]]; [|intros E; injection E as <- <- <-; exact I].
  destruct (select_order _ _ _ _); [intros E; injection E as <- <- <-; exact I|].
  destruct (do_start _ _ _) as [? []]; [|intros E; injection E as <- <- <-; exact I].
  apply started_next. exact I.
Qed.

Lemma inv_step (shuffle : nat -> list name -> list name) f log e gs j e' g' ev : inv log e gs -> next clk (shuffle j) f e (gs j) = Some (e', g', ev) ->
  inv (log ++ [(j, ev)]) e' (upd gs j g').
Proof.
  intros V N.
  assert (Log : map fst (log ++ [(j, ev)]) = map fst log ++ [j]) by (rewrite map_app; reflexivity).
  destruct (in_dec Nat.eq_dec j (map fst log)) as [J|J].
  - pose proof (started_next _ _ _ _ _ _ _ (i_old _ _ _ V j J) N) as SG.
    assert (D : (exists l, local_of (gs j) = Some l /\ same_but (l_timer l) e e' /\
                   t_count (e_timers e' (l_timer l)) = t_count (e_timers e (l_timer l)) + gain ev /\
                   (forall l', local_of g' = Some l' -> l' = l)) \/
                (gs j = GDone /\ e' = e /\ g' = GDone /\ ev = EvStop)).
    { destruct (gs j) as [sv0 a0|l c n|l c n|] eqn:G.
      - exfalso. pose proof (i_old _ _ _ V j J) as O. rewrite G in O. exact O.
      - left. exists l. split; [reflexivity|]. eapply next_live; [|exact N]. reflexivity.
      - left. exists l. split; [reflexivity|]. eapply next_live; [|exact N]. reflexivity.
      - right. apply next_done in N. tauto. }
    assert (LO : forall l', local_of g' = Some l' -> local_of (gs j) = Some l').
    { intros l' L'. destruct D as [(l & L & _ & _ & U)|(_ & _ & -> & _)]; [rewrite (U _ L'); exact L|discriminate]. }
    assert (LOU : forall i l', local_of (upd gs j g' i) = Some l' -> local_of (gs i) = Some l').
    { intros i l'. destruct (Nat.eq_dec i j) as [->|K]; [rewrite upd_same; apply LO|rewrite upd_other by exact K; auto]. }
    assert (TT : e_timer e' = e_timer e /\ e_ntimers e' = e_ntimers e).
    { destruct D as [(l & _ & (A1 & B1 & _) & _)|(_ & -> & _)]; auto. }
    destruct TT as [T1 T2]. constructor.
    + intros i I0. rewrite Log in I0. rewrite upd_other; [apply (i_new _ _ _ V); intros K; apply I0; apply in_or_app; auto|].
      intros ->. apply I0. apply in_or_app. auto.
    + intros i I0. destruct (Nat.eq_dec i j) as [->|K]; [rewrite upd_same; exact SG|]. rewrite upd_other by exact K.
      apply (i_old _ _ _ V). rewrite Log in I0. apply in_app_or in I0. destruct I0 as [I0|[->|[]]]; [exact I0|contradiction].
    + intros i l L. rewrite T2. apply (i_lt _ _ _ V i). apply LOU. exact L.
    + intros i k l l' K L L'. apply (i_inj _ _ _ V i k l l' K); apply LOU; assumption.
    + intros pre i v suf E LS. destruct (last_start_snoc _ _ _ _ _ _ _ E LS) as [(_ & _ & _ & _ & C)|(suf0 & -> & E0 & LS0 & _)];
        [contradiction|].
      destruct (i_cur _ _ _ V _ _ _ _ E0 LS0) as (C1 & C2 & C3 & C4). rewrite T1, T2. split; [|split; [exact C2|split]].
      * rewrite received_snoc, <- C1. destruct D as [(l & L & (_ & _ & O) & K & _)|(_ & -> & _ & ->)].
        -- destruct (Nat.eqb_spec j i) as [->|K0].
           ++ rewrite (C3 l L) in K. exact K.
           ++ rewrite O; [lia|]. intros X. exact (C4 j l K0 L (eq_sym X)).
        -- cbn. destruct (Nat.eqb j i); lia.
      * intros l L. apply C3. apply LOU. exact L.
      * intros k l K L. apply (C4 k l K). apply LOU. exact L.
  - pose proof (i_new _ _ _ V j J) as G. rewrite G in N. pose proof (started_init _ _ _ _ _ _ _ _ N) as SG.
    destruct (next_init _ _ _ _ _ _ _ _ N) as (N1 & N2 & N3 & N4 & N5). constructor.
    + intros i I0. rewrite Log in I0. rewrite upd_other; [apply (i_new _ _ _ V); intros K; apply I0; apply in_or_app; auto|].
      intros ->. apply I0. apply in_or_app. cbn. auto.
    + intros i I0. destruct (Nat.eq_dec i j) as [->|K]; [rewrite upd_same; exact SG|]. rewrite upd_other by exact K.
      apply (i_old _ _ _ V). rewrite Log in I0. apply in_app_or in I0. destruct I0 as [I0|[I0|[]]]; [exact I0|congruence].
    + intros i l L. rewrite N2. destruct (Nat.eq_dec i j) as [->|K].
      * rewrite upd_same in L. rewrite (N5 _ L). lia.
      * rewrite upd_other in L by exact K. pose proof (i_lt _ _ _ V i l L). lia.
    + intros i k l l' K L L'. destruct (Nat.eq_dec i j) as [->|K1].
      * rewrite upd_same in L. rewrite upd_other in L' by congruence. rewrite (N5 _ L).
        pose proof (i_lt _ _ _ V k l' L'). lia.
      * rewrite upd_other in L by exact K1. destruct (Nat.eq_dec k j) as [->|K2].
        -- rewrite upd_same in L'. rewrite (N5 _ L'). pose proof (i_lt _ _ _ V i l L). lia.
        -- rewrite upd_other in L' by exact K2. exact (i_inj _ _ _ V i k l l' K L L').
    + intros pre i v suf E LS. destruct (last_start_snoc _ _ _ _ _ _ _ E LS) as [(_ & _ & -> & _ & _)|(_ & _ & _ & _ & C)];
        [|contradiction].
      rewrite N1, N2. split; [|split; [lia|split]].
      * rewrite received_snoc, Nat.eqb_refl, N4. unfold received. rewrite (results_none _ _ J). cbn. lia.
      * intros l. rewrite upd_same. apply N5.
      * intros k l K. rewrite upd_other by exact K. intros L. pose proof (i_lt _ _ _ V k l L). lia.
Qed.

Lemma play_inv (shuffle : nat -> list name -> list name) f : forall sched log e gs evs e', inv log e gs -> play clk shuffle f sched e gs = Some (evs, e') ->
  exists gs', inv (log ++ evs) e' gs'.
Proof.
  induction sched as [|j sched IH]; intros log e gs evs e' V P; cbn [play] in P.
  - injection P as <- <-. exists gs. rewrite app_nil_r. exact V.
  - destruct (next clk (shuffle j) f e (gs j)) as [[[e1 g1] ev]|] eqn:N; [|discriminate].
    destruct (play clk shuffle f sched e1 (upd gs j g1)) as [[evs1 e2]|] eqn:P1; [|discriminate].
    injection P as <- <-. destruct (IH _ _ _ _ _ (inv_step _ _ _ _ _ _ _ _ _ V N) P1) as (gs' & V').
    exists gs'. rewrite <- app_assoc in V'. exact V'.
Qed.

Theorem interleaved_count : forall (shuffle : nat -> list name -> list name) f sched e evs e' pre j ev suf,
  play clk shuffle f sched e (fun i => GInit sv (a i)) = Some (evs, e') ->
  evs = pre ++ (j, ev) :: suf -> last_start pre j suf ->
  fst (fst (get_stats e')) = received j evs.
Proof.
  intros shuffle f sched e evs e' pre j ev suf P E LS.
  destruct (play_inv shuffle f sched [] e (fun i => GInit sv (a i)) evs e') as (gs' & V); [|exact P|].
  - constructor; cbn; try discriminate; try contradiction; auto. intros pre0. destruct pre0; discriminate.
  - exact (proj1 (i_cur _ _ _ V _ _ _ _ E LS)).
Qed.

(** *** The interrupt, without timeout *)

(** A call returns with the generator suspended at a solution, or finished. *)
Definition rested (lim_i : lim) (n : Z) (g : gen) (ev : event) : Prop :=
  match g with
  | GYield l _ m => (exists s, ev = EvYield s) /\ l_timeout l = LNone /\ l_limit l = lim_i /\ m = n + 1
  | GDone => gain ev = 0
  | _ => False
  end.

Lemma loop_rests shuffle f : forall e l c n e' g' ev, l_timeout l = LNone ->
  next clk shuffle f e (GLoop l c n) = Some (e', g', ev) ->
  e_interrupt e' = e_interrupt e /\ rested (l_limit l) n g' ev.
Proof.
  induction f as [|f IH]; intros e l c n e' g' ev T N; [discriminate|]. cbn [next micro] in N.
  destruct (g_stack c); [injection N as <- <- <-; split; reflexivity|].
  destruct (check_timeout clk e l) as [e1 o] eqn:C. apply check_ok in C. destruct C as (_ & _ & C & _).
  destruct (C T) as (-> & C1).
  destruct (core_step _ _ _) as [c'|s c'|ex].
  - destruct (IH _ _ _ _ _ _ _ T N) as (I1 & R1). split; [congruence|exact R1].
  - destruct (do_stop clk e1 (l_timer l)) as [e2 x] eqn:D. apply do_stop_ok in D. destruct D as (_ & D & _).
    destruct x; injection N as <- <- <-; (split; [congruence|]); cbn; [|reflexivity]. eauto.
  - injection N as <- <- <-. split; [exact C1|reflexivity].
Qed.

Lemma yield_rests shuffle f e l c n e' g' ev : l_timeout l = LNone ->
  next clk shuffle f e (GYield l c n) = Some (e', g', ev) ->
  rested (l_limit l) n g' ev /\
  (e_interrupt e' = Some ILimit /\ (exists m, l_limit l = LNum m /\ m <= n) \/
   e_interrupt e' = e_interrupt e /\ ~ exists m, l_limit l = LNum m /\ m <= n).
Proof.
  intros T N. destruct f as [|f]; [discriminate|]. cbn [next micro] in N.
  destruct (l_limit l) as [|m|] eqn:L.
  - destruct (do_start clk e (l_timer l)) as [e1 x] eqn:D. apply do_start_ok in D. destruct D as (_ & _ & D). destruct x.
    + destruct (loop_rests _ _ _ _ _ _ _ _ _ T N) as (I1 & R1). rewrite L in R1. split; [exact R1|].
      right. split; [congruence|]. intros (m & E & _). discriminate.
    + injection N as <- <- <-. split; [reflexivity|]. right. split; [exact D|]. intros (m & E & _). discriminate.
  - destruct (m <=? n) eqn:K.
    + injection N as <- <- <-. split; [reflexivity|]. left. split; [reflexivity|]. exists m. split; [reflexivity|lia].
    + destruct (do_start clk e (l_timer l)) as [e1 x] eqn:D. apply do_start_ok in D. destruct D as (_ & _ & D).
      assert (F : ~ exists m0, LNum m = LNum m0 /\ m0 <= n) by (intros (m0 & E & M); injection E as <-; lia).
      destruct x.
      * destruct (loop_rests _ _ _ _ _ _ _ _ _ T N) as (I1 & R1). rewrite L in R1. split; [exact R1|].
        right. split; [congruence|exact F].
      * injection N as <- <- <-. split; [reflexivity|]. right. split; [exact D|exact F].
  - injection N as <- <- <-. split; [reflexivity|]. right. split; [reflexivity|]. intros (m & E & _). discriminate.
Qed.

Lemma init_rests shuffle f e i e' g' ev : timeout_of sv (a i) = LNone ->
  next clk shuffle f e (GInit sv (a i)) = Some (e', g', ev) ->
  e_interrupt e' = None /\ rested (limit_of sv (a i)) 0 g' ev.
Proof.
  intros T. destruct f as [|f]; [discriminate|]. cbn [next micro]. unfold begin.
  destruct (m_solvable _); cbn [negb]; [|intros E; injection E as <- <- <-; split; reflexivity].
  destruct (do_setup _ _ _) as [w [u|ex]]; [|intros E; injection E as <- <- <-; split; reflexivity].
  destruct (select_order _ _ _ _); [intros E; injection E as <- <- <-; split; reflexivity|].
  destruct (do_start _ _ _) as [e1 x] eqn:D. apply do_start_ok in D. destruct D as (_ & _ & D).
  destruct x; [|intros E; injection E as <- <- <-; split; [exact D|reflexivity]].
  intros N. apply loop_rests in N; [|exact T]. destruct N as (I1 & R1). split; [|exact R1].
  rewrite I1, D. reflexivity.
Qed.

Definition cut (log : list (nat * event)) (suf : list (nat * event)) : Prop :=
  exists p k v s, suf = p ++ (k, v) :: s /\ at_limit (fun i => limit_of sv (a i)) k (log ++ p).

Record inv2 (log : list (nat * event)) (e : env) (gs : nat -> gen) : Prop := {
  j_new : forall i, ~ In i (map fst log) -> gs i = GInit sv (a i);
  j_old : forall i, In i (map fst log) ->
    match gs i with
    | GYield l _ n => l_timeout l = LNone /\ l_limit l = limit_of sv (a i) /\ n = received i log /\
                      exists evs s, results i log = evs ++ [EvYield s]
    | GDone => ~ exists evs s, results i log = evs ++ [EvYield s]
    | _ => False
    end;
  j_cur : forall pre j ev suf, log = pre ++ (j, ev) :: suf -> last_start pre j suf ->
    e_interrupt e = Some ILimit /\ cut (pre ++ [(j, ev)]) suf \/
    e_interrupt e = None /\ ~ cut (pre ++ [(j, ev)]) suf }.

Hypothesis Hto : forall i, timeout_of sv (a i) = LNone.

Lemma rested_old log j ev g' :
  rested (limit_of sv (a j)) (received j log) g' ev ->
  match g' with
  | GYield l _ n => l_timeout l = LNone /\ l_limit l = limit_of sv (a j) /\ n = received j (log ++ [(j, ev)]) /\
                    exists evs s, results j (log ++ [(j, ev)]) = evs ++ [EvYield s]
  | GDone => ~ exists evs s, results j (log ++ [(j, ev)]) = evs ++ [EvYield s]
  | _ => False
  end.
Proof.
  destruct g' as [sv0 a0|l c n|l c n|]; cbn; auto.
  - intros ((s & ->) & T & L & ->). split; [exact T|]. split; [exact L|].
    rewrite received_snoc, results_app, results_one, Nat.eqb_refl. split; [reflexivity|]. eauto.
  - rewrite results_app, results_one, Nat.eqb_refl. intros G (evs & s & E). apply app_inj_tail in E.
    destruct E as [_ ->]. discriminate.
Qed.

Lemma keep_old log j ev i g : i <> j ->
  match g with
  | GYield l _ n => l_timeout l = LNone /\ l_limit l = limit_of sv (a i) /\ n = received i log /\
                    exists evs s, results i log = evs ++ [EvYield s]
  | GDone => ~ exists evs s, results i log = evs ++ [EvYield s]
  | _ => False
  end ->
  match g with
  | GYield l _ n => l_timeout l = LNone /\ l_limit l = limit_of sv (a i) /\ n = received i (log ++ [(j, ev)]) /\
                    exists evs s, results i (log ++ [(j, ev)]) = evs ++ [EvYield s]
  | GDone => ~ exists evs s, results i (log ++ [(j, ev)]) = evs ++ [EvYield s]
  | _ => False
  end.
Proof.
  intros K. rewrite received_snoc, results_app, results_one. destruct (Nat.eqb_spec j i); [congruence|].
  rewrite app_nil_r, Z.add_0_r. auto.
Qed.

Lemma cut_snoc log suf j ev : cut log (suf ++ [(j, ev)]) <->
  cut log suf \/ at_limit (fun i => limit_of sv (a i)) j (log ++ suf).
Proof.
  split.
  - intros (p & k & v & s & E & A). apply split_snoc in E. destruct E as [(_ & -> & E)|(s0 & _ & E)].
    + injection E as -> ->. right. exact A.
    + left. exists p, k, v, s0. split; [exact E|exact A].
  - intros [(p & k & v & s & -> & A)|A].
    + exists p, k, v, (s ++ [(j, ev)]). split; [rewrite <- app_assoc; reflexivity|exact A].
    + exists suf, j, ev, []. split; [reflexivity|exact A].
Qed.

Lemma inv2_step (shuffle : nat -> list name -> list name) f log e gs j e' g' ev : inv2 log e gs -> next clk (shuffle j) f e (gs j) = Some (e', g', ev) ->
  inv2 (log ++ [(j, ev)]) e' (upd gs j g').
Proof.
  intros V N.
  assert (Log : map fst (log ++ [(j, ev)]) = map fst log ++ [j]) by (rewrite map_app; reflexivity).
  assert (R : rested (limit_of sv (a j)) (received j log) g' ev /\
    (~ In j (map fst log) -> e_interrupt e' = None) /\
    (In j (map fst log) ->
       e_interrupt e' = Some ILimit /\ at_limit (fun i => limit_of sv (a i)) j log \/
       e_interrupt e' = e_interrupt e /\ ~ at_limit (fun i => limit_of sv (a i)) j log)).
  { destruct (in_dec Nat.eq_dec j (map fst log)) as [J|J].
    - pose proof (j_old _ _ _ V j J) as O. destruct (gs j) as [sv0 a0|l c n|l c n|]; try contradiction.
      + destruct O as (T & L & -> & Y). destruct (yield_rests _ _ _ _ _ _ _ _ _ T N) as (R & B). rewrite L in R, B.
        split; [exact R|]. split; [contradiction|]. intros _. destruct B as [(B1 & B2)|(B1 & B2)].
        * left. split; [exact B1|]. split; assumption.
        * right. split; [exact B1|]. intros (_ & X). exact (B2 X).
      + apply next_done in N. destruct N as (-> & -> & ->). split; [reflexivity|]. split; [contradiction|].
        intros _. right. split; [reflexivity|]. intros (X & _). exact (O X).
    - rewrite (j_new _ _ _ V j J) in N. apply init_rests in N; [|apply Hto]. destruct N as (I1 & R1).
      unfold received at 1. rewrite (results_none _ _ J). split; [exact R1|]. split; [auto|contradiction]. }
  destruct R as (R & R0 & R1). constructor.
  - intros i I0. rewrite Log in I0. rewrite upd_other; [apply (j_new _ _ _ V); intros K; apply I0; apply in_or_app; auto|].
    intros ->. apply I0. apply in_or_app. cbn. auto.
  - intros i I0. destruct (Nat.eq_dec i j) as [->|K]; [rewrite upd_same; apply rested_old; exact R|].
    rewrite upd_other by exact K. apply keep_old; [exact K|]. apply (j_old _ _ _ V).
    rewrite Log in I0. apply in_app_or in I0. destruct I0 as [I0|[I0|[]]]; [exact I0|congruence].
  - intros pre i v suf E LS.
    destruct (last_start_snoc _ _ _ _ _ _ _ E LS) as [(-> & -> & -> & -> & J)|(suf0 & -> & E0 & LS0 & J)].
    + right. split; [exact (R0 J)|]. intros (p & k & w & s & X & _). destruct p; discriminate.
    + assert (EE : log = (pre ++ [(i, v)]) ++ suf0) by (rewrite <- app_assoc; exact E0).
      rewrite cut_snoc, <- EE.
      pose proof (j_cur _ _ _ V _ _ _ _ E0 LS0) as C.
      destruct (R1 J) as [(A1 & A2)|(A1 & A2)]; rewrite A1; tauto.
Qed.

Lemma play_inv2 (shuffle : nat -> list name -> list name) f : forall sched log e gs evs e', inv2 log e gs -> play clk shuffle f sched e gs = Some (evs, e') ->
  exists gs', inv2 (log ++ evs) e' gs'.
Proof.
  induction sched as [|j sched IH]; intros log e gs evs e' V P; cbn [play] in P.
  - injection P as <- <-. exists gs. rewrite app_nil_r. exact V.
  - destruct (next clk (shuffle j) f e (gs j)) as [[[e1 g1] ev]|] eqn:N; [|discriminate].
    destruct (play clk shuffle f sched e1 (upd gs j g1)) as [[evs1 e2]|] eqn:P1; [|discriminate].
    injection P as <- <-. destruct (IH _ _ _ _ _ (inv2_step _ _ _ _ _ _ _ _ _ V N) P1) as (gs' & V').
    exists gs'. rewrite <- app_assoc in V'. exact V'.
Qed.

Theorem interleaved_interrupt : forall (shuffle : nat -> list name -> list name) f sched e evs e' pre j ev suf,
  play clk shuffle f sched e (fun i => GInit sv (a i)) = Some (evs, e') ->
  evs = pre ++ (j, ev) :: suf -> last_start pre j suf ->
  (e_interrupt e' = None \/ e_interrupt e' = Some ILimit) /\
  (e_interrupt e' = Some ILimit <->
   exists p k v s, suf = p ++ (k, v) :: s /\
     at_limit (fun i => limit_of sv (a i)) k (pre ++ (j, ev) :: p)).
Proof.
  intros shuffle f sched e evs e' pre j ev suf P E LS.
  destruct (play_inv2 shuffle f sched [] e (fun i => GInit sv (a i)) evs e') as (gs' & V); [|exact P|].
  - constructor; cbn; try discriminate; try contradiction; auto. intros pre0. destruct pre0; discriminate.
  - pose proof (j_cur _ _ _ V _ _ _ _ E LS) as C.
    assert (Q : cut (pre ++ [(j, ev)]) suf <->
      exists p k v s, suf = p ++ (k, v) :: s /\ at_limit (fun i => limit_of sv (a i)) k (pre ++ (j, ev) :: p)).
    { unfold cut. split; intros (p & k & v & s & X & A); exists p, k, v, s; (split; [exact X|]);
        [rewrite <- app_assoc in A|rewrite <- app_assoc]; exact A. }
    rewrite <- Q. destruct C as [(-> & C)|(-> & C)]; split; auto; split; auto; try discriminate. contradiction.
Qed.
End Stats.
