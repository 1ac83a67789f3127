(** Options, generators and statistics of a program. *)
From Verif Require Import Solver Program SpecFormula SpecSafe SpecSolve SpecIsolation SpecInterleave SpecProgram ExprFacts DictFacts ModelFacts CompileFacts CodeFacts
  SearchFacts LoopFacts SetupFacts MasterFacts HistoryFacts SolverProps SolverMore SolverExtra InterleaveFacts IsolationFacts InterleaveStats ProgramFacts ProgramRun ProgramInv ProgramProps ProgramStats.
Open Scope list_scope.
Open Scope Z_scope.

Lemma lim_bound v : lim_setter v = bound v. Proof. reflexivity. Qed.

Lemma step_options clk shuffle f p x p' o s : step clk shuffle f p x = Some (p', o) -> (s < p_nsolvers p)%nat ->
  so_opts (p_solvers p' s) = setting s (so_opts (p_solvers p s)) x /\ (s < p_nsolvers p')%nat.
Proof.
  intros H Hs. destruct x as [|j a|pl t lm c|k v|k v|k v|k v|k j a|g|g|k]; cbn [step] in H; cbv zeta in H; cbn [setting].
  - injection H as <- <-. auto.
  - destruct (Nat.ltb j (p_nmodels p)); [destruct (run_api a (world_of p j)) as [w r]|]; injection H as <- <-; auto.
  - injection H as <- <-. cbn. unfold upd. destruct (Nat.eqb_spec s (p_nsolvers p)); [lia|]. split; [reflexivity|lia].
  - destruct (Nat.ltb k (p_nsolvers p)) eqn:E; injection H as <- <-; cbn.
    + unfold upd. rewrite (Nat.eqb_sym s k). destruct (Nat.eqb_spec k s) as [->|]; auto.
    + apply Nat.ltb_ge in E. destruct (Nat.eqb_spec k s); [lia|auto].
  - destruct (Nat.ltb k (p_nsolvers p)) eqn:E; injection H as <- <-; cbn.
    + unfold upd. rewrite (Nat.eqb_sym s k). destruct (Nat.eqb_spec k s) as [->|]; auto.
    + apply Nat.ltb_ge in E. destruct (Nat.eqb_spec k s); [lia|auto].
  - destruct (Nat.ltb k (p_nsolvers p)) eqn:E; injection H as <- <-; cbn.
    + unfold upd. rewrite (Nat.eqb_sym s k). destruct (Nat.eqb_spec k s) as [->|]; auto.
    + apply Nat.ltb_ge in E. destruct (Nat.eqb_spec k s); [lia|auto].
  - destruct (Nat.ltb k (p_nsolvers p)) eqn:E; injection H as <- <-; cbn.
    + unfold upd. rewrite (Nat.eqb_sym s k). destruct (Nat.eqb_spec k s) as [->|]; auto.
    + apply Nat.ltb_ge in E. destruct (Nat.eqb_spec k s); [lia|auto].
  - destruct (_ && _); injection H as <- <-; auto.
  - destruct (Nat.ltb g (p_ngens p)); [|injection H as <- <-; auto].
    destruct (next _ _ _ _ _) as [[[e y] ev]|]; [|discriminate]. injection H as <- <-. cbn.
    unfold upd. destruct (Nat.eqb_spec s (go_solver (p_gens p g))) as [->|]; auto.
  - destruct (Nat.ltb g (p_ngens p)); injection H as <- <-; auto.
  - destruct (Nat.ltb k (p_nsolvers p)); injection H as <- <-; auto.
Qed.

Lemma program_options clk shuffle f s xs : forall p log q, run clk shuffle f p xs = Some (log, q) -> (s < p_nsolvers p)%nat ->
  so_opts (p_solvers q s) = fold_left (setting s) xs (so_opts (p_solvers p s)).
Proof.
  induction xs as [|x xs IH]; intros p log q H Hs; [injection H as <- <-; reflexivity|]. cbn [run] in H.
  destruct (step clk shuffle f p x) as [[p1 o]|] eqn:E; [|discriminate].
  destruct (run clk shuffle f p1 xs) as [[log' q']|] eqn:Er; [|discriminate]. injection H as <- <-.
  destruct (step_options clk shuffle f p x p1 o s E Hs) as [Eo Hs']. cbn [fold_left]. rewrite <- Eo. eapply IH; eauto.
Qed.

Lemma solver_made clk shuffle f p pl t l c xs log q :
  run clk shuffle f p (NewSolver pl t l c :: xs) = Some (log, q) ->
  so_opts (p_solvers q (p_nsolvers p)) = fold_left (setting (p_nsolvers p)) xs (Solver pl (bound t) (bound l) c).
Proof.
  intros H. cbn [run step] in H. match type of H with match run _ _ _ ?pp _ with _ => _ end = _ => set (p1 := pp) in * end.
  destruct (run clk shuffle f p1 xs) as [[log' q']|] eqn:Er; [|discriminate]. injection H as <- <-.
  rewrite (program_options clk shuffle f (p_nsolvers p) xs p1 log' q' Er) by (cbn; lia). cbn. now rewrite upd_same.
Qed.

(** ** Generators *)

Lemma run_other_gen clk shuffle f g xs : forall p log q, run clk shuffle f p xs = Some (log, q) -> (g < p_ngens p)%nat -> ~ In (Next g) xs -> ~ In (Close g) xs ->
  p_gens q g = p_gens p g.
Proof.
  induction xs as [|x xs IH]; intros p log q H Hg Hn Hc; [injection H as <- <-; reflexivity|]. cbn [run] in H.
  destruct (step clk shuffle f p x) as [[p1 o]|] eqn:E; [|discriminate].
  destruct (run clk shuffle f p1 xs) as [[log' q']|] eqn:Er; [|discriminate]. injection H as <- <-.
  destruct (step_other_gen clk shuffle f p x p1 o g E Hg) as (E1 & E2 & _).
  { intros ->. apply Hn. now left. } { intros ->. apply Hc. now left. }
  rewrite <- E1. eapply IH; eauto; intros Hi; [apply Hn|apply Hc]; now right.
Qed.

Lemma generator_made clk shuffle f p s i a xs log q : let g := p_ngens p in
  (s < p_nsolvers p)%nat -> (i < p_nmodels p)%nat -> run clk shuffle f p (Solve s i a :: xs) = Some (log, q) -> ~ In (Next g) xs -> ~ In (Close g) xs ->
  p_gens q g = GenObj s i (PNew a).
Proof.
  intros g Hs Hi H Hn Hc. cbn [run step] in H. rewrite (proj2 (Nat.ltb_lt s _) Hs), (proj2 (Nat.ltb_lt i _) Hi) in H. cbn [andb] in H.
  match type of H with match run _ _ _ ?pp _ with _ => _ end = _ => set (p1 := pp) in * end.
  destruct (run clk shuffle f p1 xs) as [[log' q']|] eqn:Er; [|discriminate]. injection H as <- <-.
  rewrite (run_other_gen clk shuffle f g xs p1 log' q' Er); [cbn; unfold g; now rewrite upd_same|cbn; unfold g; lia|assumption|assumption].
Qed.

Lemma done_run clk shuffle f g xs : forall p log q, run clk shuffle f p xs = Some (log, q) -> (g < p_ngens p)%nat -> go_state (p_gens p g) = PRun GDone ->
  results_of g log = repeat EvStop (next_calls g xs).
Proof.
  induction xs as [|x xs IH]; intros p log q H Hg Hd; [injection H as <- <-; reflexivity|]. cbn [run] in H.
  destruct (step clk shuffle f p x) as [[p1 o]|] eqn:E; [|discriminate].
  destruct (run clk shuffle f p1 xs) as [[log' q']|] eqn:Er; [|discriminate]. injection H as <- <-.
  assert (Hcase : x = Next g \/ x = Close g \/ (x <> Next g /\ x <> Close g)).
  { destruct x; try (right; right; split; discriminate).
    - destruct (Nat.eq_dec g0 g) as [->|]; [auto|]. right. right. split; congruence.
    - destruct (Nat.eq_dec g0 g) as [->|]; [auto|]. right. right. split; congruence. }
  change ((x, o) :: log') with ([(x, o)] ++ log'). rewrite results_app.
  destruct Hcase as [->|[->|[Hx1 Hx2]]].
  - destruct (step_next clk shuffle f p g p1 o E Hg) as (e & y & ev & En & -> & ->).
    unfold starting in En. rewrite Hd in En. apply next_done in En. destruct En as (_ & -> & ->).
    cbn [results_of flat_map]. unfold next_calls. cbn [filter]. rewrite Nat.eqb_refl. cbn [app List.length repeat]. f_equal.
    eapply IH; [exact Er|exact Hg|]. cbn. now rewrite upd_same.
  - assert (Eo : results_of g [(Close g, o)] = []) by (destruct o; reflexivity). rewrite Eo. cbn [app].
    cbn [step] in E. rewrite (proj2 (Nat.ltb_lt g _) Hg) in E. injection E as <- _.
    change (next_calls g (Close g :: xs)) with (next_calls g xs). eapply IH; [exact Er|exact Hg|]. cbn. now rewrite upd_same.
  - destruct (step_other_gen clk shuffle f p x p1 o g E Hg Hx1 Hx2) as (E1 & E2 & ->). cbn [app].
    assert (Ec : next_calls g (x :: xs) = next_calls g xs).
    { unfold next_calls. cbn [filter]. destruct x; try reflexivity. destruct (Nat.eqb_spec g0 g) as [->|]; [contradiction|reflexivity]. }
    rewrite Ec. eapply IH; [exact Er|exact E2|]. now rewrite E1.
Qed.

Lemma program_close clk shuffle f p g xs log q : (g < p_ngens p)%nat -> run clk shuffle f p (Close g :: xs) = Some (log, q) ->
  results_of g log = repeat EvStop (next_calls g xs).
Proof.
  intros Hg H. cbn [run step] in H. rewrite (proj2 (Nat.ltb_lt g _) Hg) in H. cbv zeta in H.
  match type of H with match run _ _ _ ?pp _ with _ => _ end = _ => set (p1 := pp) in * end.
  destruct (run clk shuffle f p1 xs) as [[log' q']|] eqn:Er; [|discriminate]. injection H as <- <-.
  change ((Close g, ODone (Ok tt)) :: log') with ([(Close g, ODone (Ok tt))] ++ log'). rewrite results_app. cbn [results_of flat_map app].
  eapply (done_run clk shuffle f g xs p1); [exact Er|exact Hg|]. cbn. now rewrite upd_same.
Qed.

(** ** Statistics of the other solvers *)

(** The timers of the solvers and of the enumerations: [s] is the only solver with its timer, and only
    enumerations of [s] use it. *)
Definition apart (p : prog) : Prop :=
  (forall s, (s < p_nsolvers p)%nat -> (so_timer (p_solvers p s) < p_ntimers p)%nat) /\
  (forall s s', (s < p_nsolvers p)%nat -> (s' < p_nsolvers p)%nat -> so_timer (p_solvers p s) = so_timer (p_solvers p s') -> s = s') /\
  (forall g l s, plocal p g = Some l -> (s < p_nsolvers p)%nat -> so_timer (p_solvers p s) = l_timer l -> go_solver (p_gens p g) = s) /\
  (forall g l, plocal p g = Some l -> (g < p_ngens p)%nat).

Lemma apart_init : apart init_prog.
Proof.
  split; [|split; [|split]].
  - intros s H. cbn in H. lia.
  - intros s s' H. cbn in H. lia.
  - intros g l s H. discriminate.
  - intros g l H. discriminate.
Qed.

Lemma apart_keep p q : apart p -> p_nsolvers q = p_nsolvers p -> (forall s, so_timer (p_solvers q s) = so_timer (p_solvers p s)) -> (p_ntimers p <= p_ntimers q)%nat ->
  p_gens q = p_gens p -> p_ngens q = p_ngens p -> apart q.
Proof.
  intros (A & B & C & D) E1 E2 E3 E4 E5. unfold apart, plocal. rewrite E1, E4, E5. split; [|split; [|split; [|exact D]]].
  - intros s Hs. rewrite E2. specialize (A s Hs). lia.
  - intros s s' Hs Hs'. rewrite !E2. now apply B.
  - intros g l s Hg Hs. rewrite E2. now apply C.
Qed.

Definition stats_of (p : prog) (s : nat) : timer * option interrupt := (p_timers p (so_timer (p_solvers p s)), so_interrupt (p_solvers p s)).

(** Statement [x] continues an enumeration of solver [s]. *)
Definition advances (p : prog) (s : nat) (x : action) : Prop := exists g, x = Next g /\ (g < p_ngens p)%nat /\ go_solver (p_gens p g) = s.

Lemma apart_step clk shuffle f p x p' o : tinv p -> owned p -> apart p -> step clk shuffle f p x = Some (p', o) ->
  apart p' /\ forall s, (s < p_nsolvers p)%nat -> ~ advances p s x -> stats_of p' s = stats_of p s.
Proof.
  intros Ht Hown Hap H. destruct x as [|j a|pl t lm c|k v|k v|k v|k v|k j a|g|g|k]; cbn [step] in H; cbv zeta in H.
  - injection H as <- <-. split; [now apply (apart_keep p)|reflexivity].
  - destruct (Nat.ltb j (p_nmodels p)); [destruct (run_api a (world_of p j)) as [w r]|]; injection H as <- <-; (split; [now apply (apart_keep p)|reflexivity]).
  - injection H as <- <-. destruct Hap as (A & B & C & D). split.
    + split; [|split; [|split; [|exact D]]].
      * intros s Hs. cbn in *. unfold upd. destruct (Nat.eqb_spec s (p_nsolvers p)); cbn; [lia|]. assert (s < p_nsolvers p)%nat by lia. specialize (A s H). lia.
      * intros s s' Hs Hs'. cbn in *. unfold upd.
        destruct (Nat.eqb_spec s (p_nsolvers p)) as [->|]; destruct (Nat.eqb_spec s' (p_nsolvers p)) as [->|]; cbn; try lia.
        -- intros E. assert (H : (s' < p_nsolvers p)%nat) by lia. specialize (A s' H). lia.
        -- intros E. assert (H : (s < p_nsolvers p)%nat) by lia. specialize (A s H). lia.
        -- apply B; lia.
      * intros g l s Hg Hs. unfold plocal in Hg. cbn in *. unfold upd. destruct (Nat.eqb_spec s (p_nsolvers p)) as [->|]; cbn; [|apply C; [exact Hg|lia]].
        intros E. exfalso. destruct Ht as (T & _). specialize (T g). destruct (go_state (p_gens p g)) as [b|z]; [discriminate|].
        destruct T as [T _]. destruct z as [sv0 a0|l0 c0 n0|l0 c0 n0|]; try discriminate; cbn in Hg, T; injection Hg as ->; lia.
    + intros s Hs _. unfold stats_of. cbn. unfold upd. destruct (Nat.eqb_spec s (p_nsolvers p)); [lia|]. specialize (A s Hs).
      destruct (Nat.eqb_spec (so_timer (p_solvers p s)) (p_ntimers p)); [lia|reflexivity].
  - destruct (Nat.ltb k (p_nsolvers p)); injection H as <- <-; [|split; [exact Hap|reflexivity]]. split.
    + apply (apart_keep p); auto. intros s. cbn. unfold upd. destruct (Nat.eqb_spec s k) as [->|]; reflexivity.
    + intros s Hs _. unfold stats_of. cbn. unfold upd. destruct (Nat.eqb_spec s k) as [->|]; reflexivity.
  - destruct (Nat.ltb k (p_nsolvers p)); injection H as <- <-; [|split; [exact Hap|reflexivity]]. split.
    + apply (apart_keep p); auto. intros s. cbn. unfold upd. destruct (Nat.eqb_spec s k) as [->|]; reflexivity.
    + intros s Hs _. unfold stats_of. cbn. unfold upd. destruct (Nat.eqb_spec s k) as [->|]; reflexivity.
  - destruct (Nat.ltb k (p_nsolvers p)); injection H as <- <-; [|split; [exact Hap|reflexivity]]. split.
    + apply (apart_keep p); auto. intros s. cbn. unfold upd. destruct (Nat.eqb_spec s k) as [->|]; reflexivity.
    + intros s Hs _. unfold stats_of. cbn. unfold upd. destruct (Nat.eqb_spec s k) as [->|]; reflexivity.
  - destruct (Nat.ltb k (p_nsolvers p)); injection H as <- <-; [|split; [exact Hap|reflexivity]]. split.
    + apply (apart_keep p); auto. intros s. cbn. unfold upd. destruct (Nat.eqb_spec s k) as [->|]; reflexivity.
    + intros s Hs _. unfold stats_of. cbn. unfold upd. destruct (Nat.eqb_spec s k) as [->|]; reflexivity.
  - destruct (_ && _); injection H as <- <-; (split; [|reflexivity]); [|exact Hap]. destruct Hap as (A & B & C & D). split; [exact A|]. split; [exact B|]. split.
    + intros g l s Hg Hs. unfold plocal in Hg. cbn in *. unfold upd in *. destruct (Nat.eqb_spec g (p_ngens p)) as [->|]; [discriminate|]. now apply C.
    + intros g l Hg. unfold plocal in Hg. cbn in *. unfold upd in *. destruct (Nat.eqb_spec g (p_ngens p)) as [->|]; [discriminate|]. specialize (D g l Hg). lia.
  - destruct (Nat.ltb g (p_ngens p)) eqn:Eg; [|injection H as <- <-; split; [exact Hap|reflexivity]].
    assert (H' : step clk shuffle f p (Next g) = Some (p', o)) by (cbn [step]; cbv zeta; rewrite Eg; exact H).
    apply Nat.ltb_lt in Eg. destruct (step_next clk shuffle f p g p' o H' Eg) as (e & y & ev & En & -> & ->). clear H H'.
    pose proof (Hown g Eg) as Hs1. destruct (p_gens p g) as [s1 j st] eqn:Egen. cbn [go_solver go_model] in *.
    unfold own_env, starting in En. rewrite Egen in En. cbn [go_solver go_model go_state] in En.
    pose proof Hap as (A & B & C & D).
    assert (Hkey : (e_timer e < e_ntimers e)%nat /\ (p_ntimers p <= e_ntimers e)%nat /\
      (forall s, (s < p_nsolvers p)%nat -> s <> s1 -> e_timers e (so_timer (p_solvers p s)) = p_timers p (so_timer (p_solvers p s)) /\ so_timer (p_solvers p s) <> e_timer e) /\
      (forall k l, plocal p k = Some l -> l_timer l = e_timer e -> go_solver (p_gens p k) = s1) /\
      (forall l, local_of y = Some l -> forall s, (s < p_nsolvers p)%nat -> s <> s1 -> so_timer (p_solvers p s) <> l_timer l)).
    { destruct st as [a|x].
      - destruct (next_init clk _ f _ _ a e y ev En) as (E1 & E2 & E3 & _ & E5). cbn [env_of e_ntimers e_timers e_timer] in *.
        rewrite E1, E2. split; [lia|]. split; [lia|]. split; [|split].
        + intros s Hs Hne. specialize (A s Hs). split; [apply E3; lia|lia].
        + intros k l Hk E. exfalso. destruct Ht as (T & _). specialize (T k). unfold plocal in Hk. destruct (go_state (p_gens p k)) as [b|z]; [discriminate|].
          destruct T as [T _]. destruct z as [sv0 a0|l0 c0 n0|l0 c0 n0|]; try discriminate; cbn in Hk, T; injection Hk as ->; lia.
        + intros l Hl s Hs Hne. rewrite (E5 l Hl). specialize (A s Hs). lia.
      - destruct Ht as (T1 & _ & _). specialize (T1 g). rewrite Egen in T1. cbn in T1. destruct T1 as [T1 T1'].
        pose proof (next_options clk _ f _ _ _ _ _ T1' En) as Eto. cbn [env_of e_timer] in Eto.
        pose proof (next_frame clk _ f _ _ _ _ _ En) as (F1 & F2 & F3). cbn [env_of e_ntimers e_timers] in *.
        specialize (A s1 Hs1) as A1. rewrite Eto. split; [lia|]. split; [lia|].
        assert (Hloc : forall l s, local_of x = Some l -> (s < p_nsolvers p)%nat -> s <> s1 -> so_timer (p_solvers p s) <> l_timer l).
        { intros l s Hl Hs Hne E. apply Hne. symmetry. rewrite <- (C g l s); [now rewrite Egen| |exact Hs|exact E]. unfold plocal. now rewrite Egen. }
        split; [|split].
        + intros s Hs Hne. split; [|intros E; apply Hne; now apply B]. apply F2; [now apply A|]. intros l Hl E. now apply (Hloc l s Hl Hs Hne).
        + intros k l Hk E. apply (C k l s1); auto.
        + intros l Hl s Hs Hne. destruct (local_of x) as [lx|] eqn:Lx.
          * destruct (next_live clk _ f _ _ _ _ _ lx Lx En) as (_ & _ & Hl'). rewrite (Hl' l Hl). now apply Hloc.
          * exfalso. destruct x as [sv0 a0|l0 c0 n0|l0 c0 n0|]; try discriminate; [now apply (T1' sv0 a0)|].
            apply next_done in En. destruct En as (_ & -> & _). discriminate. }
    destruct Hkey as (K1 & K2 & K3 & K4 & K5). split.
    + split; [|split; [|split]].
      * intros s Hs. cbn in *. unfold upd. destruct (Nat.eqb_spec s s1) as [->|]; cbn; [exact K1|]. specialize (A s Hs). lia.
      * intros s s' Hs Hs'. cbn in *. unfold upd. destruct (Nat.eqb_spec s s1) as [->|Hne]; destruct (Nat.eqb_spec s' s1) as [->|Hne']; cbn; auto.
        -- intros E. exfalso. now apply (K3 s' Hs' Hne').
        -- intros E. exfalso. now apply (K3 s Hs Hne).
      * intros k l s Hk Hs. unfold plocal in Hk. cbn in *. unfold upd in *. destruct (Nat.eqb_spec k g) as [->|Hkg]; cbn in *.
        -- destruct (Nat.eqb_spec s s1) as [->|Hne]; cbn; [now rewrite Egen|]. intros E. exfalso. now apply (K5 l Hk s Hs Hne).
        -- destruct (Nat.eqb_spec s s1) as [->|Hne]; cbn; [|now apply C]. intros E. apply (K4 k l); auto.
      * intros k l Hk. unfold plocal in Hk. cbn in *. unfold upd in *. destruct (Nat.eqb_spec k g) as [->|Hkg]; [exact Eg|]. now apply (D k l).
    + intros s Hs Hna. assert (Hne : s <> s1). { intros ->. apply Hna. exists g. split; [reflexivity|]. split; [exact Eg|]. now rewrite Egen. }
      unfold stats_of. cbn. unfold upd. destruct (Nat.eqb_spec s s1); [contradiction|]. destruct (K3 s Hs Hne) as [-> _]. reflexivity.
  - destruct (Nat.ltb g (p_ngens p)); injection H as <- <-; (split; [|reflexivity]); [|exact Hap]. destruct Hap as (A & B & C & D). split; [exact A|]. split; [exact B|]. split.
    + intros k l s Hk Hs. unfold plocal in Hk. cbn in *. unfold upd in *. destruct (Nat.eqb_spec k g) as [->|]; [discriminate|]. now apply C.
    + intros k l Hk. unfold plocal in Hk. cbn in *. unfold upd in *. destruct (Nat.eqb_spec k g) as [->|]; [discriminate|]. now apply (D k l).
  - destruct (Nat.ltb k (p_nsolvers p)); injection H as <- <-; (split; [exact Hap|reflexivity]).
Qed.

Lemma apart_run clk shuffle f xs : forall p log q, tinv p -> owned p -> apart p -> run clk shuffle f p xs = Some (log, q) -> apart q /\ owned q.
Proof.
  induction xs as [|x xs IH]; intros p log q Ht Ho Ha H; [injection H as <- <-; auto|]. cbn [run] in H.
  destruct (step clk shuffle f p x) as [[p1 o]|] eqn:E; [|discriminate].
  destruct (run clk shuffle f p1 xs) as [[log' q']|] eqn:Er; [|discriminate]. injection H as <- <-.
  eapply (IH p1); eauto; [eapply tinv_step; eauto|eapply owned_step; eauto|]. now destruct (apart_step clk shuffle f p x p1 o Ht Ho Ha E).
Qed.

Lemma step_nsolvers clk shuffle f p x p' o : step clk shuffle f p x = Some (p', o) -> (p_nsolvers p <= p_nsolvers p')%nat.
Proof.
  intros H. destruct (p_nsolvers p) as [|n] eqn:E; [lia|]. destruct (step_options clk shuffle f p x p' o n H); lia.
Qed.

Lemma stats_frame_from clk shuffle f s xs : forall p log q, tinv p -> owned p -> apart p -> run clk shuffle f p xs = Some (log, q) -> (s < p_nsolvers p)%nat ->
  (forall k ev, In (Next k, OEvent ev) log -> go_solver (p_gens q k) <> s) -> stats_of q s = stats_of p s.
Proof.
  induction xs as [|x xs IH]; intros p log q Ht Ho Ha H Hs Hl; [injection H as <- <-; reflexivity|].
  pose proof (run_gens clk shuffle f _ _ _ _ H) as [_ Hgs]. cbn [run] in H.
  destruct (step clk shuffle f p x) as [[p1 o]|] eqn:E; [|discriminate].
  destruct (run clk shuffle f p1 xs) as [[log' q']|] eqn:Er; [|discriminate]. injection H as <- <-.
  destruct (apart_step clk shuffle f p x p1 o Ht Ho Ha E) as [Ha1 Hst].
  rewrite (IH p1 log' q'); auto.
  - apply Hst; [exact Hs|]. intros (g & -> & Hg & Hgs'). destruct (step_next clk shuffle f p g p1 o E Hg) as (e & y & ev & _ & -> & _).
    apply (Hl g ev); [now left|]. now rewrite Hgs.
  - eapply tinv_step; eauto.
  - eapply owned_step; eauto.
  - pose proof (step_nsolvers clk shuffle f p x p1 o E). lia.
  - intros k ev Hi. apply (Hl k ev). now right.
Qed.

Lemma program_stats_frame clk shuffle f xs0 log0 p xs log q s :
  run clk shuffle f init_prog xs0 = Some (log0, p) -> run clk shuffle f p xs = Some (log, q) -> (s < p_nsolvers p)%nat ->
  (forall k ev, In (Next k, OEvent ev) log -> go_solver (p_gens q k) <> s) ->
  get_stats (env_of q s 0) = get_stats (env_of p s 0).
Proof.
  intros H0 H Hs Hl. destruct (apart_run clk shuffle f xs0 _ _ _ tinv_init owned_init apart_init H0) as [Ha Ho].
  pose proof (stats_frame_from clk shuffle f s xs p log q (tinv_run clk shuffle f xs0 _ _ _ tinv_init H0) Ho Ha H Hs Hl) as E.
  unfold stats_of in E. injection E as E1 E2. unfold get_stats. cbn. now rewrite E1, E2.
Qed.

Lemma run_join clk shuffle f xs : forall p log1 m ys log2 q, run clk shuffle f p xs = Some (log1, m) -> run clk shuffle f m ys = Some (log2, q) ->
  run clk shuffle f p (xs ++ ys) = Some (log1 ++ log2, q).
Proof.
  induction xs as [|x xs IH]; intros p log1 m ys log2 q H1 H2; [injection H1 as <- <-; exact H2|]. cbn [run app] in *.
  destruct (step clk shuffle f p x) as [[p1 o]|]; [|discriminate].
  destruct (run clk shuffle f p1 xs) as [[log' q']|] eqn:Er; [|discriminate]. injection H1 as <- <-.
  now rewrite (IH p1 log' q' ys log2 q Er H2).
Qed.

Lemma program_stats_new clk shuffle f xs0 log0 p pl t l c xs log q : let s := p_nsolvers p in
  run clk shuffle f init_prog xs0 = Some (log0, p) -> run clk shuffle f p (NewSolver pl t l c :: xs) = Some (log, q) ->
  (forall k ev, In (Next k, OEvent ev) log -> go_solver (p_gens q k) <> s) ->
  get_stats (env_of q s 0) = (0, 0, None).
Proof.
  intros s H0 H Hl. cbn [run] in H. destruct (step clk shuffle f p (NewSolver pl t l c)) as [[p1 o]|] eqn:E; [|discriminate].
  destruct (run clk shuffle f p1 xs) as [[log' q']|] eqn:Er; [|discriminate]. injection H as <- <-.
  assert (H1 : run clk shuffle f init_prog (xs0 ++ [NewSolver pl t l c]) = Some (log0 ++ [(NewSolver pl t l c, o)], p1)).
  { apply (run_join clk shuffle f xs0 init_prog log0 p); [exact H0|]. cbn [run]. now rewrite E. }
  cbn [step] in E. injection E as Ep1 Eo.
  rewrite (program_stats_frame clk shuffle f _ _ p1 xs log' q' s H1 Er).
  - rewrite <- Ep1. unfold get_stats, s, upd. cbn. rewrite !Nat.eqb_refl. cbn. rewrite ?Nat.eqb_refl. reflexivity.
  - rewrite <- Ep1. cbn. unfold s. lia.
  - intros k ev Hi. apply (Hl k ev). now right.
Qed.

(** ** What [get_stats()] returns *)

Lemma run_length clk shuffle f xs : forall p log q, run clk shuffle f p xs = Some (log, q) -> List.length log = List.length xs.
Proof.
  induction xs as [|x xs IH]; intros p log q H; cbn [run] in H; [injection H as <- <-; reflexivity|].
  destruct (step clk shuffle f p x) as [[p1 o]|]; [|discriminate]. destruct (run clk shuffle f p1 xs) as [[log' q']|] eqn:E; [|discriminate].
  injection H as <- <-. cbn. f_equal. eapply IH; eauto.
Qed.

Lemma reads_stats clk shuffle f p s log q st : run clk shuffle f p [GetStats s] = Some (log, q) -> log = [(GetStats s, OStats st)] ->
  q = p /\ st = get_stats (env_of p s 0) /\ (s < p_nsolvers p)%nat.
Proof.
  intros H ->. cbn [run step] in H. destruct (Nat.ltb_spec s (p_nsolvers p)); [|discriminate]. injection H as <- <-. auto.
Qed.

Lemma last_stats clk shuffle f xs p s log st q : run clk shuffle f p (xs ++ [GetStats s]) = Some (log ++ [(GetStats s, OStats st)], q) ->
  run clk shuffle f p xs = Some (log, q) /\ st = get_stats (env_of q s 0) /\ (s < p_nsolvers q)%nat.
Proof.
  intros H. destruct (run_app clk shuffle f xs p _ _ _ H) as (log1 & m & log2 & H1 & H2 & E).
  pose proof (run_length clk shuffle f _ _ _ _ H2) as L. destruct log2 as [|a [|b log2]]; try discriminate L.
  apply app_inj_tail in E. destruct E as [-> <-]. destruct (reads_stats _ _ _ _ _ _ _ st H2 eq_refl) as (-> & -> & Hs). auto.
Qed.

Lemma program_read clk shuffle f xs pre g ev suf q s st :
  run clk shuffle f init_prog (xs ++ [GetStats s]) = Some ((pre ++ (Next g, OEvent ev) :: suf) ++ [(GetStats s, OStats st)], q) ->
  latest_start (fun k => go_solver (p_gens q k)) s pre g suf ->
  fst (fst st) = solutions_in (results_of g (pre ++ (Next g, OEvent ev) :: suf)).
Proof. intros H Hl. destruct (last_stats _ _ _ _ _ _ _ _ _ H) as (H1 & -> & _). eapply program_stats; eauto. Qed.

Lemma program_read_frame clk shuffle f xs0 log0 xs log q s st st' :
  run clk shuffle f init_prog ((xs0 ++ [GetStats s]) ++ xs ++ [GetStats s]) = Some ((log0 ++ [(GetStats s, OStats st)]) ++ log ++ [(GetStats s, OStats st')], q) ->
  List.length log0 = List.length xs0 -> (forall k ev, In (Next k, OEvent ev) log -> go_solver (p_gens q k) <> s) -> st' = st.
Proof.
  intros H Hlen Hl. destruct (run_app clk shuffle f _ _ _ _ _ H) as (log1 & m & log2 & H1 & H2 & E).
  pose proof (run_length clk shuffle f _ _ _ _ H1) as L. rewrite app_length in L.
  assert (E1 : log1 = log0 ++ [(GetStats s, OStats st)] /\ log2 = log ++ [(GetStats s, OStats st')]).
  { assert (Hd : forall A (a b c d : list A), a ++ b = c ++ d -> List.length a = List.length c -> a = c /\ b = d).
    { intros A a. induction a as [|x a IH]; intros b [|y c] d He Hn; try discriminate Hn; [auto|]. injection He as -> He. injection Hn as Hn.
      destruct (IH _ _ _ He Hn) as [-> ->]. auto. }
    destruct (Hd _ _ _ _ _ (eq_sym E)) as [-> ->]; [rewrite L, app_length, Hlen; reflexivity|auto]. }
  destruct E1 as [-> ->]. pose proof (last_stats _ _ _ _ _ _ _ _ _ H1) as (_ & -> & Hs).
  destruct (last_stats _ _ _ _ _ _ _ _ _ H2) as (H3 & -> & _). exact (program_stats_frame clk shuffle f _ _ _ _ _ _ s H1 H3 Hs Hl).
Qed.

Lemma program_read_new clk shuffle f xs0 log0 p pl t l c xs log q st : let s := p_nsolvers p in
  run clk shuffle f init_prog xs0 = Some (log0, p) -> run clk shuffle f p (NewSolver pl t l c :: xs ++ [GetStats s]) = Some (log ++ [(GetStats s, OStats st)], q) ->
  (forall k ev, In (Next k, OEvent ev) log -> go_solver (p_gens q k) <> s) -> st = (0, 0, None).
Proof.
  intros s H0 H Hl. rewrite app_comm_cons in H. destruct (last_stats _ _ _ _ _ _ _ _ _ H) as (H1 & -> & _).
  exact (program_stats_new clk shuffle f xs0 log0 p pl t l c xs log q H0 H1 Hl).
Qed.
