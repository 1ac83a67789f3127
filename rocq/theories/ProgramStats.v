(** Models of a program that are left alone, and the statistics of its solvers. *)
From Verif Require SolverAgain.
From Verif Require Import Solver Program SpecFormula SpecSafe SpecSolve SpecIsolation SpecInterleave SpecProgram ExprFacts DictFacts ModelFacts CompileFacts CodeFacts
  SearchFacts LoopFacts SetupFacts MasterFacts HistoryFacts SolverProps SolverMore SolverExtra InterleaveFacts IsolationFacts InterleaveStats ProgramFacts ProgramRun ProgramInv ProgramProps.
Open Scope list_scope.
Open Scope Z_scope.

(** ** A model that is left alone *)

Lemma step_model clk shuffle f p x p' o i : tinv p -> step clk shuffle f p x = Some (p', o) -> leaves_model i x -> (i < p_nmodels p)%nat ->
  p_models p' i = p_models p i /\ (i < p_nmodels p')%nat.
Proof.
  intros Ht H Hl Hi. destruct x as [|j a|pl t lm c|s v|s v|s v|s v|s j a|g|g|s]; cbn [step] in H; cbv zeta in H.
  - injection H as <- <-. cbn. unfold upd. destruct (Nat.eqb_spec i (p_nmodels p)); [lia|]. split; [reflexivity|lia].
  - destruct (Nat.ltb j (p_nmodels p)); [destruct (run_api a (world_of p j)) as [w r]|]; injection H as <- <-; auto.
    cbn. unfold upd. destruct (Nat.eqb_spec i j) as [->|]; [now elim Hl|]. auto.
  - injection H as <- <-. auto.
  - destruct (Nat.ltb s (p_nsolvers p)); injection H as <- <-; auto.
  - destruct (Nat.ltb s (p_nsolvers p)); injection H as <- <-; auto.
  - destruct (Nat.ltb s (p_nsolvers p)); injection H as <- <-; auto.
  - destruct (Nat.ltb s (p_nsolvers p)); injection H as <- <-; auto.
  - destruct (_ && _); injection H as <- <-; auto.
  - destruct (Nat.ltb g (p_ngens p)) eqn:Eg; [|injection H as <- <-; auto].
    assert (H' : step clk shuffle f p (Next g) = Some (p', o)) by (cbn [step]; cbv zeta; rewrite Eg; exact H).
    apply Nat.ltb_lt in Eg. destruct (step_next clk shuffle f p g p' o H' Eg) as (e & y & ev & En & -> & ->). clear H H'.
    destruct (p_gens p g) as [s j st] eqn:Egen.
    assert (Ew : w_model (e_world e) = p_models p j).
    { unfold own_env, starting in En. rewrite Egen in En. cbn [go_solver go_model go_state] in En. destruct st as [a|x].
      - destruct (next_world_init _ _ _ _ _ _ _ _ _ En) as (pre & post & E & Ew). rewrite Ew. apply compile_all_model.
      - destruct Ht as (T1 & _). specialize (T1 g). rewrite Egen in T1. cbn in T1.
        assert (Ew : e_world e = e_world (env_of p s j)).
        { eapply next_world; [| |exact En]; [|apply T1]. destruct x; apply T1. }
        rewrite Ew. reflexivity. }
    cbn [go_solver go_model] in *. cbn. rewrite Ew. unfold upd. destruct (Nat.eqb_spec i j) as [->|]; auto.
  - destruct (Nat.ltb g (p_ngens p)); injection H as <- <-; auto.
  - destruct (Nat.ltb s (p_nsolvers p)); injection H as <- <-; auto.
Qed.

Lemma run_model clk shuffle f xs i : forall p log q, tinv p -> run clk shuffle f p xs = Some (log, q) -> Forall (leaves_model i) xs -> (i < p_nmodels p)%nat ->
  p_models q i = p_models p i.
Proof.
  induction xs as [|x xs IH]; intros p log q Ht H Hl Hi; [injection H as <- <-; reflexivity|]. cbn [run] in H.
  apply Forall_cons_iff in Hl. destruct Hl as [Hx Hl]. destruct (step clk shuffle f p x) as [[p1 o]|] eqn:E; [|discriminate].
  destruct (run clk shuffle f p1 xs) as [[log' q']|] eqn:Er; [|discriminate]. injection H as <- <-.
  destruct (step_model clk shuffle f p x p1 o i Ht E Hx Hi) as [<- Hi']. eapply IH; eauto. eapply tinv_step; eauto.
Qed.

Lemma program_frame clk shuffle f xs0 log0 p xs log q i : run clk shuffle f init_prog xs0 = Some (log0, p) ->
  run clk shuffle f p xs = Some (log, q) -> Forall (leaves_model i) xs -> (i < p_nmodels p)%nat -> p_models q i = p_models p i.
Proof. intros H0 H Hl Hi. eapply run_model; eauto. exact (tinv_run clk shuffle f xs0 _ _ _ tinv_init H0). Qed.

Lemma program_valid clk shuffle f B xs log p s i a sh : run clk shuffle f init_prog xs = Some (log, p) -> proper_run clk shuffle f B init_prog xs ->
  (forall c, In c (x_additional a) -> known B p c) -> shuffles sh -> valid sh (env_of p s i) a.
Proof.
  intros H Hp Ha Hs. apply (pinv_valid B); auto. exact (pinv_run clk shuffle f B xs _ _ _ tinv_init (pinv_init B) Hp H).
Qed.

Lemma program_independent clk clk' clk2 shuffle sh1 sh2 f F F' B xs0 log0 p xs log q i s s' sv a ys e r ys' e' r' :
  run clk shuffle f init_prog xs0 = Some (log0, p) -> proper_run clk shuffle f B init_prog (xs0 ++ xs) ->
  run clk shuffle f p xs = Some (log, q) -> Forall (leaves_model i) xs -> Forall assigns_nothing xs -> (i < p_nmodels p)%nat ->
  (forall c, In c (x_additional a) -> known B p c) -> s_compile sv = true -> timeout_of sv a = LNone ->
  (arg_or (x_policy a) (s_policy sv) = RANDOM -> forall l, sh2 l = sh1 l) ->
  solve_all clk' sh1 F (env_of p s i) sv a = Some (ys, e, r) -> solve_all clk2 sh2 F' (env_of q s' i) sv a = Some (ys', e', r') ->
  ys' = ys /\ r' = r.
Proof.
  intros H0 Hpr Hr Hl Hn Hi Hadd Hcmp Hto Hsh Hs Hs'. rewrite (SolverAgain.solve_shuffle _ sh2 sh1) in Hs' by exact Hsh.
  pose proof (tinv_run clk shuffle f xs0 _ _ _ tinv_init H0) as Ht.
  destruct (proper_run_app clk shuffle f B xs0 _ _ _ _ Hpr H0) as [Hp0 Hp1].
  pose proof (pinv_run clk shuffle f B xs0 _ _ _ tinv_init (pinv_init B) Hp0 H0) as Hiv.
  pose proof (pinv_run clk shuffle f B xs _ _ _ Ht Hiv Hp1 Hr) as Hivq.
  pose proof (run_model clk shuffle f xs i p log q Ht Hr Hl Hi) as Em.
  pose proof (keeps_run clk shuffle f B xs p log q Ht Hiv Hp1 Hn Hr) as (K1 & K2 & K3).
  assert (Hk : forall c, In c (all_cons (p_models p i) a) -> known B p c).
  { intros c Hc. apply in_app_or in Hc. destruct Hc as [Hc|Hc]; [|auto]. destruct Hiv as (T & _ & _ & A & _). split; [eapply A; eauto|]. apply (T i). exact Hc. }
  assert (Ho : objects (world_of p i) (all_cons (p_models p i) a)).
  { apply (pinv_valid B p (fun l => l) s i a Hiv); [auto|intros l; apply Permutation.Permutation_refl]. }
  assert (Ho' : objects (world_of q i) (all_cons (p_models q i) a)).
  { apply (pinv_valid B q (fun l => l) s i a Hivq); [|intros l; apply Permutation.Permutation_refl].
    intros c Hc. destruct (Hadd c Hc) as [A E]. split; [lia|exact E]. }
  rewrite Em in Ho'.
  destruct (solve_agree clk' clk2 sh1 F F' (env_of p s i) (env_of q s' i) sv a ys e r ys' e' r') as [-> ->]; auto.
  cbn [env_of e_world world_of w_model]. fold (world_of p i) (world_of q i). intros c s0 Hc. rewrite Hcmp. cbn [compile1].
  unfold ceval, ccompile. destruct (c_body c) as [b|e0|xs1] eqn:Eb; try reflexivity. cbn. rewrite !upd_same.
  rewrite (as_function_uses (p_par p) (p_par q)); [reflexivity|]. intros r0 Hu. symmetry. apply K3.
  destruct (Hk c Hc) as [Hid Hb]. destruct Hiv as (_ & _ & _ & _ & H5 & _). apply (H5 (c_id c) Hid e0 r0); [congruence|exact Hu].
Qed.

(** ** Statistics *)

(** What the log says about the generators. *)
Definition tracked (log : list (action * Program.outcome)) (p : prog) : Prop :=
  forall g, (g < p_ngens p)%nat -> (started_before g log <-> forall a, go_state (p_gens p g) <> PNew a).

Lemma started_app g l x o : started_before g (l ++ [(x, o)]) <->
  started_before g l \/ (exists ev, (x, o) = (Next g, OEvent ev)) \/ (x, o) = (Close g, ODone (Ok tt)).
Proof.
  unfold started_before. split.
  - intros [(ev & H)|H]; apply in_app_or in H; destruct H as [H|[H|[]]]; eauto.
  - intros [[(ev & H)|H]|[(ev & H)|H]].
    + left. exists ev. apply in_or_app. now left.
    + right. apply in_or_app. now left.
    + left. exists ev. apply in_or_app. right. now left.
    + right. apply in_or_app. right. now left.
Qed.

Lemma step_gens clk shuffle f p x p' o : step clk shuffle f p x = Some (p', o) ->
  (p_ngens p <= p_ngens p')%nat /\ forall g, (g < p_ngens p)%nat -> go_solver (p_gens p' g) = go_solver (p_gens p g).
Proof.
  intros H. destruct x as [|j a|pl t lm c|s v|s v|s v|s v|s j a|g|g|s]; cbn [step] in H; cbv zeta in H.
  - injection H as <- <-. auto.
  - destruct (Nat.ltb j (p_nmodels p)); [destruct (run_api a (world_of p j)) as [w r]|]; injection H as <- <-; auto.
  - injection H as <- <-. auto.
  - destruct (Nat.ltb s (p_nsolvers p)); injection H as <- <-; auto.
  - destruct (Nat.ltb s (p_nsolvers p)); injection H as <- <-; auto.
  - destruct (Nat.ltb s (p_nsolvers p)); injection H as <- <-; auto.
  - destruct (Nat.ltb s (p_nsolvers p)); injection H as <- <-; auto.
  - destruct (_ && _); injection H as <- <-; auto. cbn. split; [lia|]. intros g Hg. unfold upd. destruct (Nat.eqb_spec g (p_ngens p)); [lia|reflexivity].
  - destruct (Nat.ltb g (p_ngens p)); [|injection H as <- <-; auto].
    destruct (next _ _ _ _ _) as [[[e y] ev]|]; [|discriminate]. injection H as <- <-. cbn. split; [lia|].
    intros k Hk. unfold upd. destruct (Nat.eqb_spec k g) as [->|]; reflexivity.
  - destruct (Nat.ltb g (p_ngens p)); injection H as <- <-; auto. cbn. split; [lia|].
    intros k Hk. unfold upd. destruct (Nat.eqb_spec k g) as [->|]; reflexivity.
  - destruct (Nat.ltb s (p_nsolvers p)); injection H as <- <-; auto.
Qed.

Lemma run_gens clk shuffle f xs : forall p log q, run clk shuffle f p xs = Some (log, q) ->
  (p_ngens p <= p_ngens q)%nat /\ forall g, (g < p_ngens p)%nat -> go_solver (p_gens q g) = go_solver (p_gens p g).
Proof.
  induction xs as [|x xs IH]; intros p log q H; [injection H as <- <-; auto|]. cbn [run] in H.
  destruct (step clk shuffle f p x) as [[p1 o]|] eqn:E; [|discriminate].
  destruct (run clk shuffle f p1 xs) as [[log' q']|] eqn:Er; [|discriminate]. injection H as <- <-.
  destruct (step_gens clk shuffle f p x p1 o E) as [A B]. destruct (IH p1 log' q' Er) as [A' B']. split; [lia|].
  intros g Hg. rewrite B' by lia. now apply B.
Qed.

(** Statements on objects that do not exist yet leave no trace in the log. *)
Definition bounded (log : list (action * Program.outcome)) (p : prog) : Prop :=
  forall g, started_before g log -> (g < p_ngens p)%nat.

Lemma tracked_step clk shuffle f log p x p' o : tracked log p -> bounded log p -> step clk shuffle f p x = Some (p', o) ->
  tracked (log ++ [(x, o)]) p' /\ bounded (log ++ [(x, o)]) p'.
Proof.
  intros Ht Hb H. destruct (step_gens clk shuffle f p x p' o H) as [Hle _].
  assert (Hq : forall g, (exists ev, (x, o) = (Next g, OEvent ev)) \/ (x, o) = (Close g, ODone (Ok tt)) ->
    (g < p_ngens p)%nat /\ forall a, go_state (p_gens p' g) <> PNew a).
  { intros g [(ev & E)|E]; injection E as -> ->; cbn [step] in H; cbv zeta in H;
      destruct (Nat.ltb g (p_ngens p)) eqn:Eg; try discriminate; apply Nat.ltb_lt in Eg; (split; [exact Eg|]).
    - destruct (next _ _ _ _ _) as [[[e y] ev']|]; [|discriminate]. injection H as <- _. cbn. rewrite upd_same. discriminate.
    - injection H as <-. cbn. rewrite upd_same. discriminate. }
  split.
  - intros g Hg. rewrite started_app. destruct (Nat.lt_ge_cases g (p_ngens p)) as [Hlt|Hge].
    + assert (Hcase : (x = Next g \/ x = Close g) \/ (x <> Next g /\ x <> Close g)).
      { destruct x; try (right; split; discriminate).
        - destruct (Nat.eq_dec g0 g) as [->|]; [auto|]. right. split; congruence.
        - destruct (Nat.eq_dec g0 g) as [->|]; [auto|]. right. split; congruence. }
      destruct Hcase as [Hx|[Hx1 Hx2]].
      * assert (Hev : (exists ev, (x, o) = (Next g, OEvent ev)) \/ (x, o) = (Close g, ODone (Ok tt))).
        { apply Nat.ltb_lt in Hlt. destruct Hx as [->| ->]; cbn [step] in H; cbv zeta in H; rewrite Hlt in H.
          - destruct (next _ _ _ _ _) as [[[e y] ev']|]; [|discriminate]. injection H as _ <-. left. now exists ev'.
          - injection H as _ <-. now right. }
        split; [intros _; now apply Hq|auto].
      * destruct (step_other_gen clk shuffle f p x p' o g H Hlt Hx1 Hx2) as (E & _ & _). rewrite E, (Ht g Hlt).
        split; [intros [A|A]; [exact A|]|now left].
        destruct A as [(ev & A)|A]; injection A as -> ->; congruence.
    + split.
      * intros [A|A]; [specialize (Hb g A)|destruct (Hq g A)]; lia.
      * intros A. exfalso. destruct x as [|j b|pl t lm c|s v|s v|s v|s v|s j b|k|k|s]; cbn [step] in H; cbv zeta in H.
        -- injection H as <- <-. cbn in Hg. lia.
        -- destruct (Nat.ltb j (p_nmodels p)); [destruct (run_api b (world_of p j)) as [w r]|]; injection H as <- <-; cbn in Hg; lia.
        -- injection H as <- <-. cbn in Hg. lia.
        -- destruct (Nat.ltb s (p_nsolvers p)); injection H as <- <-; cbn in Hg; lia.
        -- destruct (Nat.ltb s (p_nsolvers p)); injection H as <- <-; cbn in Hg; lia.
        -- destruct (Nat.ltb s (p_nsolvers p)); injection H as <- <-; cbn in Hg; lia.
        -- destruct (Nat.ltb s (p_nsolvers p)); injection H as <- <-; cbn in Hg; lia.
        -- destruct (_ && _); injection H as <- <-; cbn in Hg; [|lia]. assert (g = p_ngens p) by lia. subst g.
           cbn in A. rewrite upd_same in A. now elim (A b).
        -- destruct (Nat.ltb k (p_ngens p)); [|injection H as <- <-; lia].
           destruct (next _ _ _ _ _) as [[[e y] ev']|]; [|discriminate]. injection H as <- _. cbn in Hg. lia.
        -- destruct (Nat.ltb k (p_ngens p)); injection H as <- <-; cbn in Hg; lia.
        -- destruct (Nat.ltb s (p_nsolvers p)); injection H as <- <-; cbn in Hg; lia.
  - intros g Hs. apply started_app in Hs. destruct Hs as [A|A]; [specialize (Hb g A)|destruct (Hq g A)]; lia.
Qed.

Lemma tracked_run clk shuffle f xs : forall l p log q, tracked l p -> bounded l p -> run clk shuffle f p xs = Some (log, q) -> tracked (l ++ log) q /\ bounded (l ++ log) q.
Proof.
  induction xs as [|x xs IH]; intros l p log q Ht Hb H; [injection H as <- <-; rewrite app_nil_r; auto|]. cbn [run] in H.
  destruct (step clk shuffle f p x) as [[p1 o]|] eqn:E; [|discriminate].
  destruct (run clk shuffle f p1 xs) as [[log' q']|] eqn:Er; [|discriminate]. injection H as <- <-.
  destruct (tracked_step clk shuffle f l p x p1 o Ht Hb E) as [A B].
  change ((x, o) :: log') with ([(x, o)] ++ log'). rewrite app_assoc. eapply IH; eauto.
Qed.

Lemma tracked_init : tracked [] init_prog /\ bounded [] init_prog.
Proof.
  split; [intros g Hg; cbn in Hg; lia|]. intros g [(ev & [])|[]].
Qed.

(** The log of a program splits where the program does. *)
Lemma run_split clk shuffle f xs : forall p pre suf q, run clk shuffle f p xs = Some (pre ++ suf, q) ->
  exists xs1 xs2 m, xs = xs1 ++ xs2 /\ run clk shuffle f p xs1 = Some (pre, m) /\ run clk shuffle f m xs2 = Some (suf, q).
Proof.
  induction xs as [|x xs IH]; intros p pre suf q H.
  - cbn in H. injection H as E <-. symmetry in E. apply app_eq_nil in E. destruct E as [-> ->]. exists [], [], p. auto.
  - destruct pre as [|l pre]; [exists [], (x :: xs), p; auto|]. cbn [run app] in H.
    destruct (step clk shuffle f p x) as [[p1 o]|] eqn:E; [|discriminate].
    destruct (run clk shuffle f p1 xs) as [[log' q']|] eqn:Er; [|discriminate]. injection H as <- -> <-.
    destruct (IH p1 pre suf q' Er) as (xs1 & xs2 & m & -> & A & B). exists (x :: xs1), xs2, m. split; [reflexivity|]. split; [|exact B].
    cbn [run]. now rewrite E, A.
Qed.

(** The timer [T] of solver [s] is the one of generator [g]. *)
Definition timer_of (p : prog) (s g T : nat) (n : Z) : Prop :=
  (s < p_nsolvers p)%nat /\ (g < p_ngens p)%nat /\ so_timer (p_solvers p s) = T /\ (T < p_ntimers p)%nat /\ t_count (p_timers p T) = n /\
  (forall k l, plocal p k = Some l -> (l_timer l = T <-> k = g)) /\ (forall a, go_state (p_gens p g) <> PNew a).

Lemma gain_solutions ev : gain ev = solutions_in [ev]. Proof. destruct ev; reflexivity. Qed.

Lemma solutions_app l l' : solutions_in (l ++ l') = solutions_in l + solutions_in l'.
Proof. unfold solutions_in, len. rewrite filter_app, app_length. lia. Qed.

Lemma results_app g l l' : results_of g (l ++ l') = results_of g l ++ results_of g l'.
Proof. unfold results_of. now rewrite flat_map_app. Qed.

Lemma timer_step clk shuffle f p x p' o s g T n : tinv p -> timer_of p s g T n -> step clk shuffle f p x = Some (p', o) ->
  (forall k, x = Next k -> (k < p_ngens p)%nat -> go_solver (p_gens p k) = s -> forall a, go_state (p_gens p k) <> PNew a) ->
  timer_of p' s g T (n + solutions_in (results_of g [(x, o)])).
Proof.
  intros Ht HT H Hst. destruct HT as (H1 & H2 & H3 & H4 & H5 & H6 & H7).
  assert (Hz : solutions_in (results_of g [(x, o)]) = 0 -> timer_of p' s g T n -> timer_of p' s g T (n + solutions_in (results_of g [(x, o)]))).
  { intros E A. rewrite E, Z.add_0_r. exact A. }
  assert (Hkeep : forall q, p_nsolvers q = p_nsolvers p -> p_ngens q = p_ngens p -> so_timer (p_solvers q s) = so_timer (p_solvers p s) -> p_ntimers q = p_ntimers p ->
    p_timers q = p_timers p -> p_gens q = p_gens p -> timer_of q s g T n).
  { intros q E1 E2 E3 E4 E5 E6. unfold timer_of, plocal. rewrite E1, E2, E3, E4, E5, E6. repeat (split; [assumption|]). exact H7. }
  destruct x as [|j a|pl t lm c|s0 v|s0 v|s0 v|s0 v|s0 j a|k|k|s0]; cbn [step] in H; cbv zeta in H.
  - apply Hz; [reflexivity|]. injection H as <- <-. now apply Hkeep.
  - apply Hz; [reflexivity|]. destruct (Nat.ltb j (p_nmodels p)); [destruct (run_api a (world_of p j)) as [w r]|]; injection H as <- <-; now apply Hkeep.
  - apply Hz; [reflexivity|]. injection H as <- <-. unfold timer_of, plocal. cbn. unfold upd.
    destruct (Nat.eqb_spec s (p_nsolvers p)); [lia|]. destruct (Nat.eqb_spec T (p_ntimers p)); [lia|].
    split; [lia|]. split; [exact H2|]. split; [exact H3|]. split; [lia|]. split; [exact H5|]. split; [exact H6|exact H7].
  - apply Hz; [reflexivity|]. destruct (Nat.ltb s0 (p_nsolvers p)); injection H as <- <-; apply Hkeep; try reflexivity.
    cbn. unfold upd. destruct (Nat.eqb_spec s s0) as [->|]; reflexivity.
  - apply Hz; [reflexivity|]. destruct (Nat.ltb s0 (p_nsolvers p)); injection H as <- <-; apply Hkeep; try reflexivity.
    cbn. unfold upd. destruct (Nat.eqb_spec s s0) as [->|]; reflexivity.
  - apply Hz; [reflexivity|]. destruct (Nat.ltb s0 (p_nsolvers p)); injection H as <- <-; apply Hkeep; try reflexivity.
    cbn. unfold upd. destruct (Nat.eqb_spec s s0) as [->|]; reflexivity.
  - apply Hz; [reflexivity|]. destruct (Nat.ltb s0 (p_nsolvers p)); injection H as <- <-; apply Hkeep; try reflexivity.
    cbn. unfold upd. destruct (Nat.eqb_spec s s0) as [->|]; reflexivity.
  - apply Hz; [reflexivity|]. destruct (_ && _); injection H as <- <-; [|now apply Hkeep].
    split; [exact H1|]. split; [cbn; lia|]. split; [exact H3|]. split; [exact H4|]. split; [exact H5|]. split.
    + intros k l E. unfold plocal in E. cbn in E. unfold upd in E. destruct (Nat.eqb_spec k (p_ngens p)); [discriminate|]. now apply H6.
    + cbn. unfold upd. destruct (Nat.eqb_spec g (p_ngens p)); [lia|exact H7].
  - destruct (Nat.ltb k (p_ngens p)) eqn:Ek; [|injection H as <- <-; apply Hz; [reflexivity|]; now apply Hkeep].
    assert (H' : step clk shuffle f p (Next k) = Some (p', o)) by (cbn [step]; cbv zeta; rewrite Ek; exact H).
    apply Nat.ltb_lt in Ek. destruct (step_next clk shuffle f p k p' o H' Ek) as (e & y & ev & En & -> & ->). clear H H'.
    specialize (Hst k eq_refl Ek). destruct (p_gens p k) as [s1 j st] eqn:Egen. cbn [go_solver go_model] in *.
    unfold own_env, starting in En. rewrite Egen in En. cbn [go_solver go_model go_state] in En.
    destruct st as [a|x].
    + (* a generator of another solver starts *)
      assert (Hs1 : s1 <> s) by (intros E; now apply (Hst E a)).
      assert (Hkg : k <> g) by (intros ->; rewrite Egen in H7; now apply (H7 a)).
      destruct (next_init clk _ f _ _ a e y ev En) as (E1 & E2 & E3 & _ & E5). cbn [env_of e_ntimers e_timers e_timer] in *.
      apply Hz; [cbn; destruct (Nat.eqb_spec k g); [contradiction|reflexivity]|].
      split; [exact H1|]. split; [exact H2|]. split; [cbn; unfold upd; destruct (Nat.eqb_spec s s1); [congruence|exact H3]|].
      split; [cbn; lia|]. split; [cbn; rewrite E3 by lia; exact H5|]. split.
      * intros k' l E. unfold plocal in E. cbn in E. unfold upd in E. destruct (Nat.eqb_spec k' k) as [->|]; [|now apply H6].
        cbn in E. rewrite (E5 l E). split; [lia|congruence].
      * cbn. unfold upd. destruct (Nat.eqb_spec g k); [congruence|exact H7].
    + destruct Ht as (T1 & _ & T3). specialize (T1 k). rewrite Egen in T1. cbn in T1. destruct T1 as [T1 T1'].
      pose proof (next_options clk _ f _ _ _ _ _ T1' En) as Eto. cbn [env_of e_timer] in Eto.
      pose proof (next_frame clk _ f _ _ _ _ _ En) as (F1 & F2 & F3). cbn [env_of e_ntimers e_timers] in *.
      assert (Hsv : so_timer (upd (p_solvers p) s1 (SolverObj (so_opts (p_solvers p s1)) (e_timer e) (e_interrupt e)) s) = T).
      { unfold upd. destruct (Nat.eqb_spec s s1) as [<-|]; [cbn; now rewrite Eto|exact H3]. }
      assert (Hpl : forall k' l, plocal (set_gen (put_env p s1 j e) k (PRun y)) k' = Some l -> l_timer l = T <-> k' = g).
      { intros k' l E. unfold plocal in E. cbn in E. unfold upd in E. destruct (Nat.eqb_spec k' k) as [->|]; [|now apply H6]. cbn in E.
        destruct (local_of x) as [lx|] eqn:Lx.
        - destruct (next_live clk _ f _ _ _ _ _ lx Lx En) as (_ & _ & Hl). rewrite (Hl l E). apply H6. unfold plocal. rewrite Egen. exact Lx.
        - exfalso. destruct x as [sv0 a0|l0 c0 n0|l0 c0 n0|]; try discriminate; [now apply (T1' sv0 a0)|].
          apply next_done in En. destruct En as (_ & -> & _). discriminate. }
      assert (Hg7 : forall a, go_state (p_gens (set_gen (put_env p s1 j e) k (PRun y)) g) <> PNew a).
      { cbn. unfold upd. destruct (Nat.eqb_spec g k); [discriminate|exact H7]. }
      split; [exact H1|]. split; [exact H2|]. split; [exact Hsv|]. split; [cbn; lia|]. split; [|split; [exact Hpl|exact Hg7]]. cbn [set_gen put_env p_timers].
      destruct (Nat.eq_dec k g) as [->|Hkg].
      * cbn [results_of flat_map]. rewrite Nat.eqb_refl. cbn [app]. rewrite <- gain_solutions.
        destruct (local_of x) as [lx|] eqn:Lx.
        -- destruct (next_live clk _ f _ _ _ _ _ lx Lx En) as (_ & K & _).
           assert (E : l_timer lx = T) by (apply (H6 g); [unfold plocal; rewrite Egen; exact Lx|reflexivity]).
           rewrite E in K. rewrite K. cbn. now rewrite H5.
        -- destruct x as [sv0 a0|l0 c0 n0|l0 c0 n0|]; try discriminate; [now elim (T1' sv0 a0)|].
           apply next_done in En. destruct En as (-> & _ & ->). cbn. lia.
      * replace (results_of g [(Next k, OEvent ev)]) with (@nil event) by (cbn; destruct (Nat.eqb_spec k g); [contradiction|reflexivity]).
        rewrite F2; [cbn; lia|exact H4|]. intros l E Eq. apply Hkg. apply (H6 k l); [|exact Eq]. unfold plocal. rewrite Egen. exact E.
  - apply Hz; [destruct o; reflexivity|]. destruct (Nat.ltb k (p_ngens p)); injection H as <- <-; [|now apply Hkeep].
    split; [exact H1|]. split; [exact H2|]. split; [exact H3|]. split; [exact H4|]. split; [exact H5|]. split.
    + intros k' l E. unfold plocal in E. cbn in E. unfold upd in E. destruct (Nat.eqb_spec k' k); [discriminate|]. now apply H6.
    + cbn. unfold upd. destruct (Nat.eqb_spec g k); [discriminate|exact H7].
  - apply Hz; [reflexivity|]. destruct (Nat.ltb s0 (p_nsolvers p)); injection H as <- <-; now apply Hkeep.
Qed.

Lemma timer_run clk shuffle f owner s g T xs : forall l p log q n, tinv p -> tracked l p -> bounded l p -> timer_of p s g T n -> run clk shuffle f p xs = Some (log, q) ->
  (forall k, owner k = go_solver (p_gens q k)) ->
  (forall l1 k ev l2, log = l1 ++ (Next k, OEvent ev) :: l2 -> owner k = s -> k = g \/ started_before k (l ++ l1)) ->
  timer_of q s g T (n + solutions_in (results_of g log)).
Proof.
  induction xs as [|x xs IH]; intros l p log q n Ht Htr Hb HT H Hown Hl; [injection H as <- <-; cbn; now rewrite Z.add_0_r|].
  cbn [run] in H. destruct (step clk shuffle f p x) as [[p1 o]|] eqn:E; [|discriminate].
  destruct (run clk shuffle f p1 xs) as [[log' q']|] eqn:Er; [|discriminate]. injection H as <- <-.
  destruct (run_gens clk shuffle f (x :: xs) p ((x, o) :: log') q') as [_ Hgs]; [cbn [run]; now rewrite E, Er|].
  destruct (tracked_step clk shuffle f l p x p1 o Htr Hb E) as [Htr1 Hb1].
  assert (HT1 : timer_of p1 s g T (n + solutions_in (results_of g [(x, o)]))).
  { apply (timer_step clk shuffle f p x p1 o s g T n Ht HT E). intros k -> Hk Hs a Hnew.
    assert (Ho : exists ev, o = OEvent ev).
    { destruct (step_next clk shuffle f p k p1 o E Hk) as (_ & _ & ev & _ & -> & _). eauto. }
    destruct Ho as [ev ->]. destruct (Hl [] k ev log' eq_refl) as [->|A].
    - now rewrite Hown, Hgs.
    - destruct HT as (_ & _ & _ & _ & _ & _ & A). now apply (A a).
    - rewrite app_nil_r in A. apply (Htr k Hk) in Hnew; [exact Hnew|exact A]. }
  change ((x, o) :: log') with ([(x, o)] ++ log'). rewrite results_app, solutions_app, Z.add_assoc.
  apply (IH (l ++ [(x, o)]) p1 log' q'); auto; [eapply tinv_step; eauto|].
  intros l1 k ev l2 -> Hk. rewrite <- app_assoc. apply (Hl ((x, o) :: l1) k ev l2); auto.
Qed.

Lemma not_started_results g log : ~ started_before g log -> results_of g log = [].
Proof.
  induction log as [|[x o] log IH]; intros H; [reflexivity|]. cbn [results_of flat_map]. fold (results_of g log). rewrite IH.
  - destruct x; try reflexivity. destruct o as [| |]; try reflexivity. destruct (Nat.eqb_spec g0 g) as [->|]; [|reflexivity].
    elim H. left. exists ev. now left.
  - intros [(ev & A)|A]; apply H; [left; exists ev|right]; now right.
Qed.

Lemma program_stats clk shuffle f xs pre g ev suf q s :
  run clk shuffle f init_prog xs = Some (pre ++ (Next g, OEvent ev) :: suf, q) ->
  latest_start (fun k => go_solver (p_gens q k)) s pre g suf ->
  fst (fst (get_stats (env_of q s 0))) = solutions_in (results_of g (pre ++ (Next g, OEvent ev) :: suf)).
Proof.
  intros H (Hown & Hns & Hlast). destruct (run_split clk shuffle f xs _ _ _ _ H) as (xs1 & xs2 & p & -> & Hr1 & Hr2).
  pose proof (tinv_run clk shuffle f xs1 _ _ _ tinv_init Hr1) as Ht.
  destruct tracked_init as [Hti Hbi]. destruct (tracked_run clk shuffle f xs1 [] _ _ _ Hti Hbi Hr1) as [Htr Hb]. cbn [app] in Htr, Hb.
  destruct xs2 as [|x xs2]; [discriminate|]. pose proof Hr2 as Hr2'. cbn [run] in Hr2.
  destruct (step clk shuffle f p x) as [[p1 o]|] eqn:E; [|discriminate].
  destruct (run clk shuffle f p1 xs2) as [[log' q']|] eqn:Er; [|discriminate]. injection Hr2 as -> -> -> ->.
  destruct (Nat.lt_ge_cases g (p_ngens p)) as [Hg|Hg].
  2:{ exfalso. apply Nat.ltb_ge in Hg. cbn [step] in E. cbv zeta in E. rewrite Hg in E. discriminate. }
  destruct (run_gens clk shuffle f _ _ _ _ Hr2') as [_ Hgs]. rewrite (Hgs g Hg) in Hown.
  destruct (tracked_step clk shuffle f pre p _ p1 _ Htr Hb E) as [Htr1 Hb1].
  pose proof (tinv_step clk shuffle f p _ p1 _ Ht E) as Ht1.
  destruct (step_next clk shuffle f p g p1 _ E Hg) as (e & y & ev' & En & Eev & Ep1). injection Eev as <-.
  assert (Hnew : exists a, go_state (p_gens p g) = PNew a).
  { destruct (go_state (p_gens p g)) as [a|x] eqn:Es; [eauto|]. elim Hns. apply (Htr g Hg). rewrite Es. discriminate. }
  destruct Hnew as [a Hnew]. unfold own_env, starting in En. rewrite Hnew in En.
  destruct (next_init clk _ f _ _ a e y ev En) as (E1 & E2 & E3 & E4 & E5). cbn [env_of e_ntimers e_timers e_timer] in *.
  assert (HT : timer_of p1 s g (p_ntimers p) (solutions_in [ev])).
  { rewrite Ep1. rewrite <- Hown. split; [|split; [exact Hg|split; [|split; [cbn; lia|split; [cbn; rewrite E4; apply gain_solutions|split]]]]].
    - cbn. assert (Ho : forall xs p l q, owned p -> run clk shuffle f p xs = Some (l, q) -> owned q).
      { clear. induction xs as [|x xs IH]; intros p l q Ho H; [injection H as <- <-; exact Ho|]. cbn [run] in H.
        destruct (step clk shuffle f p x) as [[p1 o]|] eqn:E; [|discriminate].
        destruct (run clk shuffle f p1 xs) as [[log' q']|] eqn:Er; [|discriminate]. injection H as <- <-.
        eapply IH; [|eauto]. eapply owned_step; eauto. }
      exact (Ho xs1 _ _ _ owned_init Hr1 g Hg).
    - cbn. rewrite upd_same. cbn. exact E1.
    - intros k l El. unfold plocal in El. cbn in El. unfold upd in El. destruct (Nat.eqb_spec k g) as [->|Hk].
      + cbn in El. rewrite (E5 l El). tauto.
      + split; [|congruence]. intros El'. destruct Ht as (T1 & _). specialize (T1 k). destruct (go_state (p_gens p k)) as [b|z]; [discriminate|].
        destruct T1 as [T1 _]. destruct z as [sv0 a0|l0 c0 n0|l0 c0 n0|]; try discriminate; cbn in El, T1; injection El as ->; lia.
    - cbn. rewrite upd_same. discriminate. }
  destruct (timer_run clk shuffle f (fun k => go_solver (p_gens q k)) s g (p_ntimers p) xs2 (pre ++ [(Next g, OEvent ev)]) p1 suf q (solutions_in [ev]))
    as (_ & _ & R3 & _ & R5 & _); auto.
  { intros l1 k ev1 l2 -> Hk. destruct (Hlast l1 k ev1 l2 eq_refl Hk) as [->|A]; [now left|]. right.
    rewrite <- app_assoc. destruct A as [(ev2 & A)|A]; [left; exists ev2|right]; apply in_app_or in A; apply in_or_app;
      (destruct A as [A|A]; [now left|right; now right]). }
  cbn [get_stats fst env_of e_timers e_timer]. rewrite R3, R5.
  rewrite results_app, (not_started_results g pre) by exact Hns. cbn [app results_of flat_map]. rewrite Nat.eqb_refl.
  change ([ev] ++ flat_map _ suf) with ([ev] ++ results_of g suf). rewrite solutions_app. reflexivity.
Qed.
