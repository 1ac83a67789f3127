(** Invariants of programs, and what the enumerations of a program give. *)
From Verif Require Import Solver Program SpecFormula SpecSafe SpecSolve SpecIsolation SpecInterleave SpecProgram ExprFacts DictFacts ModelFacts CompileFacts CodeFacts
  SearchFacts LoopFacts SetupFacts MasterFacts HistoryFacts SolverProps SolverMore SolverExtra InterleaveFacts IsolationFacts InterleaveStats ProgramFacts.
Open Scope list_scope.
Open Scope Z_scope.

Section Run.
Variables (clk : nat -> Z) (shuffle : nat -> list name -> list name).

(** ** Timers *)

Definition plocal (p : prog) (g : nat) : option local :=
  match go_state (p_gens p g) with PRun x => local_of x | PNew _ => None end.

Definition tinv (p : prog) : Prop :=
  (forall g, match go_state (p_gens p g) with PRun x => timed (env_of p 0 0) x /\ started x | PNew _ => True end) /\
  (forall g, (p_ngens p <= g)%nat -> go_state (p_gens p g) = PRun GDone) /\
  (forall g k l l', g <> k -> plocal p g = Some l -> plocal p k = Some l' -> l_timer l <> l_timer l').

Lemma tinv_init : tinv init_prog.
Proof.
  split; [|split].
  - intros g. cbn. split; [exact Logic.I|discriminate].
  - reflexivity.
  - intros g k l l' _ E. discriminate.
Qed.

(** A change that keeps the generators and the timers in use. *)
Lemma tinv_keep p p' : tinv p -> p_gens p' = p_gens p -> p_ngens p' = p_ngens p -> (p_ntimers p <= p_ntimers p')%nat ->
  (forall r, (r < p_ntimers p)%nat -> p_timers p' r = p_timers p r) -> tinv p'.
Proof.
  intros (H1 & H2 & H3) Eg En Hn Ht. unfold tinv, plocal. rewrite Eg, En. split; [|split; [exact H2|exact H3]].
  intros g. specialize (H1 g). destruct (go_state (p_gens p g)) as [a|x]; [exact Logic.I|]. destruct H1 as [H1 Hs]. split; [|exact Hs].
  destruct x as [sv a|l c n|l c n|]; cbn in *; auto; (destruct H1 as [H1 H1']; rewrite Ht by assumption; split; [lia|assumption]).
Qed.

(** What the statement [next(generator)] runs. *)
Definition starting (p : prog) (g : nat) : gen :=
  match go_state (p_gens p g) with
  | PNew a => GInit (so_opts (p_solvers p (go_solver (p_gens p g)))) a
  | PRun x => x
  end.
Definition own_env (p : prog) (g : nat) : env := env_of p (go_solver (p_gens p g)) (go_model (p_gens p g)).

Lemma step_next f p g p' o : step clk shuffle f p (Next g) = Some (p', o) -> (g < p_ngens p)%nat ->
  exists e x ev, next clk (shuffle g) f (own_env p g) (starting p g) = Some (e, x, ev) /\ o = OEvent ev /\
    p' = set_gen (put_env p (go_solver (p_gens p g)) (go_model (p_gens p g)) e) g (PRun x).
Proof.
  intros H Hg. cbn [step] in H. rewrite (proj2 (Nat.ltb_lt _ _) Hg) in H. cbv zeta in H. unfold own_env, starting.
  destruct (next clk (shuffle g) f _ _) as [[[e x] ev]|]; [|discriminate]. injection H as <- <-. eauto 6.
Qed.

Lemma starting_timed p g : tinv p -> timed (own_env p g) (starting p g).
Proof.
  intros (H1 & _). specialize (H1 g). unfold starting. destruct (go_state (p_gens p g)) as [a|x]; [exact Logic.I|exact (proj1 H1)].
Qed.

Lemma starting_local p g : local_of (starting p g) = plocal p g.
Proof. unfold starting, plocal. destruct (go_state (p_gens p g)); reflexivity. Qed.

Lemma tinv_step f p x p' o : tinv p -> step clk shuffle f p x = Some (p', o) -> tinv p'.
Proof.
  intros Hi H. destruct x as [|i a|pl t lm c|s v|s v|s v|s v|s i a|g|g|s].
  - injection H as <- <-. apply (tinv_keep p); auto; try reflexivity. 
  - cbn [step] in H; cbv zeta in H. destruct (Nat.ltb i (p_nmodels p)); [|injection H as <- <-; exact Hi].
    destruct (run_api a (world_of p i)) as [w r]. injection H as <- <-. apply (tinv_keep p); auto; reflexivity.
  - injection H as <- <-. apply (tinv_keep p); auto; try reflexivity; cbn; [lia|]. intros r Hr. apply upd_other. lia.
  - cbn [step] in H; cbv zeta in H. destruct (Nat.ltb s (p_nsolvers p)); injection H as <- <-; [|exact Hi]. apply (tinv_keep p); auto; reflexivity.
  - cbn [step] in H; cbv zeta in H. destruct (Nat.ltb s (p_nsolvers p)); injection H as <- <-; [|exact Hi]. apply (tinv_keep p); auto; reflexivity.
  - cbn [step] in H; cbv zeta in H. destruct (Nat.ltb s (p_nsolvers p)); injection H as <- <-; [|exact Hi]. apply (tinv_keep p); auto; reflexivity.
  - cbn [step] in H; cbv zeta in H. destruct (Nat.ltb s (p_nsolvers p)); injection H as <- <-; [|exact Hi]. apply (tinv_keep p); auto; reflexivity.
  - cbn [step] in H; cbv zeta in H. destruct (_ && _); injection H as <- <-; [|exact Hi]. destruct Hi as (H1 & H2 & H3). split; [|split].
    + intros g. cbn. unfold upd. destruct (Nat.eqb g (p_ngens p)); [exact Logic.I|exact (H1 g)].
    + intros g Hg. cbn in *. rewrite upd_other by lia. apply H2. lia.
    + intros g k l l' Hgk. unfold plocal. cbn. unfold upd.
      destruct (Nat.eqb g (p_ngens p)); [discriminate|]. destruct (Nat.eqb k (p_ngens p)); [discriminate|]. now apply H3.
  - destruct (Nat.ltb g (p_ngens p)) eqn:Eg.
    2:{ cbn [step] in H; cbv zeta in H. rewrite Eg in H. injection H as <- <-. exact Hi. }
    apply Nat.ltb_lt in Eg. destruct (step_next f p g p' o H Eg) as (e & y & ev & En & -> & ->).
    pose proof (starting_timed p g Hi) as Ht0. pose proof (next_timed _ _ _ _ _ _ _ _ Ht0 En) as [Ht1 Hs1].
    pose proof (next_frame _ _ _ _ _ _ _ _ En) as Hf. destruct Hi as (H1 & H2 & H3). split; [|split].
    + intros k. cbn. unfold upd. destruct (Nat.eqb_spec k g) as [->|Hk]; cbn.
      { split; [|exact Hs1]. destruct y as [sv a|l c n|l c n|]; cbn in *; auto. }
      specialize (H1 k). destruct (go_state (p_gens p k)) as [a|x] eqn:Ek; [exact Logic.I|]. destruct H1 as [H1 Hs]. split; [|exact Hs].
      assert (Hx : timed e x).
      { apply (timed_frame (own_env p g) (starting p g) e y); [|exact Hf|].
        - destruct x; exact H1.
        - intros l l' El El'. apply (H3 g k); auto; [now rewrite <- starting_local|]. unfold plocal. now rewrite Ek. }
      destruct x; exact Hx.
    + intros k Hk. cbn in *. rewrite upd_other by lia. now apply H2.
    + assert (Hnew : forall m l l', m <> g -> local_of y = Some l -> plocal p m = Some l' -> l_timer l <> l_timer l').
      { intros m l l' Hm El El'. destruct Hf as (_ & _ & Cf). destruct (Cf l El) as [H'|(l1 & E1 & H')].
        - specialize (H1 m). unfold plocal in El'. destruct (go_state (p_gens p m)) as [a|x]; [discriminate|].
          pose proof (timed_lt _ _ _ (proj1 H1) El') as Hlt. cbn in Hlt, H'. lia.
        - rewrite <- H'. rewrite starting_local in E1. apply (H3 g m); auto. }
      intros i k l l' Hik. unfold plocal. cbn. unfold upd.
      destruct (Nat.eqb_spec i g) as [->|Hi']; destruct (Nat.eqb_spec k g) as [->|Hk]; cbn; intros El El'.
      * congruence.
      * apply (Hnew k); auto.
      * intros E. symmetry in E. revert E. apply (Hnew i); auto.
      * apply (H3 i k); auto.
  - cbn [step] in H; cbv zeta in H. destruct (Nat.ltb g (p_ngens p)); injection H as <- <-; [|exact Hi]. destruct Hi as (H1 & H2 & H3). split; [|split].
    + intros k. cbn. unfold upd. destruct (Nat.eqb k g); [cbn; split; [exact Logic.I|discriminate]|exact (H1 k)].
    + intros k Hk. cbn in *. unfold upd. destruct (Nat.eqb k g); [reflexivity|now apply H2].
    + intros i k l l' Hik. unfold plocal. cbn. unfold upd.
      destruct (Nat.eqb i g); [discriminate|]. destruct (Nat.eqb k g); [discriminate|]. now apply H3.
  - cbn [step] in H; cbv zeta in H. destruct (Nat.ltb s (p_nsolvers p)); injection H as <- <-; exact Hi.
Qed.

Lemma run_app f xs : forall p ys log q, run clk shuffle f p (xs ++ ys) = Some (log, q) ->
  exists log1 m log2, run clk shuffle f p xs = Some (log1, m) /\ run clk shuffle f m ys = Some (log2, q) /\ log = log1 ++ log2.
Proof.
  induction xs as [|x xs IH]; intros p ys log q H; [exists [], p, log; auto|]. cbn [app run] in *.
  destruct (step clk shuffle f p x) as [[p1 o]|]; [|discriminate].
  destruct (run clk shuffle f p1 (xs ++ ys)) as [[log' q']|] eqn:E; [|discriminate]. injection H as <- <-.
  destruct (IH _ _ _ _ E) as (log1 & m & log2 & -> & E2 & ->). exists ((x, o) :: log1), m, log2. auto.
Qed.

Lemma tinv_run f xs : forall p log q, tinv p -> run clk shuffle f p xs = Some (log, q) -> tinv q.
Proof.
  induction xs as [|x xs IH]; intros p log q Hi H; [injection H as <- <-; exact Hi|]. cbn [run] in H.
  destruct (step clk shuffle f p x) as [[p1 o]|] eqn:E; [|discriminate].
  destruct (run clk shuffle f p1 xs) as [[log' q']|] eqn:Er; [|discriminate]. injection H as <- <-.
  eapply IH; [|exact Er]. eapply tinv_step; eauto.
Qed.

(** Statements that are not about generator [g] leave it. *)
Lemma step_other_gen f p x p' o g : step clk shuffle f p x = Some (p', o) -> (g < p_ngens p)%nat -> x <> Next g -> x <> Close g ->
  p_gens p' g = p_gens p g /\ (g < p_ngens p')%nat /\ results_of g [(x, o)] = [].
Proof.
  intros H Hg H1 H2. destruct x as [|i a|pl t lm c|s v|s v|s v|s v|s i a|k|k|s]; cbn [step] in H; cbv zeta in H.
  - injection H as <- <-. auto.
  - destruct (Nat.ltb i (p_nmodels p)); [destruct (run_api a (world_of p i))|]; injection H as <- <-; auto.
  - injection H as <- <-. auto.
  - destruct (Nat.ltb s (p_nsolvers p)); injection H as <- <-; auto.
  - destruct (Nat.ltb s (p_nsolvers p)); injection H as <- <-; auto.
  - destruct (Nat.ltb s (p_nsolvers p)); injection H as <- <-; auto.
  - destruct (Nat.ltb s (p_nsolvers p)); injection H as <- <-; auto.
  - destruct (_ && _); injection H as <- <-; auto. cbn. rewrite upd_other by lia. auto with arith.
  - assert (k <> g) by congruence. cbn [results_of flat_map]. 
    destruct (Nat.ltb k (p_ngens p)); [|injection H as <- <-; auto].
    destruct (next _ _ _ _ _) as [[[e y] ev]|]; [|discriminate]. injection H as <- <-. cbn. rewrite upd_other by auto.
    rewrite (proj2 (Nat.eqb_neq k g)) by assumption. auto.
  - assert (k <> g) by congruence. destruct (Nat.ltb k (p_ngens p)); injection H as <- <-; auto. cbn. rewrite upd_other by auto. auto.
  - destruct (Nat.ltb s (p_nsolvers p)); injection H as <- <-; auto.
Qed.

(** ** A started enumeration, followed through the rest of the program *)

Section Follow.
Variables (clk' : nat -> Z) (cs : list constraint) (wf : world) (g : nat).

(** The enumeration will still give [ys] and end with [r]. *)
Definition tracks (q : prog) (ys : list subst) (r : option exn) : Prop :=
  (g < p_ngens q)%nat /\
  exists x F k e' x' ex, go_state (p_gens q g) = PRun x /\ within cs x /\ twin x x' /\ timed e' x' /\ e_world e' = wf /\
    drain clk' (shuffle g) F passive k e' x' = Some (ys, ex, r).

Lemma follow f xs : forall q ys r log q', tinv q -> tracks q ys r -> run clk shuffle f q xs = Some (log, q') -> ~ In (Close g) xs ->
  (forall pre post log1 m, xs = pre ++ post -> run clk shuffle f q pre = Some (log1, m) -> same_eval (world_of m 0) wf cs) ->
  results_of g log = answers (next_calls g xs) ys r.
Proof.
  induction xs as [|x xs IH]; intros q ys r log q' Hi Htr Hr Hcl Hev; cbn [run] in Hr.
  { injection Hr as <- <-. reflexivity. }
  destruct (step clk shuffle f q x) as [[q1 o]|] eqn:Es; [|discriminate].
  destruct (run clk shuffle f q1 xs) as [[log' q2]|] eqn:Er; [|discriminate]. injection Hr as <- <-.
  pose proof (tinv_step f q x q1 o Hi Es) as Hi1.
  assert (Hev0 : same_eval (world_of q 0) wf cs) by (apply (Hev [] (x :: xs) []); reflexivity).
  assert (Hev1 : forall pre post log1 m, xs = pre ++ post -> run clk shuffle f q1 pre = Some (log1, m) -> same_eval (world_of m 0) wf cs).
  { intros pre post log1 m -> Hm. apply (Hev (x :: pre) post ((x, o) :: log1)); [reflexivity|]. cbn [run]. now rewrite Es, Hm. }
  assert (Hcl1 : ~ In (Close g) xs) by (intros H; apply Hcl; now right).
  destruct Htr as (Hg & y & F & k & e' & y' & ex & Ey & Hw & Htw & Ht' & Ew & Hd).
  assert (Hx : x <> Close g) by (intros ->; apply Hcl; now left).
  assert (Hcase : {x = Next g} + {x <> Next g}).
  { destruct x; try (right; discriminate). destruct (Nat.eq_dec g0 g) as [->|Hn]; [now left|right; congruence]. }
  destruct Hcase as [->|Hn].
  2:{ destruct (step_other_gen f q x q1 o g Es Hg Hn Hx) as (Eg & Hg1 & Hres).
      change ((x, o) :: log') with ([(x, o)] ++ log'). unfold results_of in *. rewrite flat_map_app, Hres. cbn [app].
      replace (next_calls g (x :: xs)) with (next_calls g xs).
      2:{ unfold next_calls. cbn [filter]. destruct x; try reflexivity. destruct (Nat.eqb_spec g0 g); [congruence|reflexivity]. }
      eapply (IH q1); eauto. split; [exact Hg1|]. exists y, F, k, e', y', ex. rewrite Eg. repeat (split; [assumption|]). assumption. }
  destruct (step_next f q g q1 o Es Hg) as (e1 & z & ev & En & -> & ->).
  assert (Est : starting q g = y) by (unfold starting; now rewrite Ey).
  assert (Hst : started y) by (destruct Hi as (H1 & _); specialize (H1 g); rewrite Ey in H1; apply H1).
  pose proof (starting_timed q g Hi) as Ht. rewrite Est in En, Ht.
  assert (Hsame : same_eval (e_world (own_env q g)) (e_world e') cs).
  { rewrite Ew. intros c s Hc. rewrite <- (Hev0 c s Hc). reflexivity. }
  destruct (next_agree clk clk' (shuffle g) cs f (own_env q g) e' y y' Hst Hsame Hw Htw Ht Ht')
    as [[H _]|(e2 & g2 & e1' & g1' & ev' & E & E' & Htw1 & Ht1 & Ht1' & Hst1 & Hw1 & Ew1 & Ew1')]; [congruence|].
  rewrite En in E. injection E as <- <- <-.
  destruct (drain_next clk' (shuffle g) F k e' y' ys ex r Hd) as (e3 & g3 & ev3 & E3 & Hevs).
  pose proof (next_det _ _ _ _ _ _ _ _ E' E3) as Eq. injection Eq as <- <- <-.
  pose proof (drain_pos _ _ _ _ _ _ _ _ Hd) as HF.
  change (results_of g ((Next g, OEvent ev) :: log')) with ((if Nat.eqb g g then [ev] else []) ++ results_of g log').
  rewrite Nat.eqb_refl. cbn [app].
  replace (next_calls g (Next g :: xs)) with (S (next_calls g xs)) by (unfold next_calls; cbn [filter]; now rewrite Nat.eqb_refl).
  assert (Hto : exists ys' r' ex', drain clk' (shuffle g) F passive 0 e1' g1' = Some (ys', ex', r') /\
     forall n, answers (S n) ys r = ev :: answers n ys' r').
  { destruct ev as [|s| |y0]; [contradiction| | |].
    - destruct Hevs as (ys' & k' & -> & Hd'). exists ys', r, ex. split; [|reflexivity]. rewrite <- Hd'. clear.
      generalize O. intros m. revert m k' e1' g1'. induction F as [|F IH]; intros m k' e h; [reflexivity|]. rewrite !drain_S.
      destruct (micro clk' (shuffle g) e h) as [[e1 g1] [|s| |y0]]; auto. cbn [passive]. now rewrite (IH (S m) (S k')).
    - destruct Hevs as (-> & -> & ->). exists [], None, e1'. split; [now apply drain_done|]. intros n. cbn. now rewrite answers_nil.
    - destruct Hevs as (-> & -> & ->). exists [], None, e1'. split; [now apply drain_done|]. intros n. cbn. now rewrite answers_nil. }
  destruct Hto as (ys' & r' & ex' & Hd' & Ha). rewrite Ha. f_equal. eapply IH; eauto.
  split; [exact Hg|]. exists z, F, O, e1', g1', ex'. cbn. rewrite upd_same. cbn.
  repeat (split; [first [reflexivity|assumption]|]). split; [congruence|]. assumption.
Qed.

End Follow.

(** The first call, and the rest. *)
Lemma snapshot_core clk' f F p g s i a xs log q ys e r cs :
  tinv p -> p_gens p g = GenObj s i (PNew a) ->
  objects (world_of p i) (all_cons (p_models p i) a) ->
  timeout_of (so_opts (p_solvers p s)) a = LNone ->
  solve_all clk' (shuffle g) F (env_of p s i) (so_opts (p_solvers p s)) a = Some (ys, e, r) ->
  run clk shuffle f p (Next g :: xs) = Some (log, q) -> ~ In (Close g) xs ->
  (forall pre post log1 m, xs = pre ++ post -> run clk shuffle f p (Next g :: pre) = Some (log1, m) -> 
     same_eval (world_of m 0) (e_world e) cs) ->
  (forall p1 o x, step clk shuffle f p (Next g) = Some (p1, o) -> go_state (p_gens p1 g) = PRun x -> local_of x <> None ->
     incl (all_cons (p_models p i) a) cs) ->
  results_of g log = answers (next_calls g (Next g :: xs)) ys r.
Proof.
  intros Hi Eg Ho Hto Hs Hr Hcl Hev Hcs. cbn [run] in Hr.
  destruct (step clk shuffle f p (Next g)) as [[p1 o]|] eqn:Es; [|discriminate].
  destruct (run clk shuffle f p1 xs) as [[log' q2]|] eqn:Er; [|discriminate]. injection Hr as <- <-.
  pose proof (tinv_step f p (Next g) p1 o Hi Es) as Hi1.
  assert (Hg : (g < p_ngens p)%nat).
  { destruct (Nat.lt_ge_cases g (p_ngens p)) as [H|H]; [exact H|]. destruct Hi as (_ & H2 & _). specialize (H2 g H).
    rewrite Eg in H2. discriminate. }
  destruct (step_next f p g p1 o Es Hg) as (e1 & z & ev & En & -> & ->).
  set (sv := so_opts (p_solvers p s)) in *.
  assert (Est : starting p g = GInit sv a) by (unfold starting; rewrite Eg; reflexivity).
  assert (Eenv : own_env p g = env_of p s i) by (unfold own_env; now rewrite Eg).
  rewrite Est, Eenv in En.
  destruct (next_agree_init clk clk' (shuffle g) f (env_of p s i) (env_of p s i) sv a eq_refl Ho Ho (fun c s0 H => eq_refl) Hto)
    as [[H _]|(e2 & g2 & e1' & g1' & ev' & E & E' & Htw1 & Ht1 & Ht1' & Hst1 & Hw1 & Hl)]; [congruence|].
  rewrite En in E. injection E as <- <- <-.
  unfold solve_all in Hs.
  destruct (drain_next clk' (shuffle g) F 0 _ _ ys e r Hs) as (e3 & g3 & ev3 & E3 & Hevs).
  pose proof (next_det _ _ _ _ _ _ _ _ E' E3) as Eq. injection Eq as <- <- <-.
  pose proof (drain_pos _ _ _ _ _ _ _ _ Hs) as HF.
  change (results_of g ((Next g, OEvent ev) :: log')) with ((if Nat.eqb g g then [ev] else []) ++ results_of g log').
  rewrite Nat.eqb_refl. cbn [app].
  replace (next_calls g (Next g :: xs)) with (S (next_calls g xs)) by (unfold next_calls; cbn [filter]; now rewrite Nat.eqb_refl).
  assert (Hst' : forall sv0 a0, g1' <> GInit sv0 a0).
  { intros sv0 a0 ->. destruct z; cbn in Htw1; try contradiction. now elim (Hst1 sv1 a1). }
  assert (Htn : exists ys' r' ex' k', drain clk' (shuffle g) F passive k' e1' g1' = Some (ys', ex', r') /\
     (g1' <> GDone -> e_world ex' = e_world e) /\ forall n, answers (S n) ys r = ev :: answers n ys' r').
  { destruct ev as [|s0| |y0]; [contradiction| | |].
    - destruct Hevs as (ys' & k' & -> & Hd'). exists ys', r, e, k'. auto.
    - destruct Hevs as (-> & -> & ->). exists [], None, e1', O. split; [now apply drain_done|]. split; [congruence|]. intros n. cbn. now rewrite answers_nil.
    - destruct Hevs as (-> & -> & ->). exists [], None, e1', O. split; [now apply drain_done|]. split; [congruence|]. intros n. cbn. now rewrite answers_nil. }
  destruct Htn as (ys' & r' & ex' & k' & Hd' & Hwx & Ha). rewrite Ha. f_equal.
  assert (Hev1 : forall pre post log1 m, xs = pre ++ post ->
     run clk shuffle f (set_gen (put_env p (go_solver (p_gens p g)) (go_model (p_gens p g)) e1) g (PRun z)) pre = Some (log1, m) ->
     same_eval (world_of m 0) (e_world e) cs).
  { intros pre post log1 m -> Hm. apply (Hev pre post ((Next g, OEvent ev) :: log1)); [reflexivity|]. cbn [run]. now rewrite Es, Hm. }
  destruct (local_of z) as [l|] eqn:El.
  - apply (follow clk' cs (e_world e) g f xs _ ys' r' log' q2 Hi1); auto.
    split; [exact Hg|]. exists z, F, k', e1', g1', ex'. cbn. rewrite upd_same. cbn.
    split; [reflexivity|]. split.
    { intros l0 x c E Hc. apply (Hcs _ _ z eq_refl); [cbn; rewrite upd_same; reflexivity|congruence|]. eapply Hw1; eauto. }
    split; [exact Htw1|]. split; [exact Ht1'|]. split; [|exact Hd'].
    rewrite <- (drain_world _ _ _ _ _ _ _ _ _ Hst' Hd'). apply Hwx. intros ->. destruct z; try contradiction. discriminate El.
  - apply (follow clk' [] (e_world e1') g f xs _ ys' r' log' q2 Hi1); auto.
    split; [exact Hg|]. exists z, F, k', e1', g1', ex'. cbn. rewrite upd_same. cbn.
    split; [reflexivity|]. split; [intros l0 x c E; congruence|]. auto. intros pre post log1 m _ _ c s0 [].
Qed.

End Run.
