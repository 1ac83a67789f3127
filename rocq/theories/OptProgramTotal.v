(** Proofs for Properties_OptProgram.v: every program ends; closed generators. *)
From Verif Require Import Solver Optimize Program OptProgram SpecSolve SpecIsolation SpecInterleave SpecOptimize SpecProgram SpecOptProgram
  ExprFacts DictFacts ModelFacts CompileFacts CodeFacts SearchFacts LoopFacts SetupFacts MasterFacts HistoryFacts SolverProps SolverMore SolverExtra InterleaveFacts IsolationFacts InterleaveStats OptimizeFacts ProgramFacts ProgramRun ProgramInv ProgramProps ProgramStats ProgramTotal ProgramMore
  OptProgramFacts OptProgramInv OptProgramSim OptProgramProps.
Open Scope list_scope.
Open Scope Z_scope.

Section Total.
Variable clk : nat -> Z.
Variable shuffle : nat -> list name -> list name.
Variable B : nat -> cbody.

Lemma round_mono f n q p h s i g oms r : round clk shuffle f q p h s i g oms = Some r -> round clk shuffle (f + n) q p h s i g oms = Some r.
Proof.
  unfold round. intros H. destruct (step clk shuffle f p (Next g)) as [[p' o]|] eqn:E; [|discriminate]. now rewrite (step_mono _ _ _ n _ _ _ E).
Qed.

Lemma ostep_mono f n q x r : ostep clk shuffle f q x = Some r -> ostep clk shuffle (f + n) q x = Some r.
Proof.
  destruct x as [x|s i os a]; [|exact (fun H => H)]. intros H. assert (Hd : inert x \/ ~ inert x) by (destruct x; cbn; auto). destruct Hd as [Hx|Hx].
  - rewrite (ostep_inert clk shuffle f q x Hx) in H. rewrite (ostep_inert clk shuffle _ q x Hx).
    destruct (step clk shuffle f (q_base q) x) as [[p' o']|] eqn:Es; [|discriminate]. now rewrite (step_mono _ _ _ n _ _ _ Es).
  - destruct x as [|k c| | | | | |s i a|k|k|]; try (elim Hx; exact Logic.I); cbn [ostep] in *; cbv zeta in *.
    + destruct (_ && _); [|exact H]. destruct (step clk shuffle f (q_base q) (Solve s i a)) as [[p' o']|] eqn:Es; [|discriminate]. now rewrite (step_mono _ _ _ n _ _ _ Es).
    + destruct (Nat.ltb k (q_nhandles q)); [|exact H]. destruct (q_handles q k) as [g|s i [os a|g oms|]].
      * destruct (step clk shuffle f (q_base q) (Next g)) as [[p' o']|] eqn:Es; [|discriminate]. now rewrite (step_mono _ _ _ n _ _ _ Es).
      * cbn [onext] in *. cbv zeta in *. destruct (make_constraints os (world_of (q_base q) i)) as [w [oms|ex]]; [|exact H].
        match goal with H : match step _ _ f ?p1 ?y with _ => _ end = _ |- _ => destruct (step clk shuffle f p1 y) as [[p' o']|] eqn:Es; [|discriminate] end.
        rewrite (step_mono _ _ _ n _ _ _ Es). now apply round_mono.
      * now apply round_mono.
      * exact H.
    + destruct (Nat.ltb k (q_nhandles q)); [|exact H]. destruct (q_handles q k) as [g|s i st]; [|exact H].
      destruct (step clk shuffle f (q_base q) (Close g)) as [[p' o']|] eqn:Es; [|discriminate]. now rewrite (step_mono _ _ _ n _ _ _ Es).
Qed.

Lemma orun_mono f n xs : forall q r, orun clk shuffle f q xs = Some r -> orun clk shuffle (f + n) q xs = Some r.
Proof.
  induction xs as [|x xs IH]; intros q r H; [exact H|]. cbn [orun] in *.
  destruct (ostep clk shuffle f q x) as [[q1 o]|] eqn:E; [|discriminate]. rewrite (ostep_mono _ n _ _ _ E).
  destruct (orun clk shuffle f q1 xs) as [[log q2]|] eqn:Er; [|discriminate]. now rewrite (IH q1 _ Er).
Qed.

Hypothesis Hs : forall g, shuffles (shuffle g).

Lemma round_returns q p h s i g oms : tinv p -> pinv B p -> ready p -> exists f q' o, round clk shuffle f q p h s i g oms = Some (q', o) /\ ready (q_base q').
Proof.
  intros Ht Hi Hr. destruct (step_returns clk shuffle B p (Next g) Ht Hi Hr Hs) as (f & p' & o & E & Hr'). exists f. unfold round. rewrite E.
  destruct o as [r|ev|st]; try (eexists _, _; split; [reflexivity|exact Hr']). destruct ev as [|sol| |ex]; try (eexists _, _; split; [reflexivity|exact Hr']).
  destruct (add_each p' i oms sol) as [p2 r] eqn:Ea. destruct (add_each_keeps i sol oms p' p2 r Ea) as (_ & _ & _ & _ & _ & _ & _ & G & _).
  assert (Hr2 : ready p2) by (intros k; rewrite G; apply Hr'). destruct r; (eexists _, _; split; [reflexivity|exact Hr2]).
Qed.

Lemma ostep_returns q x : oinv B q -> oproper B q x -> ready (q_base q) -> exists f q' o, ostep clk shuffle f q x = Some (q', o) /\ ready (q_base q').
Proof.
  intros Hi Hpr Hr. pose proof (oi_t _ _ Hi) as Ht. pose proof (oi_p _ _ Hi) as Hp.
  destruct x as [x|s i os a].
  2:{ exists 0%nat. cbn [ostep]. cbv zeta. destruct (_ && _); eexists _, _; (split; [reflexivity|exact Hr]). }
  assert (Hd : inert x \/ ~ inert x) by (destruct x; cbn; auto). destruct Hd as [Hx|Hx].
  - destruct (step_returns clk shuffle B _ x Ht Hp Hr Hs) as (f & p' & o & E & Hr'). exists f. rewrite (ostep_inert clk shuffle f q x Hx), E.
    eexists _, _. split; [reflexivity|exact Hr'].
  - destruct x as [|k c| | | | | |s i a|k|k|]; try (elim Hx; exact Logic.I); cbn [ostep]; cbv zeta.
    + destruct (step_returns clk shuffle B _ (Solve s i a) Ht Hp Hr Hs) as (f & p' & o & E & Hr'). exists f.
      destruct (_ && _); [rewrite E|]; eexists _, _; (split; [reflexivity|assumption]).
    + destruct (Nat.ltb k (q_nhandles q)); [|exists 0%nat; eexists _, _; split; [reflexivity|exact Hr]]. destruct (q_handles q k) as [g|s i st] eqn:Eh.
      * destruct (step_returns clk shuffle B _ (Next g) Ht Hp Hr Hs) as (f & p' & o & E & Hr'). exists f. rewrite E. eexists _, _. split; [reflexivity|exact Hr'].
      * destruct st as [os a|g oms|]; cbn [onext]; cbv zeta.
        -- destruct (make_constraints os (world_of (q_base q) i)) as [w [oms|ex]] eqn:Em; [|exists 0%nat; eexists _, _; split; [reflexivity|exact Hr]].
           destruct (start_parts clk shuffle 0 B q k s i os a w oms Hi Eh Hpr Em) as (_ & _ & _ & Hsm & _).
           destruct (small_inv _ _ _ _ _ _ _ (Hsm (fun _ => False)) Ht Hp) as [Ht2 Hp2].
           match type of Ht2 with tinv ?pp => destruct (round_returns q pp k s i (p_ngens (q_base q)) oms Ht2 Hp2) as (f & q' & o & E & Hr') end.
           { intros g. cbn. unfold upd. destruct (Nat.eqb_spec g (p_ngens (q_base q))); [exact Logic.I|apply Hr]. }
           exists f, q', o. destruct (start_parts clk shuffle f B q k s i os a w oms Hi Eh Hpr Em) as (Hst & _). rewrite Hst. split; [exact E|exact Hr'].
        -- destruct (round_returns q (q_base q) k s i g oms Ht Hp Hr) as (f & q' & o & E & Hr'). exists f, q', o. auto.
        -- exists 0%nat. eexists _, _. split; [reflexivity|exact Hr].
    + destruct (Nat.ltb k (q_nhandles q)); [|exists 0%nat; eexists _, _; split; [reflexivity|exact Hr]]. destruct (q_handles q k) as [g|s i st] eqn:Eh.
      * destruct (step_returns clk shuffle B _ (Close g) Ht Hp Hr Hs) as (f & p' & o & E & Hr'). exists f. rewrite E. eexists _, _. split; [reflexivity|exact Hr'].
      * exists 0%nat. eexists _, _. split; [reflexivity|exact Hr].
Qed.

Lemma orun_returns xs : forall q, oinv B q -> ready (q_base q) -> (forall f, oproper_run clk shuffle f B q xs) ->
  exists f log q', orun clk shuffle f q xs = Some (log, q').
Proof.
  induction xs as [|x xs IH]; intros q Hi Hr Hp; [exists 0%nat, [], q; reflexivity|].
  assert (Hx : oproper B q x) by (specialize (Hp 0%nat); apply Hp).
  destruct (ostep_returns q x Hi Hx Hr) as (f & q1 & o & E & Hr1).
  destruct (IH q1) as (f' & log & q' & Er).
  - exact (go_inv _ _ _ _ _ _ _ (ostep_goes clk shuffle f B _ _ _ _ Hi Hx E)).
  - exact Hr1.
  - intros f'. specialize (Hp (f + f')%nat). cbn [oproper_run] in Hp. rewrite (ostep_mono _ f' _ _ _ E) in Hp.
    destruct Hp as [_ Hp]. clear - Hp.
    revert q1 Hp. induction xs as [|x xs IH]; intros q Hp; [exact Hp|]. cbn [oproper_run] in *. destruct Hp as [Hx Hp]. split; [exact Hx|].
    destruct (ostep clk shuffle f' q x) as [[q' o]|] eqn:E; [|exact Logic.I].
    apply (ostep_mono _ f) in E. rewrite Nat.add_comm in E. rewrite E in Hp. now apply IH.
  - exists (f + f')%nat, ((x, o) :: log), q'. cbn [orun]. rewrite (ostep_mono _ f' _ _ _ E).
    apply (orun_mono _ f) in Er. rewrite Nat.add_comm in Er. now rewrite Er.
Qed.
End Total.

Lemma oprogram_runs clk shuffle B xs : (forall g, shuffles (shuffle g)) -> (forall f, oproper_run clk shuffle f B init_oprog xs) ->
  exists f log q, orun clk shuffle f init_oprog xs = Some (log, q).
Proof. intros Hs Hp. apply (orun_returns clk shuffle B Hs); auto; [apply oinv_init|]. intros g. exact Logic.I. Qed.

(** ** Generators not yet started, and closed ones *)

Lemma handle_cases x h : x = Plain (Next h) \/ x = Plain (Close h) \/ (x <> Plain (Next h) /\ x <> Plain (Close h)).
Proof.
  destruct x as [x|]; [|right; right; split; discriminate]. destruct x; try (right; right; split; discriminate).
  - destruct (Nat.eq_dec g h) as [->|]; [auto|]. right. right. split; congruence.
  - destruct (Nat.eq_dec g h) as [->|]; [auto|]. right. right. split; congruence.
Qed.

Lemma oresults_app h l l' : oresults_of h (l ++ l') = oresults_of h l ++ oresults_of h l'.
Proof. apply flat_map_app. Qed.

Lemma untouched clk shuffle f B h xs : forall q log q', oinv B q -> oproper_run clk shuffle f B q xs -> orun clk shuffle f q xs = Some (log, q') ->
  (h < q_nhandles q)%nat -> ~ In (Plain (Next h)) xs -> ~ In (Plain (Close h)) xs ->
  q_handles q' h = q_handles q h /\ forall g, inner q h g -> p_gens (q_base q') g = p_gens (q_base q) g.
Proof.
  induction xs as [|x xs IH]; intros q log q' Hi Hp H Hh Hn Hc; cbn in H, Hp; [injection H as <- <-; auto|].
  destruct Hp as [P1 P2]. destruct (ostep clk shuffle f q x) as [[q1 o]|] eqn:Es; [|discriminate].
  destruct (orun clk shuffle f q1 xs) as [[log1 q2]|] eqn:Er; [|discriminate]. injection H as <- <-.
  pose proof (ostep_goes clk shuffle f B _ _ _ _ Hi P1 Es) as G.
  assert (N1 : x <> Plain (Next h)) by (intros ->; apply Hn; now left). assert (N2 : x <> Plain (Close h)) by (intros ->; apply Hc; now left).
  destruct (IH q1 log1 q2) as [E1 E2]; [exact (go_inv _ _ _ _ _ _ _ G)|exact P2|exact Er|pose proof (go_count _ _ _ _ _ _ _ G); lia|intros Hx; apply Hn; now right|intros Hx; apply Hc; now right|].
  pose proof (go_handles _ _ _ _ _ _ _ G h Hh N1 N2) as Eh. split; [congruence|].
  intros g Hg. rewrite E2; [exact (go_gens _ _ _ _ _ _ _ G h g Hg N1 N2)|]. unfold inner in *. rewrite Eh. exact Hg.
Qed.

(** A call of [solve] or of [optimize] only makes a generator, which stays as it is until it is
    used. *)
Lemma oprogram_generator clk shuffle f B xs0 log0 q s i os a x xs log q' :
  orun clk shuffle f init_oprog xs0 = Some (log0, q) -> (x = Plain (Solve s i a) /\ os = [] \/ x = Optimize s i os a) ->
  oproper_run clk shuffle f B init_oprog (xs0 ++ x :: xs) -> (s < p_nsolvers (q_base q))%nat -> (i < p_nmodels (q_base q))%nat ->
  orun clk shuffle f q (x :: xs) = Some (log, q') -> ~ In (Plain (Next (q_nhandles q))) xs -> ~ In (Plain (Close (q_nhandles q))) xs ->
  fresh q' (q_nhandles q) s a /\ objectives_of q' (q_nhandles q) = os.
Proof.
  intros H0 Hx Hp Hs Hi H Hn Hc. destruct (oproper_app clk shuffle f B xs0 _ _ _ _ Hp H0) as [Hp0 Hp1].
  pose proof (orun_inv clk shuffle f B xs0 _ _ _ (oinv_init B) Hp0 H0) as Hv. cbn in Hp1, H. destruct Hp1 as [P1 P2].
  destruct (ostep clk shuffle f q x) as [[q1 o]|] eqn:Es; [|discriminate].
  destruct (orun clk shuffle f q1 xs) as [[log1 q2]|] eqn:Er; [|discriminate]. injection H as <- <-.
  pose proof (ostep_goes clk shuffle f B _ _ _ _ Hv P1 Es) as G.
  assert (Ht : (q_nhandles q < q_nhandles q1)%nat /\
    (x = Plain (Solve s i a) /\ os = [] /\ q_handles q1 (q_nhandles q) = HSolve (p_ngens (q_base q)) /\ p_gens (q_base q1) (p_ngens (q_base q)) = GenObj s i (PNew a) \/
     q_handles q1 (q_nhandles q) = HOptimize s i (ONew os a))).
  { destruct Hx as [[-> ->]| ->]; cbn [ostep] in Es; cbv zeta in Es; rewrite (proj2 (Nat.ltb_lt s _) Hs), (proj2 (Nat.ltb_lt i _) Hi) in Es; cbn [andb] in Es.
    - cbn [step] in Es. cbv zeta in Es. rewrite (proj2 (Nat.ltb_lt s _) Hs), (proj2 (Nat.ltb_lt i _) Hi) in Es. cbn [andb] in Es.
      injection Es as <- <-. cbn. rewrite !upd_same. split; [lia|]. left. repeat split.
    - injection Es as <- <-. cbn. rewrite upd_same. split; [lia|]. now right. }
  destruct Ht as [Ht Hk]. destruct (untouched clk shuffle f B _ xs _ _ _ (go_inv _ _ _ _ _ _ _ G) P2 Er Ht Hn Hc) as [E1 E2].
  unfold fresh, objectives_of. destruct Hk as [(_ & -> & K1 & K2)|K].
  - rewrite E1, K1. split; [|reflexivity]. left. eexists _, _. split; [reflexivity|]. rewrite E2; [exact K2|now left].
  - rewrite E1, K. split; [|reflexivity]. right. eauto.
Qed.

Definition ended (q : oprog) (h : nat) : Prop :=
  (exists s i, q_handles q h = HOptimize s i OEnd) \/ exists g, q_handles q h = HSolve g /\ go_state (p_gens (q_base q) g) = PRun GDone.

Lemma ended_run clk shuffle f B h xs : forall q log q', oinv B q -> oproper_run clk shuffle f B q xs -> orun clk shuffle f q xs = Some (log, q') ->
  (h < q_nhandles q)%nat -> ended q h -> oresults_of h log = repeat EvStop (onext_calls h xs).
Proof.
  induction xs as [|x xs IH]; intros q log q' Hi Hp H Hh He; cbn in H, Hp; [injection H as <- <-; reflexivity|].
  destruct Hp as [P1 P2]. destruct (ostep clk shuffle f q x) as [[q1 o]|] eqn:Es; [|discriminate].
  destruct (orun clk shuffle f q1 xs) as [[log1 q2]|] eqn:Er; [|discriminate]. injection H as <- <-.
  pose proof (ostep_goes clk shuffle f B _ _ _ _ Hi P1 Es) as G. pose proof (go_count _ _ _ _ _ _ _ G) as Hk.
  change ((x, o) :: log1) with ([(x, o)] ++ log1). rewrite oresults_app.
  assert (Hrec : ended q1 h -> oresults_of h log1 = repeat EvStop (onext_calls h xs)).
  { intros He1. eapply IH; [exact (go_inv _ _ _ _ _ _ _ G)|exact P2|exact Er|lia|exact He1]. }
  destruct (handle_cases x h) as [->|[->|[N1 N2]]].
  - cbn [ostep] in Es. cbv zeta in Es. rewrite (proj2 (Nat.ltb_lt h _) Hh) in Es. destruct He as [(s & i & E)|(g & E & Ed)]; rewrite E in Es.
    + cbn [onext] in Es. injection Es as <- <-. cbn [oresults_of flat_map]. unfold onext_calls. cbn [filter]. rewrite Nat.eqb_refl. cbn [app List.length repeat]. f_equal.
      apply Hrec. left. eauto.
    + destruct (step clk shuffle f (q_base q) (Next g)) as [[p' o']|] eqn:En; [|discriminate]. injection Es as <- <-.
      assert (Hg : (g < p_ngens (q_base q))%nat) by (apply (oi_gen _ _ Hi h); now left).
      destruct (step_next clk shuffle f _ g p' o' En Hg) as (e & y & ev & E2 & -> & ->).
      unfold starting in E2. rewrite Ed in E2. apply next_done in E2. destruct E2 as (_ & -> & ->).
      cbn [oresults_of flat_map]. unfold onext_calls. cbn [filter]. rewrite Nat.eqb_refl. cbn [app List.length repeat]. f_equal.
      apply Hrec. right. exists g. split; [exact E|]. cbn. now rewrite upd_same.
  - assert (Eo : oresults_of h [(Plain (Close h), o)] = []) by (destruct o; reflexivity). rewrite Eo. cbn [app].
    change (onext_calls h (Plain (Close h) :: xs)) with (onext_calls h xs). apply Hrec.
    cbn [ostep] in Es. cbv zeta in Es. rewrite (proj2 (Nat.ltb_lt h _) Hh) in Es. destruct He as [(s & i & E)|(g & E & Ed)]; rewrite E in Es.
    + injection Es as <- <-. left. eexists _, _. cbn. apply upd_same.
    + cbn [step] in Es. cbv zeta in Es. rewrite (proj2 (Nat.ltb_lt g _) (oi_gen _ _ Hi h g (or_introl E))) in Es. injection Es as <- <-.
      right. exists g. split; [exact E|]. cbn. now rewrite upd_same.
  - assert (Eo : oresults_of h [(x, o)] = []).
    { cbn. destruct x as [[| | | | | | | |k|k|]|]; try reflexivity. destruct o; try reflexivity. destruct (Nat.eqb_spec k h) as [->|]; [contradiction|reflexivity]. }
    rewrite Eo. cbn [app].
    assert (Ec : onext_calls h (x :: xs) = onext_calls h xs).
    { unfold onext_calls. cbn [filter]. destruct x as [[| | | | | | | |k|k|]|]; try reflexivity. destruct (Nat.eqb_spec k h) as [->|]; [contradiction|reflexivity]. }
    rewrite Ec. apply Hrec. pose proof (go_handles _ _ _ _ _ _ _ G h Hh N1 N2) as Eh.
    destruct He as [(s & i & E)|(g & E & Ed)]; [left; exists s, i; congruence|]. right. exists g. split; [congruence|].
    rewrite (go_gens _ _ _ _ _ _ _ G h g (or_introl E) N1 N2). exact Ed.
Qed.

Lemma oprogram_close clk shuffle f B xs0 log0 q h xs log q' :
  orun clk shuffle f init_oprog xs0 = Some (log0, q) -> oproper_run clk shuffle f B init_oprog (xs0 ++ Plain (Close h) :: xs) -> (h < q_nhandles q)%nat ->
  orun clk shuffle f q (Plain (Close h) :: xs) = Some (log, q') -> oresults_of h log = repeat EvStop (onext_calls h xs).
Proof.
  intros H0 Hp Hh H. destruct (oproper_app clk shuffle f B xs0 _ _ _ _ Hp H0) as [Hp0 Hp1].
  pose proof (orun_inv clk shuffle f B xs0 _ _ _ (oinv_init B) Hp0 H0) as Hv. cbn [oproper_run orun] in Hp1, H. destruct Hp1 as [P1 P2].
  destruct (ostep clk shuffle f q (Plain (Close h))) as [[q1 o]|] eqn:Es; [|discriminate].
  destruct (orun clk shuffle f q1 xs) as [[log1 q2]|] eqn:Er; [|discriminate]. injection H as <- <-.
  pose proof (ostep_goes clk shuffle f B _ _ _ _ Hv P1 Es) as G. pose proof (go_count _ _ _ _ _ _ _ G) as Hk.
  change ((Plain (Close h), o) :: log1) with ([(Plain (Close h), o)] ++ log1). rewrite oresults_app.
  assert (Eo : oresults_of h [(Plain (Close h), o)] = []) by (destruct o; reflexivity). rewrite Eo. cbn [app].
  eapply ended_run; [exact (go_inv _ _ _ _ _ _ _ G)|exact P2|exact Er|lia|].
  cbn [ostep] in Es. cbv zeta in Es. rewrite (proj2 (Nat.ltb_lt h _) Hh) in Es. destruct (q_handles q h) as [g|s i st] eqn:E.
  - cbn [step] in Es. cbv zeta in Es. rewrite (proj2 (Nat.ltb_lt g _) (oi_gen _ _ Hv h g (or_introl E))) in Es. injection Es as <- <-.
    right. exists g. split; [exact E|]. cbn. now rewrite upd_same.
  - injection Es as <- <-. left. eexists _, _. cbn. apply upd_same.
Qed.
