(** What stays true while a program with optimizations runs. *)
From Verif Require Import Solver Program OptProgram SpecFormula SpecSafe SpecSolve SpecIsolation SpecInterleave SpecOptimize SpecProgram SpecOptProgram
  ExprFacts DictFacts Dec DecFacts ModelFacts CompileFacts CodeFacts SearchFacts LoopFacts SetupFacts MasterFacts HistoryFacts SolverProps SolverMore SolverExtra
  InterleaveFacts IsolationFacts InterleaveStats ProgramFacts ProgramRun ProgramInv ProgramProps OptimizeFacts OptProgramFacts.
Open Scope list_scope.
Open Scope Z_scope.

Lemma inv_numbered w : ModelFacts.inv w -> numbered (w_model w).
Proof.
  intros (_ & H & _) k x Hin Hx. specialize (H x Hin). destruct H as [H|(j & Hj & E)].
  - destruct Hx as [-> | ->]; cbn in H; discriminate.
  - assert (k = j); [|subst; exact Hj].
    destruct Hx as [-> | ->], E as [E|E]; cbn in E; try discriminate; inversion E as [E']; now apply str_nat_inj in E'.
Qed.

Section Inv.
Variables (clk : nat -> Z) (shuffle : nat -> list name -> list name) (f : nat) (B : nat -> cbody).

(** ** Statements of Program.v: constraint lists and unstarted generators *)

Lemma next_model p g e x ev : tinv p -> next clk (shuffle g) f (own_env p g) (starting p g) = Some (e, x, ev) ->
  w_model (e_world e) = p_models p (go_model (p_gens p g)).
Proof.
  intros Ht En. unfold starting in En. pose proof (starting_timed p g Ht) as Hs. unfold starting in Hs. destruct (go_state (p_gens p g)) as [a|y] eqn:Es.
  - destruct (next_world_init _ _ _ _ _ _ _ _ _ En) as (pre & post & _ & ->). apply compile_all_model.
  - destruct Ht as (T1 & _). specialize (T1 g). rewrite Es in T1. rewrite (next_world _ _ _ _ _ _ _ _ Hs (proj2 T1) En). reflexivity.
Qed.

Lemma step_models p x p' o i c : tinv p -> step clk shuffle f p x = Some (p', o) -> In c (m_cons (p_models p' i)) ->
  In c (m_cons (p_models p i)) \/ exists a, x = Call i a /\ (a = AddConstraint (ACons c) \/ (c_id c = p_ncon p /\ makes a <> None)).
Proof.
  intros Ht H Hc. destruct x as [|j a|pl t lm cm|s v|s v|s v|s v|s j a|g|g|s]; cbn [step] in H; cbv zeta in H.
  - injection H as <- <-. cbn in Hc. unfold upd in Hc. destruct (Nat.eqb i (p_nmodels p)); [destruct Hc|auto].
  - destruct (Nat.ltb j (p_nmodels p)); [|injection H as <- <-; auto].
    pose proof (api_heap a (world_of p j)) as Hh. cbv zeta in Hh. destruct (run_api a (world_of p j)) as [w r]. injection H as <- <-. cbn [fst world_of w_ncon w_model] in Hh.
    cbn in Hc. unfold upd in Hc. destruct (Nat.eqb_spec i j) as [<-|]; [|auto].
    destruct Hh as (_ & _ & _ & _ & _ & Hm). destruct (Hm c Hc) as [H|[->|[H1 H2]]]; [auto|right; eexists; split; [reflexivity|auto]|].
    right. exists a. auto.
  - injection H as <- <-. auto.
  - destruct (Nat.ltb s (p_nsolvers p)); injection H as <- <-; auto.
  - destruct (Nat.ltb s (p_nsolvers p)); injection H as <- <-; auto.
  - destruct (Nat.ltb s (p_nsolvers p)); injection H as <- <-; auto.
  - destruct (Nat.ltb s (p_nsolvers p)); injection H as <- <-; auto.
  - destruct (_ && _); injection H as <- <-; auto.
  - destruct (Nat.ltb g (p_ngens p)) eqn:Eg; [|injection H as <- <-; auto].
    assert (H' : step clk shuffle f p (Next g) = Some (p', o)) by (cbn [step]; cbv zeta; rewrite Eg; exact H).
    apply Nat.ltb_lt in Eg. destruct (step_next clk shuffle f p g p' o H' Eg) as (e & y & ev & En & -> & ->). clear H H'.
    cbn in Hc. unfold upd in Hc. destruct (Nat.eqb_spec i (go_model (p_gens p g))) as [->|]; [|auto].
    rewrite (next_model _ _ _ _ _ Ht En) in Hc. auto.
  - destruct (Nat.ltb g (p_ngens p)); injection H as <- <-; auto.
  - destruct (Nat.ltb s (p_nsolvers p)); injection H as <- <-; auto.
Qed.

Lemma step_new p x p' o g a : step clk shuffle f p x = Some (p', o) -> go_state (p_gens p' g) = PNew a ->
  go_state (p_gens p g) = PNew a \/ exists s i, x = Solve s i a.
Proof.
  intros H Hg. destruct x as [|j b|pl t lm cm|s v|s v|s v|s v|s j b|k|k|s]; cbn [step] in H; cbv zeta in H.
  - injection H as <- <-. auto.
  - destruct (Nat.ltb j (p_nmodels p)); [destruct (run_api b (world_of p j))|]; injection H as <- <-; auto.
  - injection H as <- <-. auto.
  - destruct (Nat.ltb s (p_nsolvers p)); injection H as <- <-; auto.
  - destruct (Nat.ltb s (p_nsolvers p)); injection H as <- <-; auto.
  - destruct (Nat.ltb s (p_nsolvers p)); injection H as <- <-; auto.
  - destruct (Nat.ltb s (p_nsolvers p)); injection H as <- <-; auto.
  - destruct (_ && _); injection H as <- <-; auto. cbn in Hg. unfold upd in Hg. destruct (Nat.eqb g (p_ngens p)); [|auto].
    cbn in Hg. injection Hg as <-. eauto.
  - destruct (Nat.ltb k (p_ngens p)); [|injection H as <- <-; auto].
    destruct (next _ _ _ _ _) as [[[e y] ev]|]; [|discriminate]. injection H as <- <-. cbn in Hg. unfold upd in Hg.
    destruct (Nat.eqb g k); [discriminate|auto].
  - destruct (Nat.ltb k (p_ngens p)); injection H as <- <-; auto. cbn in Hg. unfold upd in Hg. destruct (Nat.eqb g k); [discriminate|auto].
  - destruct (Nat.ltb s (p_nsolvers p)); injection H as <- <-; auto.
Qed.

(** ** Programs with optimizations *)

(** The generator of Program.v behind generator [h]. *)
Definition inner (q : oprog) (h g : nat) : Prop :=
  q_handles q h = HSolve g \/ exists s i oms, q_handles q h = HOptimize s i (ORun g oms).

Record oinv (q : oprog) : Prop := OInv {
  oi_t : tinv (q_base q);
  oi_p : pinv B (q_base q);
  oi_end : forall h, (q_nhandles q <= h)%nat -> exists s i, q_handles q h = HOptimize s i OEnd;
  oi_gen : forall h g, inner q h g -> (g < p_ngens (q_base q))%nat;
  oi_apart : forall h k g, inner q h g -> inner q k g -> h = k;
  oi_valid : forall h s i st, q_handles q h = HOptimize s i st -> st <> OEnd -> (s < p_nsolvers (q_base q))%nat /\ (i < p_nmodels (q_base q))%nat;
  oi_run : forall h s i g oms o m, q_handles q h = HOptimize s i (ORun g oms) -> In (o, m) oms ->
    known B (q_base q) (mm_cons m) /\ (mm_not_set m < p_npar (q_base q))%nat /\ (mm_bound m < p_npar (q_base q))%nat;
  oi_models : forall i c, In c (m_cons (p_models (q_base q) i)) -> visible_body q (c_body c);
  oi_unstarted : forall g a c, go_state (p_gens (q_base q) g) = PNew a -> In c (x_additional a) -> visible_body q (c_body c);
  oi_new : forall h s i os a, q_handles q h = HOptimize s i (ONew os a) ->
    (forall c, In c (x_additional a) -> known B (q_base q) c /\ visible_body q (c_body c)) /\
    forall o, In (OObj o) os -> visible q (o_expr o)
}.

Lemma oinv_init : oinv init_oprog.
Proof.
  constructor; try (cbn; intros; discriminate); try (cbn; intros; contradiction).
  - apply tinv_init.
  - apply pinv_init.
  - intros h _. exists 0%nat, 0%nat. reflexivity.
  - intros h g [H|(s & i & oms & H)]; discriminate.
  - intros h k g [H|(s & i & oms & H)]; discriminate.
  - intros h s i st H Hst. injection H as <- <- <-. now elim Hst.
Qed.

(** The parameters that a statement may assign. *)
Definition assigned (q : oprog) (x : oaction) (r : nat) : Prop :=
  match x with
  | Plain (Call _ (SetParam k _)) => r = k
  | Plain (Next h) => hidden_by q h r \/ (p_npar (q_base q) <= r)%nat
  | _ => False
  end.

(** How the generators of the program may change in one statement. *)
Inductive change (q q' : oprog) (h : nat) : Prop :=
| ch_same : q_handles q' h = q_handles q h -> change q q' h
| ch_end s i : q_handles q' h = HOptimize s i OEnd -> change q q' h
| ch_solve : h = q_nhandles q -> q_handles q' h = HSolve (p_ngens (q_base q)) -> (p_ngens (q_base q) < p_ngens (q_base q'))%nat -> change q q' h
| ch_new s i os a : h = q_nhandles q -> q_handles q' h = HOptimize s i (ONew os a) ->
    (s < p_nsolvers (q_base q))%nat -> (i < p_nmodels (q_base q))%nat ->
    (forall c, In c (x_additional a) -> known B (q_base q) c /\ visible_body q (c_body c)) ->
    (forall o, In (OObj o) os -> visible q (o_expr o)) -> change q q' h
| ch_start s i os a oms : (h < q_nhandles q)%nat -> q_handles q h = HOptimize s i (ONew os a) ->
    q_handles q' h = HOptimize s i (ORun (p_ngens (q_base q)) oms) -> (p_ngens (q_base q) < p_ngens (q_base q'))%nat ->
    (forall o m, In (o, m) oms -> known B (q_base q') (mm_cons m) /\
       forall r, r = mm_not_set m \/ r = mm_bound m -> (p_npar (q_base q) <= r < p_npar (q_base q'))%nat) -> change q q' h.

Definition hides_less (q q' : oprog) : Prop :=
  (p_npar (q_base q) <= p_npar (q_base q'))%nat /\ forall h r, hidden_by q' h r -> hidden_by q h r \/ (p_npar (q_base q) <= r)%nat.

Lemma visible_later q q' e : hides_less q q' -> visible q e -> visible q' e.
Proof.
  intros [H1 H2] Hv r Hr. destruct (Hv r Hr) as [A C]. split; [lia|]. intros (h & Hh). destruct (H2 h r Hh) as [H|H]; [apply C; now exists h|lia].
Qed.

Lemma change_hides q q' : (p_npar (q_base q) <= p_npar (q_base q'))%nat -> (forall h, change q q' h) -> hides_less q q'.
Proof.
  intros Hn Hc. split; [exact Hn|]. intros h r (s & i & g & oms & o & m & Eh & Hin & Hr).
  destruct (Hc h) as [E|s' i' E|_ E _|s' i' os a _ E|s' i' os a oms' _ _ E _ Ho]; rewrite Eh in E; try discriminate.
  - left. exists s, i, g, oms, o, m. auto.
  - right. injection E as _ _ _ <-. destruct (Ho o m Hin) as [_ H]. specialize (H r Hr). lia.
Qed.

Lemma oinv_change R q q' : oinv q -> small clk shuffle f B R (q_base q) (q_base q') -> (forall h, change q q' h) ->
  (forall h, (q_nhandles q' <= h)%nat -> exists s i, q_handles q' h = HOptimize s i OEnd) ->
  (forall h k, q_handles q' h = HSolve (p_ngens (q_base q)) \/ (exists s i oms, q_handles q' h = HOptimize s i (ORun (p_ngens (q_base q)) oms)) ->
     q_handles q' k = HSolve (p_ngens (q_base q)) \/ (exists s i oms, q_handles q' k = HOptimize s i (ORun (p_ngens (q_base q)) oms)) -> h = k) ->
  (forall i c, In c (m_cons (p_models (q_base q') i)) -> In c (m_cons (p_models (q_base q) i)) \/ visible_body q (c_body c)) ->
  (forall g a, go_state (p_gens (q_base q') g) = PNew a -> go_state (p_gens (q_base q) g) = PNew a \/ forall c, In c (x_additional a) -> visible_body q (c_body c)) ->
  oinv q' /\ hides_less q q'.
Proof.
  intros Hi Hs Hc He Ha Hm Hu.
  destruct (small_inv _ _ _ _ _ _ _ Hs (oi_t _ Hi) (oi_p _ Hi)) as [Ht Hp].
  pose proof (small_sizes _ _ _ _ _ _ _ Hs (oi_t _ Hi)) as (Z1 & Z2 & Z3 & Z4 & Z5).
  assert (Hh : hides_less q q') by (now apply change_hides). split; [|exact Hh].
  assert (Hvb : forall b, visible_body q b -> visible_body q' b) by (intros b Hb e Ee; eapply visible_later; eauto).
  assert (Hin : forall h g, inner q' h g -> inner q h g \/ g = p_ngens (q_base q) /\ (g < p_ngens (q_base q'))%nat).
  { intros h g [E|(s & i & oms & E)]; destruct (Hc h) as [E'|s' i' E'|_ E' L|s' i' os a _ E'|s' i' os a oms' _ _ E' L _]; rewrite E in E'; try discriminate.
    - left. left. now rewrite <- E'.
    - right. injection E' as ->. auto.
    - left. right. exists s, i, oms. now rewrite <- E'.
    - right. injection E' as _ _ -> _. auto. }
  constructor; auto.
  - intros h g Hg. destruct (Hin h g Hg) as [H|[_ H]]; [apply (oi_gen _ Hi) in H; lia|exact H].
  - intros h k g Hhg Hkg. destruct (Hin h g Hhg) as [H|[E _]], (Hin k g Hkg) as [H'|[E' _]]; [eapply (oi_apart _ Hi); eauto| | |]; subst g; now apply Ha.
  - intros h s i st Eh Hst. destruct (Hc h) as [E|s' i' E|_ E L|s' i' os a _ E L1 L2 _ _|s' i' os a oms' _ E0 E L _]; rewrite Eh in E; try discriminate.
    + symmetry in E. destruct (oi_valid _ Hi h s i st E Hst). lia.
    + injection E as _ _ ->. now elim Hst.
    + injection E as -> -> _. lia.
    + injection E as -> -> _. destruct (oi_valid _ Hi h s' i' _ E0) as [A C]; [discriminate|]. lia.
  - intros h s i g oms o m Eh Hom. destruct (Hc h) as [E|s' i' E|_ E L|s' i' os a _ E L1 L2 _ _|s' i' os a oms' _ E0 E L Ho]; rewrite Eh in E; try discriminate.
    + symmetry in E. destruct (oi_run _ Hi h s i g oms o m E Hom) as (K & A & C). split; [eapply known_later; eauto|]. lia.
    + injection E as _ _ _ <-. destruct (Ho o m Hom) as [K A]. split; [exact K|]. split; apply A; auto.
  - intros i c Hin'. destruct (Hm i c Hin') as [H|H]; [|auto]. apply Hvb, (oi_models _ Hi i), H.
  - intros g a c Eg Hc'. destruct (Hu g a Eg) as [H|H]; [apply Hvb, (oi_unstarted _ Hi g a); assumption|auto].
  - intros h s i os a Eh. destruct (Hc h) as [E|s' i' E|_ E L|s' i' os' a' _ E L1 L2 H1 H2|s' i' os' a' oms' _ E0 E L Ho]; rewrite Eh in E; try discriminate.
    + symmetry in E. destruct (oi_new _ Hi h s i os a E) as [H1 H2]. split; [|intros o Ho; eapply visible_later; eauto].
      intros c Hc'. destruct (H1 c Hc'). split; [eapply known_later; eauto|auto].
    + injection E as _ _ <- <-. split; [|intros o Ho; eapply visible_later; eauto].
      intros c Hc'. destruct (H1 c Hc'). split; [eapply known_later; eauto|auto].
Qed.

(** ** One round of an optimization *)

Lemma set_bound_model w m v : w_model (set_bound w m v) = w_model w.
Proof. unfold set_bound. destruct (w_code _ _); [|reflexivity]. unfold ccompile. destruct (c_body (mm_cons m)); reflexivity. Qed.

Lemma add_each_keeps i sol oms : forall p p' r, add_each p i oms sol = (p', r) ->
  (forall j, p_models p' j = p_models p j) /\ p_nmodels p' = p_nmodels p /\ p_clk p' = p_clk p /\ p_timers p' = p_timers p /\ p_ntimers p' = p_ntimers p /\
  p_solvers p' = p_solvers p /\ p_nsolvers p' = p_nsolvers p /\ p_gens p' = p_gens p /\ p_ngens p' = p_ngens p.
Proof.
  induction oms as [|[o m] oms IH]; intros p p' r H; cbn [add_each] in H; [injection H as <- <-; repeat split|].
  unfold add_solution in H. destruct (evaluate _ _ _) as [v|ex]; cbn [bind] in H; [|injection H as <- <-; repeat split].
  destruct (IH _ _ _ H) as (E1 & E2). split; [|exact E2]. intros j. rewrite E1. cbn. unfold upd.
  destruct (Nat.eqb_spec j i) as [->|]; [|reflexivity]. now rewrite set_bound_model.
Qed.

Lemma round_parts q p h s i g oms q' o : round clk shuffle f q p h s i g oms = Some (q', o) -> tinv p -> pinv B p ->
  (i < p_nmodels p)%nat -> (g < p_ngens p)%nat -> (forall o m, In (o, m) oms -> known B p (mm_cons m)) ->
  exists p' st, q' = set_handle q p' h (HOptimize s i st) /\ (st = ORun g oms \/ st = OEnd) /\ small clk shuffle f B (aux_of oms) p p' /\
    (forall j c, In c (m_cons (p_models p' j)) -> In c (m_cons (p_models p j))) /\
    (forall k, k <> g -> p_gens p' k = p_gens p k) /\ (exists x, go_state (p_gens p' g) = PRun x) /\ p_ngens p' = p_ngens p.
Proof.
  intros H Ht Hp Hi Hg Hk. unfold round in H.
  destruct (step clk shuffle f p (Next g)) as [[p1 o1]|] eqn:Es; [|discriminate].
  assert (Hs1 : small clk shuffle f B (aux_of oms) p p1) by (eapply small_one; [exact Es|exact Logic.I|exact Logic.I]).
  assert (Hm1 : forall j c, In c (m_cons (p_models p1 j)) -> In c (m_cons (p_models p j))).
  { intros j c Hc. destruct (step_models p _ p1 o1 j c Ht Es Hc) as [H1|(a & E & _)]; [exact H1|discriminate]. }
  pose proof (step_sizes _ _ _ _ _ _ _ Ht Es) as Hz.
  destruct (step_next clk shuffle f p g p1 o1 Es Hg) as (e & y & ev & En & -> & E1).
  assert (Hg1 : forall k, k <> g -> p_gens p1 k = p_gens p k) by (intros k Hk'; rewrite E1; cbn; now apply upd_other).
  assert (Hg2 : exists x, go_state (p_gens p1 g) = PRun x) by (rewrite E1; cbn; rewrite upd_same; cbn; eauto).
  assert (Hn1 : p_ngens p1 = p_ngens p) by (rewrite E1; reflexivity).
  destruct ev as [|sol| |ex].
  1,3,4: injection H as <- <-; exists p1, OEnd; auto 10.
  destruct (add_each p1 i oms sol) as [p2 r] eqn:Ea.
  destruct (add_each_keeps i sol oms p1 p2 r Ea) as (M & _ & _ & _ & _ & _ & _ & G1 & G2).
  assert (Hs2 : small clk shuffle f B (aux_of oms) p p2).
  { eapply small_then; [exact Hs1|]. apply (small_add_each clk shuffle f B p1 i oms sol p2 r); [lia| |exact Ea].
    intros o0 m Hin. eapply known_later; [|eapply Hk; eauto]. lia. }
  assert (Hrest : (forall j c, In c (m_cons (p_models p2 j)) -> In c (m_cons (p_models p j))) /\
    (forall k, k <> g -> p_gens p2 k = p_gens p k) /\ (exists x, go_state (p_gens p2 g) = PRun x) /\ p_ngens p2 = p_ngens p).
  { rewrite G1, G2. split; [|auto]. intros j c. rewrite M. apply Hm1. }
  destruct r as [u|ex]; injection H as <- <-; [exists p2, (ORun g oms)|exists p2, OEnd]; auto 10.
Qed.

Lemma small_weaken (R R' : nat -> Prop) p p' : (forall r, R r -> R' r) -> small clk shuffle f B R p p' -> small clk shuffle f B R' p p'.
Proof.
  intros HR H. induction H as [p|p x p1 o p' H1 H2 H3 H IH|p p1 p' H1 H IH]; [apply small_here| |eapply small_same; eauto].
  eapply small_step; eauto. destruct H3 as [H3|(i & r & v & -> & Hr)]; [auto|]. right. exists i, r, v. auto.
Qed.

Lemma set_same q p h x : q_handles (set_handle q p h x) h = x.
Proof. cbn. apply upd_same. Qed.
Lemma set_other q p h x k : k <> h -> q_handles (set_handle q p h x) k = q_handles q k.
Proof. intros H. cbn. now apply upd_other. Qed.

(** ** One statement *)

(** What the program itself mentions is its own. *)
Definition mentions (q : oprog) (x : action) : Prop :=
  match x with
  | Call _ (AddConstraint (AExpr e)) => visible q e
  | Call _ (AddConstraint (ACons c)) => visible_body q (c_body c)
  | Call _ (NewConstraint b) => visible_body q b
  | Solve _ _ a => forall c, In c (x_additional a) -> visible_body q (c_body c)
  | _ => True
  end.

Lemma base_models q x p' o i c : oinv q -> proper B (q_base q) x -> mentions q x -> step clk shuffle f (q_base q) x = Some (p', o) ->
  In c (m_cons (p_models p' i)) -> In c (m_cons (p_models (q_base q) i)) \/ visible_body q (c_body c).
Proof.
  intros Hi Hp Hv Hs Hc. pose proof (pinv_step clk shuffle f B _ _ _ _ (oi_t _ Hi) (oi_p _ Hi) Hp Hs) as Hp'.
  destruct (step_models _ _ _ _ _ _ (oi_t _ Hi) Hs Hc) as [H|(a & -> & [->|[Hid Hm]])]; [now left|right; exact Hv|right].
  assert (Hb : B (p_ncon (q_base q)) = c_body c).
  { destruct Hp' as (H1 & _). rewrite <- Hid. now apply (proj1 (H1 i)). }
  rewrite <- Hb. clear Hb. destruct a as [d nm|nm|v nm|[b|e|c'|]|xs|b|r v|b|c']; cbn in Hm; try (exfalso; congruence); cbn in Hp, Hv;
    [rewrite Hp; discriminate|destruct Hp as [-> _]; intros e' E; injection E as <-; exact Hv|rewrite Hp; discriminate|destruct Hp as [-> _]; exact Hv].
Qed.

Lemma base_new q x p' o g a : mentions q x -> step clk shuffle f (q_base q) x = Some (p', o) ->
  go_state (p_gens p' g) = PNew a -> go_state (p_gens (q_base q) g) = PNew a \/ forall c, In c (x_additional a) -> visible_body q (c_body c).
Proof. intros Hv Hs Hg. destruct (step_new _ _ _ _ _ _ Hs Hg) as [H|(s & i & ->)]; auto. Qed.

Lemma apart_old q q' : oinv q -> (forall h, q_handles q' h = q_handles q h \/ exists s i, q_handles q' h = HOptimize s i OEnd) ->
  forall h k, q_handles q' h = HSolve (p_ngens (q_base q)) \/ (exists s i oms, q_handles q' h = HOptimize s i (ORun (p_ngens (q_base q)) oms)) ->
     q_handles q' k = HSolve (p_ngens (q_base q)) \/ (exists s i oms, q_handles q' k = HOptimize s i (ORun (p_ngens (q_base q)) oms)) -> h = k.
Proof.
  intros Hi Hc h k Hh _. exfalso. enough (Hin : inner q h (p_ngens (q_base q))) by (apply (oi_gen _ Hi) in Hin; lia).
  destruct (Hc h) as [E|(s & i & E)]; rewrite E in Hh; [exact Hh|]. destruct Hh as [H|(s' & i' & oms & H)]; discriminate.
Qed.

Lemma apart_new q q' h0 : oinv q -> (forall h, h <> h0 -> q_handles q' h = q_handles q h) ->
  forall h k, q_handles q' h = HSolve (p_ngens (q_base q)) \/ (exists s i oms, q_handles q' h = HOptimize s i (ORun (p_ngens (q_base q)) oms)) ->
     q_handles q' k = HSolve (p_ngens (q_base q)) \/ (exists s i oms, q_handles q' k = HOptimize s i (ORun (p_ngens (q_base q)) oms)) -> h = k.
Proof.
  intros Hi Hc.
  assert (K : forall h, q_handles q' h = HSolve (p_ngens (q_base q)) \/ (exists s i oms, q_handles q' h = HOptimize s i (ORun (p_ngens (q_base q)) oms)) -> h = h0).
  { intros h Hh. destruct (Nat.eq_dec h h0) as [->|Hn]; [reflexivity|]. rewrite (Hc h Hn) in Hh.
    exfalso. enough (Hin : inner q h (p_ngens (q_base q))) by (apply (oi_gen _ Hi) in Hin; lia). exact Hh. }
  intros h k Hh Hk. rewrite (K h Hh), (K k Hk). reflexivity.
Qed.

Record goes (q q' : oprog) (x : oaction) : Prop := Goes {
  go_inv : oinv q';
  go_hides : hides_less q q';
  go_small : small clk shuffle f B (assigned q x) (q_base q) (q_base q');
  go_handles : forall h, (h < q_nhandles q)%nat -> x <> Plain (Next h) -> x <> Plain (Close h) -> q_handles q' h = q_handles q h;
  go_count : (q_nhandles q <= q_nhandles q')%nat;
  go_gens : forall h g, inner q h g -> x <> Plain (Next h) -> x <> Plain (Close h) -> p_gens (q_base q') g = p_gens (q_base q) g
}.

(** A statement of Program.v, with the same generators of the program. *)
Lemma goes_base q x bx p' o : oinv q -> proper B (q_base q) bx -> mentions q bx -> step clk shuffle f (q_base q) bx = Some (p', o) ->
  (assigns_nothing bx \/ exists i r v, bx = Call i (SetParam r v) /\ assigned q x r) ->
  (forall h g, inner q h g -> x <> Plain (Next h) -> x <> Plain (Close h) -> bx <> Next g /\ bx <> Close g) -> goes q (with_base q p') x.
Proof.
  intros Hi Hp Hv Hs Ha Hg.
  assert (Hsm : small clk shuffle f B (assigned q x) (q_base q) p') by (eapply small_step; [exact Hs|exact Hp|exact Ha|apply small_here]).
  destruct (oinv_change (assigned q x) q (with_base q p') Hi Hsm) as [I1 I2].
  - intros h. now apply ch_same.
  - apply (oi_end _ Hi).
  - apply apart_old; auto.
  - intros i c Hc. eapply base_models; eauto.
  - intros g a Eg. eapply base_new; eauto.
  - constructor; auto. cbn. intros h g Hin H1 H2. destruct (Hg h g Hin H1 H2) as [G1 G2].
    now apply (step_other_gen clk shuffle f (q_base q) bx p' o g Hs (oi_gen _ Hi h g Hin) G1 G2).
Qed.

Lemma goes_here q x : oinv q -> goes q q x.
Proof. intros Hi. constructor; auto; [split; [lia|auto]|apply small_here]. Qed.

Lemma small_made R p i os w r : pinv B p -> (i < p_nmodels p)%nat -> (forall o q, In (OObj o) os -> uses q (o_expr o) -> (q < p_npar p)%nat) ->
  prefix_bodies B os (world_of p i) -> make_constraints os (world_of p i) = (w, r) -> small clk shuffle f B R p (put_world p i w).
Proof.
  intros (_ & H2 & _) Hi Hu Hb H. eapply small_same; [apply (put_same p i)|]. apply (small_make clk shuffle f B R p i os (world_of p i) w r Hi); auto.
  now apply inv_numbered.
Qed.

(** The start of an optimization, up to the call of [solve]. *)
Lemma start_parts q h s i os a w oms : oinv q -> q_handles q h = HOptimize s i (ONew os a) -> oproper B q (Plain (Next h)) ->
  make_constraints os (world_of (q_base q) i) = (w, Ok oms) ->
  let p1 := put_world (q_base q) i w in
  let p2 := Prog (p_par p1) (p_code p1) (p_npar p1) (p_ncon p1) (p_models p1) (p_nmodels p1) (p_clk p1) (p_timers p1) (p_ntimers p1) (p_solvers p1) (p_nsolvers p1)
              (upd (p_gens p1) (p_ngens p1) (GenObj s i (PNew (with_objectives a oms)))) (S (p_ngens p1)) in
  step clk shuffle f p1 (Solve s i (with_objectives a oms)) = Some (p2, ODone (Ok tt)) /\
  made (world_of (q_base q) i) w oms /\ os = map (fun om => OObj (fst om)) oms /\
  (forall R, small clk shuffle f B R (q_base q) p2) /\
  (forall o m, In (o, m) oms -> known B p2 (mm_cons m)) /\
  (exists aux, extends (world_of (q_base q) i) w aux) /\
  (forall j, m_cons (p_models p2 j) = m_cons (p_models (q_base q) j)).
Proof.
  intros Hi Eh Hpr Em p1 p2.
  destruct (oi_valid _ Hi h s i _ Eh) as [V1 V2]; [discriminate|]. destruct (oi_new _ Hi h s i os a Eh) as [N1 N2].
  assert (Hpb : prefix_bodies B os (world_of (q_base q) i)).
  { intros os1 os2 w' oms' o m E1 E2 Hin. exact (Hpr s i os a os1 os2 w' oms' o m Eh E1 E2 Hin). }
  pose proof (oi_p _ Hi) as Hp.
  assert (Hnum : numbered (w_model (world_of (q_base q) i))) by (destruct Hp as (_ & H2 & _); now apply inv_numbered).
  destruct (make_constraints_spec os _ w (Ok oms) Hnum Em) as ((aux & Hx & _) & _ & _ & Eos & M).
  assert (Hsm : forall R, small clk shuffle f B R (q_base q) p1).
  { intros R. apply (small_made R (q_base q) i os w (Ok oms) Hp V2); auto. intros o r Ho Hr. now apply (N2 o Ho). }
  assert (Hst : step clk shuffle f p1 (Solve s i (with_objectives a oms)) = Some (p2, ODone (Ok tt))).
  { cbn [step]. cbv zeta. change (p_nsolvers p1) with (p_nsolvers (q_base q)). change (p_nmodels p1) with (p_nmodels (q_base q)).
    rewrite (proj2 (Nat.ltb_lt _ _) V1), (proj2 (Nat.ltb_lt _ _) V2). reflexivity. }
  assert (Hkn : forall o m, In (o, m) oms -> known B p1 (mm_cons m)).
  { intros o m Hin. split; [|]; [destruct (md_ids _ _ _ M o m Hin); assumption|]. apply (Hpb os [] w oms o m); auto. now rewrite app_nil_r. }
  split; [exact Hst|]. split; [exact M|]. split; [exact Eos|]. split.
  { intros R. eapply small_then; [apply Hsm|]. eapply small_one; [exact Hst| |exact Logic.I]. cbn. intros c Hc. apply in_app_or in Hc.
    destruct Hc as [Hc|Hc].
    - destruct (N1 c Hc) as [[K1 K2] _]. split; [|exact K2]. cbn. destruct Hx as (_ & _ & _ & X & _). cbn in X. lia.
    - apply in_map_iff in Hc. destruct Hc as ([o m] & <- & Hin). exact (Hkn o m Hin). }
  split; [exact Hkn|]. split; [eauto|]. intros j. cbn. unfold upd. destruct (Nat.eqb_spec j i) as [->|]; [|reflexivity].
  destruct Hx as (-> & _). reflexivity.
Qed.

Lemma goes_next q h s i st q' o : oinv q -> (h < q_nhandles q)%nat -> q_handles q h = HOptimize s i st -> oproper B q (Plain (Next h)) ->
  onext clk shuffle f q h s i st = Some (q', o) -> goes q q' (Plain (Next h)).
Proof.
  intros Hi Hh Eh Hpr H. pose proof (oi_p _ Hi) as Hp. destruct st as [os a|g oms|]; cbn [onext] in H; cbv zeta in H.
  3:{ injection H as <- <-. now apply goes_here. }
  - destruct (oi_valid _ Hi h s i _ Eh) as [V1 V2]; [discriminate|]. destruct (oi_new _ Hi h s i os a Eh) as [N1 N2].
    assert (Hpb : prefix_bodies B os (world_of (q_base q) i)).
    { intros os1 os2 w' oms' o0 m E1 E2 Hin. exact (Hpr s i os a os1 os2 w' oms' o0 m Eh E1 E2 Hin). }
    assert (Hnum : numbered (w_model (world_of (q_base q) i))) by (destruct Hp as (_ & H2 & _); now apply inv_numbered).
    assert (Heasy : forall st', (st' = OEnd \/ st' = ONew os a) -> change q (set_handle q (q_base q) h (HOptimize s i st')) h) by
      (intros st' [->| ->]; [eapply ch_end; apply set_same|apply ch_same; now rewrite set_same]).
    destruct (make_constraints os (world_of (q_base q) i)) as [w [oms|ex]] eqn:Em.
    2:{ injection H as <- <-. destruct (make_constraints_spec os _ w _ Hnum Em) as ((aux & Hx & _) & _).
        assert (Hsm : forall R, small clk shuffle f B R (q_base q) (put_world (q_base q) i w)).
        { intros R. apply (small_made R (q_base q) i os w (Err ex) Hp V2); auto. intros o0 r Ho Hr. now apply (N2 o0 Ho). }
        set (q1 := set_handle q (put_world (q_base q) i w) h (HOptimize s i OEnd)).
        assert (Hk : forall k, q_handles q1 k = q_handles q k \/ exists s' i', q_handles q1 k = HOptimize s' i' OEnd).
        { intros k. destruct (Nat.eq_dec k h) as [->|Hn]; [right; exists s, i; apply set_same|left; now apply set_other]. }
        destruct (oinv_change (assigned q (Plain (Next h))) q q1 Hi) as [I1 I2]; auto.
        - intros k. destruct (Hk k) as [E|(s' & i' & E)]; [now apply ch_same|now apply (ch_end _ _ _ s' i')].
        - intros k Hle. destruct (Hk k) as [->|E]; [now apply (oi_end _ Hi)|exact E].
        - now apply apart_old.
        - intros j c Hc. left. cbn in Hc. unfold upd in Hc. destruct (Nat.eqb_spec j i) as [->|]; [|exact Hc]. destruct Hx as (E & _). rewrite E in Hc. exact Hc.
        - constructor; auto. intros k _ Hn _. apply set_other. congruence. }
    destruct (start_parts q h s i os a w oms Hi Eh Hpr Em) as (Hst & M & Eos & Hsm & Hkn & (aux & Hx) & Hmod).
    set (p1 := put_world (q_base q) i w) in *. rewrite Hst in H. cbn [fst snd] in H.
    set (p2 := Prog (p_par p1) _ _ _ _ _ _ _ _ _ _ _ _) in *.
    destruct (small_inv _ _ _ _ _ _ _ (Hsm (fun _ => False)) (oi_t _ Hi) Hp) as [Ht2 Hp2].
    destruct (round_parts q p2 h s i (p_ngens p1) oms q' o H Ht2 Hp2) as (p3 & st3 & Eq & Est & Hs3 & Hm3 & Hg3 & (x & Hx3) & Hn3); auto.
    assert (Hpars : forall o0 m r, In (o0, m) oms -> r = mm_not_set m \/ r = mm_bound m -> (p_npar (q_base q) <= r < p_npar p2)%nat).
    { intros o0 m r Hin Hr. apply (md_pars _ _ _ M o0 m r Hin). unfold aux_params. cbn. intuition. }
    assert (Hs : small clk shuffle f B (assigned q (Plain (Next h))) (q_base q) p3).
    { eapply small_then; [apply Hsm|]. eapply small_weaken; [|exact Hs3]. intros r (o0 & m & Hin & Hr). right. now apply (Hpars o0 m r Hin). }
    pose proof (small_sizes _ _ _ _ _ _ _ Hs3 Ht2) as Hz. subst q'.
    assert (Hch : forall k, change q (set_handle q p3 h (HOptimize s i st3)) k).
    { intros k. destruct (Nat.eq_dec k h) as [->|Hn]; [|apply ch_same; now apply set_other]. destruct Est as [->| ->].
      - apply (ch_start _ _ _ s i os a oms Hh Eh); [apply set_same|cbn [q_base set_handle]; rewrite Hn3; change (p_ngens p2) with (S (p_ngens (q_base q))); lia|].
        intros o0 m Hin. split; [eapply known_later; [|eapply Hkn; eauto]; cbn [q_base set_handle]; lia|]. intros r Hr. specialize (Hpars o0 m r Hin Hr). cbn [q_base set_handle]. lia.
      - apply (ch_end _ _ _ s i). apply set_same. }
    destruct (oinv_change (assigned q (Plain (Next h))) q (set_handle q p3 h (HOptimize s i st3)) Hi) as [I1 I2]; auto.
    + intros k Hle. cbn in Hle. rewrite set_other by (intros ->; lia). now apply (oi_end _ Hi).
    + apply (apart_new q _ h Hi). intros k Hn. now apply set_other.
    + intros j c Hc. left. rewrite <- Hmod. now apply Hm3.
    + intros g b Eg. left. cbn in Eg. destruct (Nat.eq_dec g (p_ngens p1)) as [->|Hn]; [rewrite Hx3 in Eg; discriminate|].
      rewrite (Hg3 g Hn) in Eg. cbn in Eg. rewrite upd_other in Eg by exact Hn. exact Eg.
    + constructor; auto.
      * intros k _ Hn _. apply set_other. congruence.
      * intros k g Hin _ _. pose proof (oi_gen _ Hi k g Hin) as Hlt. cbn. rewrite Hg3 by (cbn; lia). cbn. apply upd_other. lia.
  - destruct (oi_valid _ Hi h s i _ Eh) as [V1 V2]; [discriminate|].
    assert (Hin0 : inner q h g) by (right; eauto).
    destruct (round_parts q (q_base q) h s i g oms q' o H (oi_t _ Hi) Hp V2 (oi_gen _ Hi h g Hin0)) as (p3 & st3 & Eq & Est & Hs3 & Hm3 & Hg3 & (x & Hx3) & Hn3).
    { intros o0 m Hom. now apply (oi_run _ Hi h s i g oms o0 m Eh). }
    assert (Hs : small clk shuffle f B (assigned q (Plain (Next h))) (q_base q) p3).
    { eapply small_weaken; [|exact Hs3]. intros r (o0 & m & Hin & Hr). left. exists s, i, g, oms, o0, m. auto. }
    subst q'.
    assert (Hk : forall k, q_handles (set_handle q p3 h (HOptimize s i st3)) k = q_handles q k \/ exists s' i', q_handles (set_handle q p3 h (HOptimize s i st3)) k = HOptimize s' i' OEnd).
    { intros k. destruct (Nat.eq_dec k h) as [->|Hn]; [|left; now apply set_other]. rewrite set_same.
      destruct Est as [->| ->]; [left; now rewrite Eh|right; eauto]. }
    destruct (oinv_change (assigned q (Plain (Next h))) q (set_handle q p3 h (HOptimize s i st3)) Hi) as [I1 I2]; auto.
    + intros k. destruct (Hk k) as [E|(s' & i' & E)]; [now apply ch_same|now apply (ch_end _ _ _ s' i')].
    + intros k Hle. destruct (Hk k) as [->|E]; [now apply (oi_end _ Hi)|exact E].
    + now apply apart_old.
    + intros k b Eg. left. cbn in Eg. destruct (Nat.eq_dec k g) as [->|Hn]; [rewrite Hx3 in Eg; discriminate|]. rewrite (Hg3 k Hn) in Eg. exact Eg.
    + constructor; auto.
      * intros k _ Hn _. apply set_other. congruence.
      * intros k g' Hin Hne _. cbn. apply Hg3. intros ->. apply Hne. f_equal. f_equal. eapply (oi_apart _ Hi); eauto.
Qed.

(** What becomes of the state, as [step] says for statements other than [Solve], [Next] and [Close]. *)
Definition inert (x : action) : Prop := match x with Solve _ _ _ => False | Next _ => False | Close _ => False | _ => True end.

Lemma ostep_inert q x : inert x ->
  ostep clk shuffle f q (Plain x) = match step clk shuffle f (q_base q) x with None => None | Some (p', o) => Some (with_base q p', o) end.
Proof. destruct x; intros H; try contradiction; reflexivity. Qed.

Lemma oproper_mentions q x : oproper B q (Plain x) -> (forall h, x <> Next h) -> proper B (q_base q) x /\ mentions q x.
Proof. destruct x; cbn; intros H Hn; try exact H. now elim (Hn g). Qed.

(** Every statement keeps the invariant. *)
Lemma ostep_goes q x q' o : oinv q -> oproper B q x -> ostep clk shuffle f q x = Some (q', o) -> goes q q' x.
Proof.
  intros Hi Hpr H. destruct x as [x|s i os a].
  2:{ cbn [ostep] in H. cbv zeta in H. destruct (Nat.ltb_spec s (p_nsolvers (q_base q))) as [V1|]; [|injection H as <- <-; now apply goes_here].
      destruct (Nat.ltb_spec i (p_nmodels (q_base q))) as [V2|]; [|injection H as <- <-; now apply goes_here]. cbn [andb] in H. injection H as <- <-.
      set (q1 := new_handle _ _ _). destruct Hpr as [P1 P2].
      assert (Ho : forall h, h <> q_nhandles q -> q_handles q1 h = q_handles q h) by (intros h Hn; now apply upd_other).
      assert (Hn : q_handles q1 (q_nhandles q) = HOptimize s i (ONew os a)) by apply upd_same.
      destruct (oinv_change (assigned q (Optimize s i os a)) q q1 Hi) as [I1 I2]; auto.
      - apply small_here.
      - intros h. destruct (Nat.eq_dec h (q_nhandles q)) as [->|Hne]; [|apply ch_same; auto]. now apply (ch_new _ _ _ s i os a).
      - intros h Hle. cbn in Hle. rewrite Ho by lia. apply (oi_end _ Hi). lia.
      - now apply (apart_new q q1 (q_nhandles q)).
      - constructor; auto; [apply small_here|intros h Hh _ _; apply Ho; lia|cbn; lia]. }
  assert (Hd : inert x \/ ~ inert x) by (destruct x; cbn; auto). destruct Hd as [Hx|Hx].
  - rewrite (ostep_inert q x Hx) in H. destruct (step clk shuffle f (q_base q) x) as [[p' o']|] eqn:Es; [|discriminate]. injection H as <- <-.
    assert (Hnn : forall h, x <> Next h) by (intros h ->; exact Hx). destruct (oproper_mentions q x Hpr Hnn) as [P1 P2].
    apply (goes_base q (Plain x) x p' o' Hi P1 P2 Es).
    + destruct x as [|i [d nm|nm|v nm|ca|xs|b|r v|b|c]| | | | | | | | |]; try (left; exact Logic.I). right. exists i, r, v. cbn. auto.
    + intros h g _ _ _. split; intros ->; exact Hx.
  - destruct x as [|j c| | | | | |s i a|k|k|]; try (elim Hx; exact Logic.I).
    + cbn [ostep] in H. cbv zeta in H. destruct (Nat.ltb_spec s (p_nsolvers (q_base q))) as [V1|]; [|injection H as <- <-; now apply goes_here].
      destruct (Nat.ltb_spec i (p_nmodels (q_base q))) as [V2|]; [|injection H as <- <-; now apply goes_here]. cbn [andb] in H.
      destruct (step clk shuffle f (q_base q) (Solve s i a)) as [[p' o']|] eqn:Es; [|discriminate]. injection H as <- <-.
      destruct Hpr as [P1 P2]. set (q1 := new_handle _ _ _).
      assert (Ho : forall h, h <> q_nhandles q -> q_handles q1 h = q_handles q h) by (intros h Hn; now apply upd_other).
      assert (Hn : q_handles q1 (q_nhandles q) = HSolve (p_ngens (q_base q))) by apply upd_same.
      assert (Hsm : small clk shuffle f B (assigned q (Plain (Solve s i a))) (q_base q) p') by (eapply small_one; [exact Es|exact P1|exact Logic.I]).
      assert (Hg : p_ngens p' = S (p_ngens (q_base q))).
      { cbn [step] in Es. cbv zeta in Es. rewrite (proj2 (Nat.ltb_lt _ _) V1), (proj2 (Nat.ltb_lt _ _) V2) in Es. cbn [andb] in Es. injection Es as <- <-. reflexivity. }
      destruct (oinv_change (assigned q (Plain (Solve s i a))) q q1 Hi) as [I1 I2]; auto.
      * intros h. destruct (Nat.eq_dec h (q_nhandles q)) as [->|Hne]; [|apply ch_same; auto]. apply ch_solve; auto. cbn [q_base q1 new_handle]. lia.
      * intros h Hle. cbn in Hle. rewrite Ho by lia. apply (oi_end _ Hi). lia.
      * now apply (apart_new q q1 (q_nhandles q)).
      * intros j c Hc. eapply base_models; eauto.
      * intros g b Eg. refine (base_new q _ p' o' g b _ Es Eg). exact P2.
      * constructor; auto; [intros h Hh _ _; apply Ho; lia|cbn; lia|]. intros h g Hin _ _. cbn.
        apply (step_other_gen clk shuffle f (q_base q) _ p' o' g Es (oi_gen _ Hi h g Hin)); discriminate.
    + cbn [ostep] in H. cbv zeta in H. destruct (Nat.ltb_spec k (q_nhandles q)) as [Hk|]; [|injection H as <- <-; now apply goes_here].
      destruct (q_handles q k) as [g|s i st] eqn:Eh; [|eapply goes_next; eauto].
      destruct (step clk shuffle f (q_base q) (Next g)) as [[p' o']|] eqn:Es; [|discriminate]. injection H as <- <-.
      apply (goes_base q (Plain (Next k)) (Next g) p' o' Hi Logic.I Logic.I Es); [left; exact Logic.I|].
      intros h g' Hin Hne _. split; [|discriminate]. intros E. injection E as <-. apply Hne. f_equal. f_equal.
      eapply (oi_apart _ Hi); [|exact Hin]. left. exact Eh.
    + cbn [ostep] in H. cbv zeta in H. destruct (Nat.ltb_spec k (q_nhandles q)) as [Hk|]; [|injection H as <- <-; now apply goes_here].
      destruct (q_handles q k) as [g|s i st] eqn:Eh.
      * destruct (step clk shuffle f (q_base q) (Close g)) as [[p' o']|] eqn:Es; [|discriminate]. injection H as <- <-.
        apply (goes_base q (Plain (Close k)) (Close g) p' o' Hi Logic.I Logic.I Es); [left; exact Logic.I|].
        intros h g' Hin _ Hne. split; [discriminate|]. intros E. injection E as <-. apply Hne. f_equal. f_equal.
        eapply (oi_apart _ Hi); [|exact Hin]. left. exact Eh.
      * injection H as <- <-. set (q1 := set_handle _ _ _ _).
        assert (Ho : forall h, h <> k -> q_handles q1 h = q_handles q h) by (intros h Hn; now apply set_other).
        assert (Hn : q_handles q1 k = HOptimize s i OEnd) by apply set_same.
        assert (Hq : forall h, q_handles q1 h = q_handles q h \/ exists s' i', q_handles q1 h = HOptimize s' i' OEnd).
        { intros h. destruct (Nat.eq_dec h k) as [->|Hne]; [right; eauto|left; auto]. }
        destruct (oinv_change (assigned q (Plain (Close k))) q q1 Hi) as [I1 I2]; auto.
        -- apply small_here.
        -- intros h. destruct (Hq h) as [E|(s' & i' & E)]; [now apply ch_same|now apply (ch_end _ _ _ s' i')].
        -- intros h Hle. destruct (Hq h) as [->|E]; [now apply (oi_end _ Hi)|exact E].
        -- now apply apart_old.
        -- constructor; auto; [apply small_here|]. intros h _ _ Hne. apply Ho. congruence.
Qed.

Lemma orun_inv xs : forall q log q', oinv q -> oproper_run clk shuffle f B q xs -> orun clk shuffle f q xs = Some (log, q') -> oinv q'.
Proof.
  induction xs as [|x xs IH]; intros q log q' Hi Hp H; cbn in H, Hp; [injection H as <- <-; exact Hi|].
  destruct Hp as [P1 P2]. destruct (ostep clk shuffle f q x) as [[q1 o]|] eqn:Es; [|discriminate].
  destruct (orun clk shuffle f q1 xs) as [[log1 q2]|] eqn:Er; [|discriminate]. injection H as <- <-.
  eapply IH; [|exact P2|exact Er]. exact (go_inv _ _ _ (ostep_goes _ _ _ _ Hi P1 Es)).
Qed.

End Inv.
