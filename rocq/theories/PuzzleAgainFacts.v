(** Iterating a puzzle several times. *)
From Coq Require Import Permutation.
From Verif Require IsolationFacts.
From Verif Require Import PuzzleAgain SpecPuzzleAgain SpecPuzzleUser SpecPuzzle SpecSafe SpecSolve ExprFacts DictFacts CodeFacts SetupFacts LoopFacts MasterFacts
  SolverProps SolverMore OptimizeProps PuzzleFacts PuzzleRel PuzzleUserFacts PuzzleUserRel.
Open Scope list_scope.
Open Scope Z_scope.

(** ** The state after a loop *)
Section World.
Context {B : Type}.
Variables (clk : nat -> Z) (shuffle : list name -> list name) (dec : subst -> res B).

Lemma micro_started e g e' g' ev : micro clk shuffle e g = (e', g', ev) -> forall sv a, g' <> GInit sv a.
Proof.
  intros H sv a ->. destruct g as [sv' a'|l c n|l c n|]; cbn [micro] in H.
  - unfold begin in H. destruct (negb _); [discriminate|]. destruct (do_setup _ _ _) as [w [u|]]; [|discriminate].
    destruct (select_order _ _ _ _); [discriminate|]. destruct (do_start _ _ _) as [e1 [|]]; discriminate.
  - destruct (g_stack c); [discriminate|]. destruct (check_timeout clk e l) as [e1 [|]]; [discriminate|].
    destruct (core_step _ _ _); try discriminate. destruct (do_stop clk e1 (l_timer l)) as [e2 [|]]; discriminate.
  - destruct (l_limit l) as [|z|].
    + destruct (do_start clk e (l_timer l)) as [e2 [|]]; discriminate.
    + destruct (z <=? n); [discriminate|]. destruct (do_start clk e (l_timer l)) as [e2 [|]]; discriminate.
    + discriminate.
  - discriminate.
Qed.

Lemma watch_world f : forall stop e g bs e' r, (forall sv a, g <> GInit sv a) -> watch clk dec shuffle f stop e g = Some (bs, e', r) -> e_world e' = e_world e.
Proof.
  induction f as [|f IH]; intros stop e g bs e' r Hg H; [discriminate|]. cbn [watch] in H.
  pose proof (micro_world clk shuffle e g Hg) as Hw. destruct (micro clk shuffle e g) as [[e1 g1] ev] eqn:E. cbn [fst] in Hw.
  pose proof (micro_started _ _ _ _ _ E) as Hg1. destruct ev as [|s| |ex].
  - rewrite <- Hw. eapply IH; eauto.
  - destruct (dec s) as [b|ex]; [|injection H as <- <- <-; exact Hw]. destruct stop as [[|n]|].
    + injection H as <- <- <-. exact Hw.
    + destruct (watch clk dec shuffle f (Some n) e1 g1) as [[[bs' e2] r']|] eqn:Ew; [|discriminate]. injection H as <- <- <-. rewrite <- Hw. eapply IH; eauto.
    + destruct (watch clk dec shuffle f None e1 g1) as [[[bs' e2] r']|] eqn:Ew; [|discriminate]. injection H as <- <- <-. rewrite <- Hw. eapply IH; eauto.
  - injection H as <- <- <-. exact Hw.
  - injection H as <- <- <-. exact Hw.
Qed.

(** Only a part of the constraints is compiled. *)
Lemma begin_world e sv a e' g ev : begin clk shuffle e sv a = (e', g, ev) ->
  exists pre post, m_cons (w_model (e_world e)) ++ x_additional a = pre ++ post /\ e_world e' = compile_all (s_compile sv) (e_world e) pre.
Proof.
  unfold begin. destruct (negb _) eqn:Es.
  - intros H. injection H as <- <- <-. exists [], (m_cons (w_model (e_world e)) ++ x_additional a). split; reflexivity.
  - change (e_world (reset e)) with (e_world e). destruct (do_setup_world (s_compile sv) (e_world e) (x_additional a)) as (pre & post & E & Hw).
    destruct (do_setup (s_compile sv) (e_world e) (x_additional a)) as [w [u|ex]]; cbn [fst] in Hw; subst w.
    + destruct (select_order _ _ _ _).
      * intros H. injection H as <- <- <-. exists pre, post. split; [exact E|reflexivity].
      * pose proof (do_start_world clk (set_world (reset e) (compile_all (s_compile sv) (e_world e) pre)) (e_timer (set_world (reset e) (compile_all (s_compile sv) (e_world e) pre)))) as Hd.
        destruct (do_start _ _ _) as [e1 [|]]; intros H; injection H as <- <- <-; exists pre, post; (split; [exact E|exact Hd]).
    + intros H. injection H as <- <- <-. exists pre, post. split; [exact E|reflexivity].
Qed.

Lemma watch_begins f stop e sv a bs e' r : watch clk dec shuffle f stop e (GInit sv a) = Some (bs, e', r) ->
  e_world e' = e_world (fst (fst (begin clk shuffle e sv a))).
Proof.
  intros H. destruct f as [|f]; [discriminate|]. cbn [watch micro] in H.
  destruct (begin clk shuffle e sv a) as [[e1 g1] ev] eqn:E. cbn [fst].
  pose proof (micro_started e (GInit sv a) e1 g1 ev E) as Hg. destruct ev as [|s| |ex].
  - eapply watch_world; eauto.
  - destruct (dec s) as [b|ex]; [|injection H as <- <- <-; reflexivity]. destruct stop as [[|n]|].
    + injection H as <- <- <-. reflexivity.
    + destruct (watch clk dec shuffle f (Some n) e1 g1) as [[[bs' e2] r']|] eqn:Ew; [|discriminate]. injection H as <- <- <-. eapply watch_world; eauto.
    + destruct (watch clk dec shuffle f None e1 g1) as [[[bs' e2] r']|] eqn:Ew; [|discriminate]. injection H as <- <- <-. eapply watch_world; eauto.
  - injection H as <- <- <-. reflexivity.
  - injection H as <- <- <-. reflexivity.
Qed.

Lemma watch_compiles f stop e sv a bs e' r : watch clk dec shuffle f stop e (GInit sv a) = Some (bs, e', r) ->
  exists pre post, m_cons (w_model (e_world e)) ++ x_additional a = pre ++ post /\ e_world e' = compile_all (s_compile sv) (e_world e) pre.
Proof.
  intros H. rewrite (watch_begins _ _ _ _ _ _ _ _ H). destruct (begin clk shuffle e sv a) as [[e1 g1] ev] eqn:E. exact (begin_world _ _ _ _ _ _ E).
Qed.

(** ** Loops and [solve] *)
Lemma watch_drain F : forall k e g ys e' r bs, drain clk shuffle F passive k e g = Some (ys, e', r) -> mapM dec ys = Ok bs ->
  forall f, watch clk dec shuffle f None e g = match drain clk shuffle f passive k e g with Some _ => Some (bs, e', r) | None => None end.
Proof.
  induction F as [|F IH]; intros k e g ys e' r bs H Hm f; [discriminate|]. destruct f as [|f]; [reflexivity|].
  cbn [watch]. rewrite drain_S in *. destruct (micro clk shuffle e g) as [[e1 g1] [|s| |ex]].
  - now apply (IH k e1 g1 ys).
  - change (passive k (e_world e1) s) with (Ok (e_world e1)) in *. cbn iota in *. rewrite set_world_same in *.
    destruct (drain clk shuffle F passive (S k) e1 g1) as [[[ys' e2] r']|] eqn:Ed; [|discriminate]. injection H as <- <- <-.
    cbn [mapM] in Hm. destruct (dec s) as [b|]; [|discriminate]. cbn [bind] in Hm. destruct (mapM dec ys') as [bs'|] eqn:Em; [|discriminate]. injection Hm as <-.
    rewrite (IH _ _ _ _ _ _ _ Ed Em f). destruct (drain clk shuffle f passive (S k) e1 g1) as [[[? ?] ?]|]; reflexivity.
  - injection H as <- <- <-. injection Hm as <-. reflexivity.
  - injection H as <- <- <-. injection Hm as <-. reflexivity.
Qed.

(** A loop that is left receives the first results. *)
Lemma watch_stop f : forall f' n e g bs e' r bs1 e1 r1,
  watch clk dec shuffle f None e g = Some (bs, e', r) -> watch clk dec shuffle f' (Some n) e g = Some (bs1, e1, r1) ->
  bs1 = firstn (S n) bs /\ r1 = (if Nat.leb (length bs) n then r else None) /\ ((length bs <= n)%nat -> e1 = e').
Proof.
  induction f as [|f IH]; intros [|f'] n e g bs e' r bs1 e1 r1 H H1; try discriminate. cbn [watch] in H, H1.
  destruct (micro clk shuffle e g) as [[e2 g2] [|s| |ex]].
  - now apply (IH f' n e2 g2 bs e' r).
  - destruct (dec s) as [b|ex]; [|injection H as <- <- <-; injection H1 as <- <- <-; auto].
    destruct (watch clk dec shuffle f None e2 g2) as [[[bs' e3] r']|] eqn:Ew; [|discriminate]. injection H as <- <- <-. destruct n as [|n].
    + injection H1 as <- <- <-. split; [reflexivity|]. split; [reflexivity|]. cbn. lia.
    + destruct (watch clk dec shuffle f' (Some n) e2 g2) as [[[bs1' e4] r1']|] eqn:Ew1; [|discriminate]. injection H1 as <- <- <-.
      destruct (IH _ _ _ _ _ _ _ _ _ _ Ew Ew1) as (-> & -> & G). split; [reflexivity|]. split; [reflexivity|]. cbn [length]. intros Hl. apply G. lia.
  - injection H as <- <- <-. injection H1 as <- <- <-. auto.
  - injection H as <- <- <-. injection H1 as <- <- <-. auto.
Qed.
Lemma watch_mono f : forall stop e g x n, watch clk dec shuffle f stop e g = Some x -> watch clk dec shuffle (f + n) stop e g = Some x.
Proof.
  induction f as [|f IH]; intros stop e g x n H; [discriminate|]. cbn [Nat.add watch] in *.
  destruct (micro clk shuffle e g) as [[e2 g2] [|s| |ex]]; try assumption; [now apply IH|].
  destruct (dec s) as [b|ex]; [|assumption]. destruct stop as [[|k]|]; [assumption| |].
  - destruct (watch clk dec shuffle f (Some k) e2 g2) as [y|] eqn:Ew; [|discriminate]. now rewrite (IH _ _ _ _ n Ew).
  - destruct (watch clk dec shuffle f None e2 g2) as [y|] eqn:Ew; [|discriminate]. now rewrite (IH _ _ _ _ n Ew).
Qed.
(** ... and ends if a complete one does. *)
Lemma watch_ends f : forall n e g x, watch clk dec shuffle f None e g = Some x -> exists y, watch clk dec shuffle f (Some n) e g = Some y.
Proof.
  induction f as [|f IH]; intros n e g x H; [discriminate|]. cbn [watch] in *.
  destruct (micro clk shuffle e g) as [[e2 g2] [|s| |ex]]; eauto.
  destruct (dec s) as [b|ex]; [|eauto]. destruct n as [|n]; [eauto|].
  destruct (watch clk dec shuffle f None e2 g2) as [y|] eqn:Ew; [|discriminate]. destruct (IH n _ _ _ Ew) as [[[bs e3] r] ->]. eauto.
Qed.
End World.

(** [random.shuffle] only matters for the policy RANDOM. *)
Lemma watch_shuffle {B} clk (dec : subst -> res B) sh sh' f stop e sv : s_policy sv <> RANDOM ->
  watch clk dec sh f stop e (GInit sv no_args) = watch clk dec sh' f stop e (GInit sv no_args).
Proof.
  intros Hp. assert (Hm : forall f stop e g, (forall sv a, g <> GInit sv a) -> watch clk dec sh f stop e g = watch clk dec sh' f stop e g).
  { clear f stop e sv Hp. induction f as [|f IH]; intros stop e g Hg; [reflexivity|]. cbn [watch].
    assert (Em : micro clk sh e g = micro clk sh' e g) by (destruct g; [exfalso; eapply Hg; reflexivity|reflexivity|reflexivity|reflexivity]).
    rewrite Em. destruct (micro clk sh' e g) as [[e1 g1] ev] eqn:E. pose proof (micro_started clk sh' _ _ _ _ _ E) as Hg1.
    destruct ev; try reflexivity; [now apply IH|]. destruct (dec s); [|reflexivity]. destruct stop as [[|n]|]; [reflexivity| |]; now rewrite (IH _ _ _ Hg1). }
  assert (Eb : begin clk sh e sv no_args = begin clk sh' e sv no_args).
  { unfold begin. cbn [x_policy no_args arg_or]. destruct (negb _); [reflexivity|]. destruct (do_setup _ _ _) as [w [u|]]; [|reflexivity].
    replace (select_order sh (s_policy sv) (w_model (e_world (reset e))) u) with (select_order sh' (s_policy sv) (w_model (e_world (reset e))) u); [reflexivity|].
    destruct (s_policy sv); try reflexivity. contradiction. }
  destruct f as [|f]; [reflexivity|]. cbn [watch micro]. rewrite Eb. destruct (begin clk sh' e sv no_args) as [[e1 g1] ev] eqn:E.
  pose proof (micro_started clk sh' e (GInit sv no_args) e1 g1 ev E) as Hg1.
  destruct ev; try reflexivity; [now apply Hm|]. destruct (dec s); [|reflexivity]. destruct stop as [[|n]|]; [reflexivity| |]; now rewrite (Hm _ _ _ _ Hg1).
Qed.

Lemma rbuilt_compiled dom cmp P w vs ps pre post : rbuilt dom cmp P w vs ps -> m_cons (w_model w) = pre ++ post -> rbuilt dom cmp P (compile_all cmp w pre) vs ps.
Proof.
  intros H E. assert (Ho : objects w (m_cons (w_model w))).
  { destruct (rbuilt_valid dom cmp P (new_env w) vs ps (fun l => l) H (fun l => Permutation.Permutation_refl l)) as (_ & _ & _ & Ho).
    unfold all_cons in Ho. cbn in Ho. now rewrite app_nil_r in Ho. }
  pose proof (objects_prefix cmp w _ pre post Ho E) as [_ Ho'].
  destruct (IsolationFacts.compile_all_sizes cmp pre w) as [Hn _].
  destruct H as [Hp Hv Hnd Hgo Hdo Hid Hfr Hco Hobj Hfrom Hinto Hsol Hsome Hcl Hdef Hkn Hex].
  constructor; rewrite ?compile_all_model, ?compile_all_par, ?Hn; auto.
  - intros Ec c Hc. rewrite Ec in *. rewrite compile_all_false. auto.
Qed.

(** ** Programs *)
Section Program.
Context {A B : Type}.
Variables (clk : nat -> Z) (init : op A) (obj : A) (V : dict (list Z)) (C : list pbody) (decode : A -> subst -> res B)
  (ok : B -> Prop) (means : B -> assignment -> Prop) (D : name -> Z -> Prop) (cmp : bool) (us : list ustmt).
Hypothesis Hy : ready init obj V C decode ok means D.
Hypothesis Hus : us_ok D cmp us.

Definition at_stage (e : env) (us1 : list ustmt) : Prop :=
  rbuilt (and_added D us) cmp P0 (e_world e) (V ++ flat_map uvars us1) (C ++ flat_map ubody us1).

Lemma early_dom us1 us2 : us = us1 ++ us2 -> forall x d v, In (x, d) (V ++ flat_map uvars us1) -> In v d -> and_added D us x v.
Proof.
  intros E x d v Hin Hv. apply (user_dom D us V (y_dom _ _ _ _ _ _ _ _ Hy) x d v); [|exact Hv].
  rewrite E, flat_map_app, app_assoc. apply in_or_app. now left.
Qed.
Lemma early_inhabited us1 us2 : us = us1 ++ us2 -> forall x, In x (names_of (V ++ flat_map uvars us1)) -> exists v, and_added D us x v.
Proof.
  intros E x Hx. destruct (names_early D us V (y_names _ _ _ _ _ _ _ _ Hy) us1 us2 x E Hx) as (v & [H|(d & Hin & H)]); exists v; [now left|].
  right. exists d. split; [rewrite E; apply in_or_app; now left|exact H].
Qed.
Lemma early_safe us1 us2 : us = us1 ++ us2 -> cmp = true -> forall p, In p (C ++ flat_map ubody us1) -> p_safe p.
Proof.
  intros E Ecmp p Hp. apply in_app_or in Hp. destruct Hp as [Hp|Hp]; [now apply (d_safe _ _ _ _ _ _ (y_describes _ _ _ _ _ _ _ _ Hy))|].
  apply in_flat_map in Hp. destruct Hp as (u & Hin & Hp). apply in_split in Hin. destruct Hin as (l1 & l2 & ->). rewrite <- app_assoc in E. cbn in E.
  pose proof (Hus _ _ _ E) as Hok. destruct u as [x d|f|xs]; cbn in Hp, Hok; [contradiction| |]; destruct Hp as [<-|[]]; [|exact Logic.I]. now apply Hok.
Qed.

(** A complete loop. *)
Lemma stage_loop shuffle e us1 us2 pol t l : shuffles shuffle -> us = us1 ++ us2 -> at_stage e us1 ->
  exists F ys e' bs, solve_all clk shuffle F e (new_solver pol t l cmp) no_args = Some (ys, e', None) /\ mapM (decode obj) ys = Ok bs.
Proof.
  intros Hs E Hr. set (sv := new_solver pol t l cmp). destruct (new_solver_lims pol t l cmp) as [Hto Hli]. fold sv in Hto, Hli.
  destruct (rbuilt_terminates (and_added D us) cmp P0 clk shuffle e sv _ _ Hr Hs) as (F & [[ys e'] r] & H).
  assert (HV : V ++ flat_map uvars us1 <> []).
  { pose proof (d_vars _ _ _ _ _ _ (y_describes _ _ _ _ _ _ _ _ Hy)). destruct V; [contradiction|discriminate]. }
  pose proof (r_no_exception (and_added D us) cmp P0 clk shuffle F e sv _ _ ys e' r Hr Hs eq_refl HV (early_safe us1 us2 E) Hto Hli (early_dom us1 us2 E) (early_inhabited us1 us2 E) H) as ->.
  destruct (mapM_Forall2 (decode obj) ys) as (bs & Hm & _).
  { intros s Hin. destruct (r_sound (and_added D us) cmp P0 clk shuffle F e sv _ _ ys e' None Hr Hs eq_refl (early_safe us1 us2 E) (early_dom us1 us2 E) (early_inhabited us1 us2 E) H s Hin) as (_ & _ & H1 & H2).
    assert (Hg : good_solution P0 V C s) by (apply (good_early V C s us1); split; assumption).
    destruct (d_dec _ _ _ _ _ _ (y_describes _ _ _ _ _ _ _ _ Hy) s Hg) as (b & Eb & _). eauto. }
  exists F, ys, e', bs. auto.
Qed.

Lemma stage_watch shuffle e us1 us2 pol t l f stop bs e' r : shuffles shuffle -> us = us1 ++ us2 -> at_stage e us1 ->
  watch clk (decode obj) shuffle f stop e (GInit (new_solver pol t l cmp) no_args) = Some (bs, e', r) -> r = None /\ at_stage e' us1.
Proof.
  intros Hs E Hr H. split.
  - destruct (stage_loop shuffle e us1 us2 pol t l Hs E Hr) as (F & ys & e2 & bs2 & H2 & Hm).
    pose proof (watch_drain clk shuffle (decode obj) F 0 _ _ _ _ _ _ H2 Hm) as Hw. destruct stop as [n|].
    + pose proof (Hw F) as HF. unfold solve_all in H2. rewrite H2 in HF. destruct (watch_stop _ _ _ _ _ _ _ _ _ _ _ _ _ _ HF H) as (_ & -> & _). now destruct (Nat.leb _ _).
    + rewrite Hw in H. destruct (drain clk shuffle f passive 0 e _); [|discriminate]. congruence.
  - destruct (watch_compiles _ _ _ _ _ _ _ _ _ _ _ H) as (pre & post & E1 & E2). cbn [x_additional no_args] in E1. rewrite app_nil_r in E1.
    unfold at_stage. rewrite E2. exact (rbuilt_compiled _ cmp _ _ _ _ pre post Hr E1).
Qed.

Lemma play_stage : forall acts us1 e pol t l r, us = us1 ++ additions acts -> at_stage e us1 -> Forall shuffling acts ->
  play clk (decode obj) (new_solver pol t l cmp) e acts = Some r ->
  exists e', r = Ok (new_solver (last_policy pol acts) (last_timeout t acts) (last_limit l acts) cmp, e') /\ at_stage e' us.
Proof.
  induction acts as [|x acts IH]; intros us1 e pol t l r E Hr Hsh H.
  - injection H as <-. exists e. split; [reflexivity|]. rewrite E. cbn. now rewrite app_nil_r.
  - apply Forall_cons_iff in Hsh. destruct Hsh as [Hx Hsh]. destruct x as [u|t'|l'|p|shuffle f stop]; cbn [play] in H.
    + change (additions (AAdd u :: acts)) with (u :: additions acts) in E.
      destruct (user_radd D cmp us V (y_names _ _ _ _ _ _ _ _ Hy) Hus us1 u _ E (e_world e) _ Hr) as (w & Ew & Hw). rewrite Ew in H.
      apply (IH (us1 ++ [u]) (set_world e w) pol t l r); [now rewrite <- app_assoc| |exact Hsh|exact H].
      unfold at_stage. cbn [e_world set_world]. rewrite !flat_map_app. cbn [flat_map]. rewrite !app_nil_r, !app_assoc. exact Hw.
    + apply (IH us1 e pol t' l r E Hr Hsh H).
    + apply (IH us1 e pol t l' r E Hr Hsh H).
    + apply (IH us1 e p t l r E Hr Hsh H).
    + destruct (watch clk (decode obj) shuffle f stop e _) as [[[bs e'] r']|] eqn:Ew; [|discriminate].
      destruct (stage_watch _ _ _ _ _ _ _ _ _ _ _ _ Hx E Hr Ew) as [-> Hr']. exact (IH us1 e' pol t l r E Hr' Hsh H).
Qed.

Lemma stage_results shuffle e pol t l fuel : shuffles shuffle -> at_stage e us ->
  results clk (decode obj) shuffle fuel (new_solver pol t l cmp) e = iterate_run clk shuffle fuel decode (new_solver pol t l cmp) obj e.
Proof.
  intros Hs Hr. destruct (stage_loop shuffle e us [] pol t l Hs (eq_sym (app_nil_r us)) Hr) as (F & ys & e2 & bs2 & H2 & Hm).
  unfold results, iterate_run. rewrite (watch_drain clk shuffle (decode obj) F 0 _ _ _ _ _ _ H2 Hm fuel). fold (solve_all clk shuffle fuel e (new_solver pol t l cmp) no_args).
  destruct (solve_all clk shuffle fuel e (new_solver pol t l cmp) no_args) as [x|] eqn:Ex; [|reflexivity].
  pose proof (drain_det clk shuffle passive _ _ _ _ _ _ _ Ex H2) as ->. now rewrite Hm.
Qed.

Lemma stage_exactly shuffle e pol t l : shuffles shuffle -> at_stage e us ->
  exactly_firsts (fun fuel => results clk (decode obj) shuffle fuel (new_solver pol t l cmp) e) (also_with ok means us) t l.
Proof.
  intros Hs Hr. destruct (exactly_at clk shuffle init obj e V C decode ok means us pol t l cmp D Hy Hs Hus Hr) as (run' & G1 & G2).
  exists run'. split; [exact G1|]. intros fuel. rewrite <- G2. now apply stage_results.
Qed.

(** Another loop from the state that a loop has left. *)
Lemma stage_same shuffle e pol l f stop bs1 e1 ex f1 f2 bs r i bs' r' i' : shuffles shuffle -> at_stage e us ->
  let sv := Solver pol LNone l cmp in sv = new_solver pol LNone l cmp ->
  watch clk (decode obj) shuffle f stop e (GInit sv no_args) = Some (bs1, e1, ex) ->
  results clk (decode obj) shuffle f1 sv e = Some (bs, r, i) -> results clk (decode obj) shuffle f2 sv e1 = Some (bs', r', i') -> bs' = bs.
Proof.
  intros Hs Hr sv Esv Hw H1 H2.
  pose proof (stage_watch shuffle e us [] pol LNone l f stop bs1 e1 ex Hs (eq_sym (app_nil_r us)) Hr) as Hst. rewrite <- Esv in Hst. destruct (Hst Hw) as [_ Hr1].
  destruct (stage_loop shuffle e us [] pol LNone l Hs (eq_sym (app_nil_r us)) Hr) as (F & ys & e2 & bs2 & G & Gm). rewrite <- Esv in G.
  destruct (stage_loop shuffle e1 us [] pol LNone l Hs (eq_sym (app_nil_r us)) Hr1) as (F' & ys' & e2' & bs2' & G' & Gm'). rewrite <- Esv in G'.
  assert (Hww : e_world e1 = e_world e2).
  { pose proof (watch_drain clk shuffle (decode obj) F 0 _ _ _ _ _ _ G Gm F) as HF. unfold solve_all in G. rewrite G in HF.
    rewrite (watch_begins _ _ _ _ _ _ _ _ _ _ _ Hw), (watch_begins _ _ _ _ _ _ _ _ _ _ _ HF). reflexivity. }
  assert (Hv : valid shuffle e no_args) by exact (rbuilt_valid _ cmp P0 e _ _ shuffle Hr Hs).
  destruct (solve_again clk clk shuffle F F' e sv no_args ys ys' e2 e2' None None e1 Hv eq_refl G Hww G') as (_ & _ & -> & _).
  unfold results in H1, H2. rewrite (watch_drain clk shuffle (decode obj) F 0 _ _ _ _ _ _ G Gm f1) in H1. rewrite (watch_drain clk shuffle (decode obj) F' 0 _ _ _ _ _ _ G' Gm' f2) in H2.
  destruct (drain clk shuffle f1 passive 0 e (GInit sv no_args)); [|discriminate]. destruct (drain clk shuffle f2 passive 0 e1 (GInit sv no_args)); [|discriminate]. congruence.
Qed.

Lemma loops_same pol l : let sv := Solver pol LNone l cmp in sv = new_solver pol LNone l cmp -> pol <> RANDOM ->
  forall more e sv' e' shuffle shuffle' f f' bs r i bs' r' i', at_stage e us -> Forall is_loop more -> shuffles shuffle -> shuffles shuffle' ->
  results clk (decode obj) shuffle f sv e = Some (bs, r, i) ->
  play clk (decode obj) sv e more = Some (Ok (sv', e')) -> results clk (decode obj) shuffle' f' sv' e' = Some (bs', r', i') -> bs' = bs.
Proof.
  intros sv Esv Hp. induction more as [|x more IH]; intros e sv' e' shuffle shuffle' f f' bs r i bs' r' i' Hr Hm Hs Hs' H1 H2 H3.
  - injection H2 as <- <-. unfold results in H1, H3. rewrite (watch_shuffle clk _ shuffle' shuffle) in H3 by exact Hp.
    destruct (stage_loop shuffle e us [] pol LNone l Hs (eq_sym (app_nil_r us)) Hr) as (F & ys & e2 & bs2 & G & Gm). rewrite <- Esv in G.
    rewrite (watch_drain clk shuffle (decode obj) F 0 _ _ _ _ _ _ G Gm) in H1. rewrite (watch_drain clk shuffle (decode obj) F 0 _ _ _ _ _ _ G Gm) in H3.
    destruct (drain clk shuffle f passive 0 e (GInit sv no_args)); [|discriminate]. destruct (drain clk shuffle f' passive 0 e (GInit sv no_args)); [|discriminate]. congruence.
  - apply Forall_cons_iff in Hm. destruct Hm as [Hx Hm]. destruct x as [u|t'|l'|p|sh g stop]; try contradiction. cbn [play] in H2. cbn [is_loop] in Hx.
    destruct (watch clk (decode obj) sh g stop e (GInit sv no_args)) as [[[bs1 e1] ex]|] eqn:Ew; [|discriminate]. destruct ex as [ex|]; [discriminate|].
    pose proof (stage_watch sh e us [] pol LNone l g stop bs1 e1 None Hx (eq_sym (app_nil_r us)) Hr) as Hst. rewrite <- Esv in Hst. destruct (Hst Ew) as [_ Hr1].
    destruct (stage_loop sh e1 us [] pol LNone l Hx (eq_sym (app_nil_r us)) Hr1) as (F & ys & e2 & bs2 & G & Gm). rewrite <- Esv in G.
    assert (HF : results clk (decode obj) sh F sv e1 = Some (bs2, None, e_interrupt e2)).
    { unfold results. rewrite (watch_drain clk sh (decode obj) F 0 _ _ _ _ _ _ G Gm F). unfold solve_all in G. now rewrite G. }
    assert (H1' : results clk (decode obj) sh f sv e = Some (bs, r, i)) by (unfold results in *; now rewrite (watch_shuffle clk _ sh shuffle)).
    pose proof (stage_same sh e pol l g stop bs1 e1 None f F bs r i bs2 None (e_interrupt e2) Hx Hr Esv Ew H1' HF) as <-.
    exact (IH e1 sv' e' sh shuffle' F f' _ _ _ _ _ _ Hr1 Hm Hx Hs' HF H2 H3).
Qed.
End Program.

Lemma again_exactly {A B} clk (init : op A) (decode : A -> subst -> res B) pol t l cmp ok means D :
  is_ready init decode ok means D -> always_exact clk init decode pol t l cmp ok means D.
Proof.
  intros (obj & V & C & Hy). destruct (ready_start init obj V C decode ok means D [] cmp Hy) as (w & E & _).
  exists obj, (new_env w). split; [unfold construct; now rewrite E|]. intros acts r shuffle Hus Hsh Hs H.
  destruct (ready_start init obj V C decode ok means D (additions acts) cmp Hy) as (w' & E' & Hr). assert (w' = w) by congruence. subst w'.
  assert (H0 : at_stage V C D cmp (additions acts) (new_env w) []) by (unfold at_stage; cbn; now rewrite !app_nil_r).
  destruct (play_stage clk init obj V C decode ok means D cmp (additions acts) Hy Hus acts [] (new_env w) pol t l r eq_refl H0 Hsh H) as (e' & -> & Hr').
  eexists _, e'. split; [reflexivity|]. now apply (stage_exactly clk init obj V C decode ok means D).
Qed.

Lemma again_same {A B} clk (init : op A) (decode : A -> subst -> res B) pol t l cmp ok means D :
  is_ready init decode ok means D -> always_same clk init decode pol t l cmp D.
Proof.
  intros (obj & V & C & Hy) obj' e0 acts more sv e sv' e' shuffle shuffle' f bs r i f' bs' r' i' Ec Hus Hsh Hm Hs Hs' H Hp Ht H1 H2 H3.
  destruct (ready_start init obj V C decode ok means D (additions acts) cmp Hy) as (w & E & Hr).
  unfold construct in Ec. rewrite E in Ec. injection Ec as <- <-.
  assert (H0 : at_stage V C D cmp (additions acts) (new_env w) []) by (unfold at_stage; cbn; now rewrite !app_nil_r).
  destruct (play_stage clk init obj V C decode ok means D cmp (additions acts) Hy Hus acts [] (new_env w) pol t l _ eq_refl H0 Hsh H) as (e1 & E1 & Hr').
  injection E1 as -> ->. unfold new_solver in *. assert (Et : lim_setter (last_timeout t acts) = LNone) by (destruct Ht as [-> | ->]; reflexivity). rewrite Et in *.
  refine (loops_same clk init obj V C decode ok means D cmp (additions acts) Hy Hus (last_policy pol acts) (lim_setter (last_limit l acts)) _ Hp more e1 sv' e' shuffle shuffle' f f' bs r i bs' r' i' Hr' Hm Hs Hs' H1 H2 H3).
  unfold new_solver. cbn [lim_setter]. f_equal. destruct (last_limit l acts); reflexivity.
Qed.

(** ** Loops leave no traces *)
Definition alike (cmp : bool) (w w' : world) : Prop :=
  w_par w = w_par w' /\ w_npar w = w_npar w' /\ w_ncon w = w_ncon w' /\ w_model w = w_model w' /\
  (cmp = false -> forall id, w_code w id = w_code w' id).

Lemma add_obj_alike cmp w w' b : alike cmp w w' ->
  let r := add_constraint_obj (fst (new_constraint w b)) (snd (new_constraint w b)) in
  let r' := add_constraint_obj (fst (new_constraint w' b)) (snd (new_constraint w' b)) in
  alike cmp (fst r) (fst r') /\ snd r = snd r'.
Proof.
  destruct w as [p c np nc m], w' as [p' c' np' nc' m']. intros (H1 & H2 & H3 & H4 & H5). cbn [w_par w_npar w_ncon w_model w_code] in *. subst p' np' nc' m'.
  assert (Hc : cmp = false -> forall id, upd c nc None id = upd c' nc None id) by (intros E id; unfold upd; destruct (Nat.eqb id nc); [reflexivity|now apply H5]).
  assert (Hev : ceval (World p (upd c nc None) np (S nc) m) (Constraint nc b) [] = ceval (World p (upd c' nc None) np (S nc) m) (Constraint nc b) []).
  { unfold ceval. cbn [c_body c_id w_code w_par]. destruct b; try reflexivity. unfold upd. now rewrite Nat.eqb_refl. }
  unfold new_constraint. cbn [fst snd w_par w_npar w_ncon w_model w_code]. unfold add_constraint_obj. cbn [w_model].
  destruct (c_vars (Constraint nc b)) as [|x xs].
  - revert Hev. generalize (ceval (World p (upd c nc None) np (S nc) m) (Constraint nc b) []) as q.
    generalize (ceval (World p (upd c' nc None) np (S nc) m) (Constraint nc b) []) as q'. intros q' q ->. destruct q' as [[|]|ex]; cbn [forallb set_model w_par w_npar w_ncon w_model w_code fst snd]; (split; [|reflexivity]); repeat split; exact Hc.
  - destruct (forallb _ _); cbn [set_model w_par w_npar w_ncon w_model w_code fst snd]; (split; [|reflexivity]); repeat split; exact Hc.
Qed.

Lemma add_user_alike cmp u w w' : alike cmp w w' -> alike cmp (fst (add_user u w)) (fst (add_user u w')) /\ snd (add_user u w) = snd (add_user u w').
Proof.
  intros H. destruct u as [x d|f|xs]; cbn [add_user].
  - destruct w as [p c np nc m], w' as [p' c' np' nc' m']. destruct H as (H1 & H2 & H3 & H4 & H5). cbn [w_par w_npar w_ncon w_model w_code] in *. subst p' np' nc' m'.
    unfold op_bind, add_int_variable. destruct (has_dup d); [split; [now repeat split|reflexivity]|].
    cbn [w_model]. destruct (choose_name m "_v" (Some x)); (split; [now repeat split|reflexivity]).
  - unfold add_formula. destruct (build f) as [[n|e]|ex]; [| |split; [exact H|reflexivity]].
    + destruct (is_comparison f && of_ints f)%bool; [exact (add_obj_alike cmp w w' (CConst (truthy n)) H)|split; [exact H|reflexivity]].
    + exact (add_obj_alike cmp w w' (CExpr e) H).
  - exact (add_obj_alike cmp w w' (CAllDiff xs) H).
Qed.

Lemma compile_alike cmp w w' pre : alike cmp w w' -> alike cmp (compile_all cmp w pre) w'.
Proof.
  intros (H1 & H2 & H3 & H4 & H5). destruct cmp; [|now rewrite compile_all_false].
  assert (E : forall pre w, w_par (compile_all true w pre) = w_par w /\ w_npar (compile_all true w pre) = w_npar w /\
            w_ncon (compile_all true w pre) = w_ncon w /\ w_model (compile_all true w pre) = w_model w).
  { clear. induction pre as [|c pre IH]; intros w; [now repeat split|].
    change (c :: pre) with ([c] ++ pre). rewrite compile_all_app. destruct (IH (compile_all true w [c])) as (-> & -> & -> & ->).
    cbn. unfold ccompile. destruct (c_body c); now repeat split. }
  destruct (E pre w) as (E1 & E2 & E3 & E4). repeat split; congruence.
Qed.

Lemma play_alike {B} clk clk' (dec : subst -> res B) cmp : forall acts pol t l sv' e e' r r', alike cmp (e_world e) (e_world e') ->
  play clk dec (new_solver pol t l cmp) e acts = Some (Ok r) -> play clk' dec sv' e' (map AAdd (additions acts)) = Some (Ok r') ->
  fst r' = sv' /\ alike cmp (e_world (snd r)) (e_world (snd r')).
Proof.
  induction acts as [|x acts IH]; intros pol t l sv' e e' r r' Ha H H'.
  - cbn in H, H'. injection H as <-. injection H' as <-. split; [reflexivity|exact Ha].
  - destruct x as [u|t'|l'|p|shuffle f stop]; cbn [play] in H.
    + change (map AAdd (additions (AAdd u :: acts))) with (AAdd u :: map AAdd (additions acts)) in H'. cbn [play] in H'.
      destruct (add_user_alike cmp u _ _ Ha) as [Hw Er]. destruct (add_user u (e_world e)) as [w q]. destruct (add_user u (e_world e')) as [w' q']. cbn [fst snd] in *. subst q'.
      destruct q; [|discriminate]. eapply IH; [|exact H|exact H']. exact Hw.
    + exact (IH _ _ _ _ _ _ _ _ Ha H H').
    + exact (IH _ _ _ _ _ _ _ _ Ha H H').
    + exact (IH _ _ _ _ _ _ _ _ Ha H H').
    + destruct (watch clk dec shuffle f stop e _) as [[[bs e1] [ex|]]|] eqn:Ew; try discriminate.
      destruct (watch_compiles _ _ _ _ _ _ _ _ _ _ _ Ew) as (pre & post & _ & E2). cbn [s_compile new_solver] in E2.
      eapply IH; [|exact H|exact H']. rewrite E2. now apply compile_alike.
Qed.

Lemma again_fresh {A B} clk (init : op A) (decode : A -> subst -> res B) pol t l cmp ok means D :
  is_ready init decode ok means D -> always_fresh clk init decode pol t l cmp D.
Proof.
  intros (obj & V & C & Hy) obj' e0 acts sv e clk' sv' e' shuffle shuffle' f bs r i f' bs' r' i' Ec Hus Hsh Hs Hs' Hp Ht H H' H1 H2.
  destruct (ready_start init obj V C decode ok means D (additions acts) cmp Hy) as (w & E & Hr).
  unfold construct in Ec. rewrite E in Ec. injection Ec as <- <-.
  assert (H0 : at_stage V C D cmp (additions acts) (new_env w) []) by (unfold at_stage; cbn; now rewrite !app_nil_r).
  destruct (play_stage clk init obj V C decode ok means D cmp (additions acts) Hy Hus acts [] (new_env w) pol t l _ eq_refl H0 Hsh H) as (e1 & E1 & Hst).
  injection E1 as -> ->.
  assert (Ead : additions (map AAdd (additions acts)) = additions acts) by (clear; generalize (additions acts) as us; induction us as [|u us IH]; [reflexivity|]; change (u :: additions (map AAdd us) = u :: us); now rewrite IH).
  assert (Hst' : at_stage V C D cmp (additions acts) e' (additions acts)).
  { edestruct (play_stage clk' init obj V C decode ok means D cmp (additions acts) Hy Hus (map AAdd (additions acts)) [] (new_env w)) as (e2 & E2 & Hst2); [|exact H0| |exact H'|].
    - now rewrite Ead.
    - apply Forall_forall. intros x Hx. apply in_map_iff in Hx. destruct Hx as (u & <- & _). exact Logic.I.
    - injection E2 as _ ->. exact Hst2. }
  destruct (play_alike clk clk' (decode obj) cmp acts pol t l _ (new_env w) (new_env w) _ _ (conj eq_refl (conj eq_refl (conj eq_refl (conj eq_refl (fun _ _ => eq_refl))))) H H') as [Esv Ha].
  cbn [fst snd] in Esv, Ha. subst sv'. set (sv := new_solver _ _ _ _) in *.
  assert (Et : timeout_of sv no_args = LNone) by (cbn; destruct Ht as [-> | ->]; reflexivity).
  unfold results in H2. rewrite (watch_shuffle clk' _ shuffle' shuffle) in H2 by exact Hp.
  destruct (stage_loop clk init obj V C decode ok means D cmp (additions acts) Hy Hus shuffle e1 (additions acts) [] (last_policy pol acts) (last_timeout t acts) (last_limit l acts) Hs (eq_sym (app_nil_r _)) Hst) as (F & ys & ea & bs1 & G & Gm).
  destruct (stage_loop clk' init obj V C decode ok means D cmp (additions acts) Hy Hus shuffle e' (additions acts) [] (last_policy pol acts) (last_timeout t acts) (last_limit l acts) Hs (eq_sym (app_nil_r _)) Hst') as (F' & ys' & ea' & bs1' & G' & Gm').
  fold sv in G, G'. destruct Ha as (A1 & A2 & A3 & A4 & A5).
  destruct (deterministic clk clk' shuffle F F' e1 e' sv no_args ys ys' ea ea' None None) as (Eys & _ & Ei); auto.
  - exact (rbuilt_valid _ cmp P0 e1 _ _ shuffle Hst Hs).
  - exact (rbuilt_valid _ cmp P0 e' _ _ shuffle Hst' Hs).
  - subst ys'. unfold results in H1. rewrite (watch_drain clk shuffle (decode obj) F 0 _ _ _ _ _ _ G Gm) in H1. rewrite (watch_drain clk' shuffle (decode obj) F' 0 _ _ _ _ _ _ G' Gm') in H2.
    destruct (drain clk shuffle f passive 0 e1 (GInit sv no_args)); [|discriminate]. destruct (drain clk' shuffle f' passive 0 e' (GInit sv no_args)); [|discriminate].
    injection H1 as <- <- <-. injection H2 as <- <- <-. rewrite Gm in Gm'. injection Gm' as ->. auto.
Qed.
