(** Properties of [optimize] and [optimal_solution]. *)
From Coq Require Import Permutation.
From Verif Require Import Optimize SpecFormula SpecSafe SpecSolve SpecOptimize ExprFacts DictFacts ModelFacts
  CompileFacts CodeFacts SearchFacts LoopFacts EnumFacts SetupFacts SolveFacts MasterFacts SolverProps SolverMore
  TraceFacts OptimizeFacts OptimizeRun.
Open Scope list_scope.
Open Scope Z_scope.

Lemma holds_params ps ps' s c : (forall e p, c_body c = CExpr e -> In p (params e) -> ps p = ps' p) ->
  holds ps s c -> holds ps' s c.
Proof.
  intros H. unfold holds. destruct (c_body c) as [b|e|xs]; auto. intros (v & Hv & Hne). exists v. split; [|exact Hne].
  rewrite <- Hv. symmetry. apply evaluate_params. intros p Hp. now apply (H e).
Qed.

Lemma objects_code w w' cs : objects w cs -> (forall c, In c cs -> w_code w' (c_id c) = w_code w (c_id c)) -> objects w' cs.
Proof. intros [H1 H2] H. split; [exact H1|]. intros c e f Hc Hb Hf. rewrite H in Hf by assumption. eauto. Qed.

Lemma objects_prefix cmp w cs pre post : objects w cs -> cs = pre ++ post -> objects (compile_all cmp w pre) cs.
Proof.
  intros [Hid Hc] E. split; [exact Hid|]. intros c e0 f0 Hin Hb Hf.
  destruct (compile_all_code cmp pre w c e0) as [E1|(_ & c' & _ & _ & E1)]; try assumption.
  - intros c' Hc' Ei. apply Hid; try assumption. rewrite E. apply in_or_app. now left.
  - rewrite E1 in Hf. eapply Hc; eauto.
  - rewrite E1 in Hf. inversion Hf; subst. eauto.
Qed.

Lemma objects_incl w cs cs' : objects w cs -> incl cs' cs -> objects w cs'.
Proof. intros [H1 H2] H. split; [intros c c' Hc Hc'; apply H1; auto|]. intros c e f Hc. apply H2. auto. Qed.

Section Whole.
Variable clk : nat -> Z.
Variable shuffle : list name -> list name.
Variables (f : nat) (e : env) (sv : solver) (os : list oarg) (a : args).
Variables (ys : list subst) (e' : env) (r : option exn).
Let w0 := e_world e.
Let m := w_model w0.
Let sub := all_cons m a.
Let cmp := s_compile sv.
Let ps0 := w_par w0.
Hypothesis Hv : opt_valid shuffle e os a.
Hypothesis H : optimize_all clk shuffle f e sv os a = Some (ys, e', r).

Let Hs : shuffles shuffle := proj1 (proj1 Hv).
Let Hn : well_named m := proj1 (proj2 (proj1 Hv)).
Let Hd : domains_ok m := proj1 (proj2 (proj2 (proj1 Hv))).
Let Ho : objects w0 sub := proj2 (proj2 (proj2 (proj1 Hv))).
Let Hnum : numbered m := proj1 (proj2 Hv).
Let Hk : known w0 sub := proj1 (proj2 (proj2 Hv)).

Definition consumer_of (oms : list (objective * minmax)) : nat -> world -> subst -> res world :=
  fun _ w s => add_solutions oms w s.

Lemma opt_run :
  (In OOther os /\ ys = [] /\ r = Some ValueError /\ e_interrupt e' = e_interrupt e /\
     exists wA, make_constraints os w0 = (wA, Err ValueError) /\ e_world e' = wA) \/
  (exists wA oms, make_constraints os w0 = (wA, Ok oms) /\
     any_run clk shuffle (consumer_of oms) (set_world e wA) sv (with_objectives a oms) ys e' r).
Proof.
  unfold optimize_all in H. fold w0 in H. destruct (make_constraints os w0) as [wA [oms|ex]] eqn:Emk.
  - right. exists wA, oms. split; [reflexivity|].
    destruct (made_facts shuffle e os a Hv wA oms Emk) as (_ & HnA & _).
    apply (any_run_spec clk shuffle (consumer_of oms) f); [exact Hs|exact HnA| |exact H].
    exact (made_objects shuffle e os a Hv wA oms Emk).
  - left. injection H as <- <- <-.
    destruct (make_constraints_spec os w0 wA (Err ex) Hnum Emk) as (_ & _ & _ & -> & Hin).
    split; [exact Hin|]. repeat split. exists wA. auto.
Qed.

(** The loop case in detail. *)
Lemma opt_loop wA oms : make_constraints os w0 = (wA, Ok oms) ->
  any_run clk shuffle (consumer_of oms) (set_world e wA) sv (with_objectives a oms) ys e' r ->
  let w1 := compile_all cmp wA (all_cons (w_model wA) (with_objectives a oms)) in
  (ys = [] /\ e_interrupt e' = None /\
    (m_solvable m = false /\ r = None /\ e_world e' = wA \/
     m_solvable m = true /\ exists w u, do_setup cmp wA (x_additional a ++ map (fun p => mm_cons (snd p)) oms) = (w, u) /\ e_world e' = w /\
       match u with Ok _ => r = None /\ ~ has_variable m | Err ex => r = Some ex end)) \/
  (m_solvable m = true /\ has_variable m /\ exists u ys0 w' r0,
     let order := order_of shuffle sv (with_objectives a oms) (w_model wA) u in
     do_setup cmp wA (x_additional (with_objectives a oms)) = (w1, Ok u) /\
     search (GInfo (u_doms u) (u_cons u) (u_ad u)) (consumer_of oms) order 0 w1 [] = (ys0, w', r0) /\
     prefix ys ys0 /\ (exists ys', Inv e sv os a wA oms ys' (e_world e')) /\
     (e_interrupt e' = None -> r = None -> ys = ys0 /\ exists k, r0 = Ok k) /\
     (unlimited sv a -> e_interrupt e' = None /\ ys = ys0 /\ match r0 with Ok _ => r = None | Err ex => r = Some ex end)).
Proof.
  intros Emk [Hys Hi Hc|w u f' ys0 w' r0 Hsol Es Eo Hsearch Hdr Hpre Hfin] w1.
  - left. split; [exact Hys|]. split; [exact Hi|].
    destruct (made_facts shuffle e os a Hv wA oms Emk) as ((aux & Hx) & HnA & _).
    pose proof Hx as (Em & _). cbn [e_world set_world] in Hc. rewrite Em in Hc. cbn [m_solvable] in Hc.
    destruct Hc as [Hc|(Hsol & w & u & Es & Ew & Hu)]; [left; exact Hc|]. right. split; [exact Hsol|]. exists w, u.
    split; [exact Es|]. split; [exact Ew|]. destruct u as [u|ex]; [|exact Hu]. destruct Hu as [Hr Hord]. split; [exact Hr|].
    intros (x & d & Hx'). destruct (opt_setup shuffle e sv os a Hv wA oms Emk w u Es) as (_ & _ & _ & Hp & _).
    assert (Hin : In x (order_of shuffle sv (with_objectives a oms) (w_model wA) u)).
    { apply (Permutation_in x (Permutation_sym Hp)). apply pure_keys_In. exists d. apply (extends_variable w0 wA aux x d Hx). exact Hx'. }
    rewrite Em in Hin. fold m in Hin. unfold m, w0 in Hin. rewrite Hord in Hin. contradiction.
  - right. cbn [e_world set_world] in *.
    destruct (made_facts shuffle e os a Hv wA oms Emk) as ((aux & Hx) & HnA & _).
    destruct (opt_setup shuffle e sv os a Hv wA oms Emk w u Es) as (Ew & _ & _ & Hp & _).
    change (w = w1) in Ew. rewrite Ew in *. clear w Ew.
    pose proof Hx as (Em & _). assert (Hsol' : m_solvable m = true) by (rewrite Em in Hsol; exact Hsol).
    split; [exact Hsol'|]. split.
    { destruct (order_of shuffle sv (with_objectives a oms) (w_model wA) u) as [|x o]; [contradiction|].
      assert (Hin : In x (dkeys (pure_variables (m_vars (w_model wA))))) by (apply (Permutation_in x Hp); now left).
      apply pure_keys_In in Hin. destruct Hin as (d & Hin). exists x, d. now apply (extends_variable w0 wA aux x d Hx). }
    exists u, ys0, w', r0. cbv zeta. split; [exact Es|]. split; [exact Hsearch|]. split; [exact Hpre|]. split; [|split].
    + eapply (drain_invariant clk shuffle (consumer_of oms) (fun w => exists ys', Inv e sv os a wA oms ys' w) f' 0); [| | |exact Hdr].
      * intros k w s w2 (ys' & HI) Hc. exists (ys' ++ [s]). exact (Inv_step shuffle e sv os a Hv wA oms Emk k w s w2 ys' HI Hc).
      * discriminate.
      * exists []. exact (Inv_init shuffle e sv os a Hv wA oms Emk).
    + intros Hi Hr. destruct Hfin as [E1 E2 _ _ _ _ _|? ? ? E _ _ _|? ? ? E _ _|_ _ E _|_ _ E _]; try congruence.
      split; [exact E1|]. destruct r0; [eauto|congruence].
    + intros [Ht Hl].
      assert (Ht' : l_timeout (run_local (set_world e wA) sv (with_objectives a oms) u) = LNone) by exact Ht.
      assert (Hl' : l_limit (run_local (set_world e wA) sv (with_objectives a oms) u) = LNone) by exact Hl.
      destruct Hfin as [E1 E2 _ E3 _ _ _|? E _ _ _ _ _|? E _ _ _ _|E _ _ _|E _ _ _]; try congruence.
      split; [exact E3|]. split; [exact E1|]. destruct r0; exact E2.
Qed.

Lemma opt_unsolvable : m_solvable m = false -> ~ In OOther os -> ys = [] /\ r = None /\ e_interrupt e' = None.
Proof.
  intros Hsol Hoo. destruct opt_run as [(Hin & _)|(wA & oms & Emk & Hany)]; [contradiction|].
  destruct (opt_loop wA oms Emk Hany) as [(Hys & Hi & [(_ & Hr & _)|(C & _)])|(C & _)]; try congruence. auto.
Qed.

(** *** The final state *)

Definition final (w : world) (aux : dict vinfo) : Prop :=
  w_model w = Model (m_vars m ++ aux) (m_cons m) (m_solvable m) /\
  (forall x i, In (x, i) aux -> exists p, i = VPar p) /\ (length aux <= 2 * length os)%nat /\
  (forall p, (p < w_npar w0)%nat -> w_par w p = ps0 p) /\
  (w_npar w0 <= w_npar w)%nat /\ (w_ncon w0 <= w_ncon w)%nat /\ objects w sub /\
  numbered (w_model w) /\ well_named (w_model w).

Lemma final_made wA res : make_constraints os w0 = (wA, res) -> exists aux, final wA aux.
Proof.
  intros Emk. destruct (make_constraints_spec os w0 wA res Hnum Emk) as ((aux & Hx & Hlen) & Hnu & Hwn & _).
  destruct Hx as (E1 & E2 & E3 & E4 & E5 & E6). exists aux. split; [exact E1|]. split.
  { intros x i Hin. destruct (E2 x i Hin) as (p & -> & _). eauto. }
  split; [exact Hlen|]. split; [exact E5|]. split; [exact E3|]. split; [exact E4|]. split; [|split; [exact Hnu|now apply Hwn]].
  apply (objects_code w0); [exact Ho|]. intros c Hc. apply E6. now apply (Hk c Hc).
Qed.

Lemma opt_final : exists aux, final (e_world e') aux.
Proof.
  destruct opt_run as [(_ & _ & _ & _ & wA & Emk & ->)|(wA & oms & Emk & Hany)]; [eapply final_made; exact Emk|].
  destruct (final_made wA (Ok oms) Emk) as (aux & F). exists aux.
  pose proof F as (F1 & F2 & F3 & F4 & F5 & F6 & F7 & F8 & F9).
  pose proof (made_objects shuffle e os a Hv wA oms Emk) as HoA.
  pose proof (made_cons shuffle e os a Hv wA oms Emk) as Ecs.
  assert (Hincl : incl sub (all_cons (w_model wA) (with_objectives a oms))).
  { rewrite Ecs. intros c Hc. apply in_or_app. now left. }
  assert (Hpre : forall pre post, all_cons (w_model wA) (with_objectives a oms) = pre ++ post -> final (compile_all cmp wA pre) aux).
  { intros pre post E. unfold final. rewrite compile_all_model, compile_all_par.
    assert (Hnum' : forall cs w, w_npar (compile_all cmp w cs) = w_npar w /\ w_ncon (compile_all cmp w cs) = w_ncon w).
    { induction cs as [|c cs IH]; intros w; [split; reflexivity|]. cbn [compile_all fold_left]. fold (compile_all cmp (compile1 cmp w c) cs).
      destruct (IH (compile1 cmp w c)) as [-> ->]. unfold compile1, ccompile. destruct cmp, (c_body c); split; reflexivity. }
    destruct (Hnum' pre wA) as [-> ->].
    split; [exact F1|]. split; [exact F2|]. split; [exact F3|]. split; [exact F4|]. split; [exact F5|]. split; [exact F6|].
    split; [|split; [exact F8|exact F9]].
    apply (objects_incl _ (all_cons (w_model wA) (with_objectives a oms))); [|exact Hincl]. now apply (objects_prefix cmp wA _ pre post). }
  destruct (opt_loop wA oms Emk Hany) as [(_ & _ & [(_ & _ & ->)|(_ & w & u & Es & -> & _)])|(_ & _ & u & ys0 & w' & r0 & Es & _ & _ & (ys' & HI) & _)].
  - exact F.
  - destruct (do_setup_world cmp wA (x_additional (with_objectives a oms))) as (pre & post & E & Ew).
    cbn [x_additional with_objectives] in Ew. rewrite Es in Ew. cbn [fst] in Ew. subst w. now apply (Hpre pre post).
  - pose proof (Hpre _ [] (eq_sym (app_nil_r _))) as (G1 & G2 & G3 & G4 & G5 & G6 & G7 & G8 & G9).
    pose proof HI as ((I1 & I2 & I3 & I4 & I5) & Hold & _).
    unfold final. fold cmp in I1, I2, I3, I5. rewrite I1, I2, I3.
    split; [exact G1|]. split; [exact G2|]. split; [exact G3|]. split; [exact Hold|]. split; [exact G5|]. split; [exact G6|].
    split; [|split; [exact G8|exact G9]]. apply (objects_code _ _ _ G7). intros c Hc. apply I5. intros Hin.
    apply in_map_iff in Hin. destruct Hin as ((o & mm) & E & Hin). cbn in E.
    destruct (made_facts shuffle e os a Hv wA oms Emk) as (_ & _ & _ & M).
    pose proof (md_ids _ _ _ M o mm Hin). pose proof (proj1 (Hk c Hc)) as Hlt. fold w0 in H0. lia.
Qed.

(** *** C35 *)

Lemma opt_feasible s : In s ys -> solves (evaluates_true (e_world e')) m sub s.
Proof.
  intros Hin. destruct opt_run as [(_ & -> & _)|(wA & oms & Emk & Hany)]; [contradiction|].
  destruct (opt_loop wA oms Emk Hany) as [(-> & _)|(_ & _ & u & ys0 & w' & r0 & Es & Hsearch & Hpre & (ys' & HI) & _)]; [contradiction|].
  apply (solves_world (compile_all cmp wA (all_cons (w_model wA) (with_objectives a oms)))).
  { intros c Hc _. symmetry. exact (Inv_stable shuffle e sv os a Hv wA oms Emk ys' (e_world e') c s HI Hc). }
  destruct (opt_setup shuffle e sv os a Hv wA oms Emk _ u Es) as (_ & _ & _ & _ & Hnd & Hdoms).
  destruct (search_trace _ _ _ (Inv_step shuffle e sv os a Hv wA oms Emk) _ 0%nat _ [] _ _ _ [] Hnd Hdoms
             (Inv_init shuffle e sv os a Hv wA oms Emk) Hsearch) as [Ht _].
  apply (opt_sound shuffle e sv os a Hv wA oms Emk _ u Es s). apply Ht. eapply prefix_In; eauto.
Qed.

(** *** The mathematical meaning *)

Section Meaning.
Hypothesis Hf : faithful w0 cmp sub.
Hypothesis Hne : no_error ps0 m sub.

Lemma meaning wA oms s : make_constraints os w0 = (wA, Ok oms) ->
  let w1 := compile_all cmp wA (all_cons (w_model wA) (with_objectives a oms)) in
  (solves (evaluates_true w1) m sub s <-> solves (holds ps0) m sub s) /\ no_raise (ceval w1) m sub.
Proof.
  intros Emk w1. destruct (made_facts shuffle e os a Hv wA oms Emk) as ((aux & Hx) & _ & _ & _).
  destruct Hx as (_ & _ & _ & _ & Hpar & Hcode).
  destruct (made_objects shuffle e os a Hv wA oms Emk) as [HidA _]. destruct Ho as [Hid _].
  pose proof (made_cons shuffle e os a Hv wA oms Emk) as Ecs.
  assert (Hin1 : forall c, In c sub -> In c (all_cons (w_model wA) (with_objectives a oms))).
  { intros c Hc. rewrite Ecs. apply in_or_app. now left. }
  assert (Hag : forall c s, In c sub -> ceval w1 c s = ceval (compile_all cmp wA sub) c s).
  { intros c t Hc. apply compile_all_agree; auto. }
  assert (HfA : faithful wA cmp sub).
  { intros c ex Hc Hb. pose proof (Hf c ex Hc Hb) as H1. destruct cmp; [exact H1|]. rewrite Hcode; [exact H1|now apply (Hk c Hc)]. }
  assert (Hpp : forall c ex p, In c sub -> c_body c = CExpr ex -> In p (params ex) -> w_par wA p = ps0 p).
  { intros c ex p Hc Hb Hp. apply Hpar. now apply (proj2 (Hk c Hc) ex). }
  assert (HneA : no_error (w_par wA) m sub).
  { intros c ex t Hc Hb Hcc Ht Hm. destruct (Hne c ex t Hc Hb Hcc Ht Hm) as (v & E). exists v. rewrite <- E.
    apply evaluate_params. intros p Hp. eapply Hpp; eauto. }
  split.
  - pose proof (solves_holds wA cmp sub m s Hid HfA HneA) as Hiff. split.
    + intros Hsol. apply (solves_world w1 (compile_all cmp wA sub)) in Hsol; [|intros c Hc _; now apply Hag].
      apply Hiff in Hsol. destruct Hsol as [Ha Hc]. split; [exact Ha|]. intros c Hin Hcc. specialize (Hc c Hin Hcc).
      revert Hc. apply holds_params. intros ex p Hb Hp. eapply Hpp; eauto.
    + intros [Ha Hc]. apply (solves_world (compile_all cmp wA sub) w1); [intros c Hin _; symmetry; now apply Hag|].
      apply Hiff. split; [exact Ha|]. intros c Hin Hcc. specialize (Hc c Hin Hcc).
      revert Hc. apply holds_params. intros ex p Hb Hp. symmetry. eapply Hpp; eauto.
  - intros c t Hc Hcc Ht Hm. destruct (holds_iff wA cmp sub m c t Hid HfA HneA Hc Hcc Ht Hm) as (b & Hb & _).
    exists b. now rewrite Hag.
Qed.

Lemma opt_feasible_holds s : In s ys -> solves (holds ps0) m sub s.
Proof.
  intros Hin. destruct opt_run as [(_ & -> & _)|(wA & oms & Emk & Hany)]; [contradiction|].
  apply (meaning wA oms s Emk).
  destruct (opt_loop wA oms Emk Hany) as [(-> & _)|(_ & _ & u & ys0 & w' & r0 & Es & Hsearch & Hpre & (ys' & HI) & _)]; [contradiction|].
  pose proof (opt_feasible s Hin) as Hsol. revert Hsol. apply solves_world.
  intros c Hc _. exact (Inv_stable shuffle e sv os a Hv wA oms Emk ys' (e_world e') c s HI Hc).
Qed.

(** *** C37 *)

Hypothesis Hof : objective_faithful cmp os.

Lemma opt_covers t : r = None -> e_interrupt e' = None -> m_solvable m = true -> has_variable m ->
  solves (holds ps0) m sub t -> (forall o, In (OObj o) os -> exists v, value_of ps0 o t v) ->
  (exists s, In s ys /\ same_dict s t) \/
  (exists s o v v', In s ys /\ In (OObj o) os /\ value_of ps0 o t v /\ value_of ps0 o s v' /\ ~ better o v v').
Proof.
  intros Hr Hi Hsol Hhv Ht Hval. destruct opt_run as [(_ & _ & E & _)|(wA & oms & Emk & Hany)]; [congruence|].
  destruct (opt_loop wA oms Emk Hany) as [(_ & _ & [(E & _)|(_ & w & [u|ex] & Es & _ & Hu)])|(_ & _ & u & ys0 & w' & r0 & Es & Hsearch & Hpre & _ & Hend & _)].
  - congruence.
  - destruct Hu as [_ Hu]. contradiction.
  - congruence.
  - destruct (Hend Hi Hr) as [<- (k & ->)].
    apply (opt_complete shuffle e sv os a Hv wA oms Emk _ u Es ys w' k t Hsearch Hof); [|exact Hval].
    now apply (meaning wA oms t Emk).
Qed.

Lemma opt_values y o : r = None -> e_interrupt e' = None -> In y ys -> In (OObj o) os -> exists v, value_of ps0 o y v.
Proof.
  intros Hr Hi Hy Hin. destruct opt_run as [(_ & _ & E & _)|(wA & oms & Emk & Hany)]; [congruence|].
  destruct (opt_loop wA oms Emk Hany) as [(-> & _)|(_ & _ & u & ys0 & w' & r0 & Es & Hsearch & Hpre & _ & Hend & _)]; [contradiction|].
  destruct (Hend Hi Hr) as [<- (k & ->)].
  destruct (opt_setup shuffle e sv os a Hv wA oms Emk _ u Es) as (_ & _ & _ & _ & Hnd & Hdoms).
  destruct (search_trace _ _ _ (Inv_step shuffle e sv os a Hv wA oms Emk) _ 0%nat _ [] _ _ _ [] Hnd Hdoms
             (Inv_init shuffle e sv os a Hv wA oms Emk) Hsearch) as (_ & HI & _).
  destruct HI as (_ & _ & _ & _ & HI). exact (HI y o Hy Hin).
Qed.

(** The best of the solutions found is the best solution. *)
Lemma opt_best o : os = [OObj o] -> r = None -> e_interrupt e' = None -> m_solvable m = true -> has_variable m ->
  forall s, best ps0 o (fun y => In y ys) s -> best ps0 o (solves (holds ps0) m sub) s.
Proof.
  intros Eos Hr Hi Hsol Hhv s (Hin & v & Hval & Hb). split; [now apply opt_feasible_holds|]. exists v. split; [exact Hval|].
  intros t u Ht Hu.
  destruct (opt_covers t Hr Hi Hsol Hhv Ht) as [(s' & Hs' & Hsame)|(s' & o' & v1 & v2 & Hs' & Ho' & H1 & H2 & Hnb)].
  - intros o' Ho'. rewrite Eos in Ho'. destruct Ho' as [E|[]]. injection E as <-. eauto.
  - apply (Hb s' u Hs'). unfold value_of. rewrite (evaluate_agree ps0 s' t); [exact Hu|]. intros x _. apply Hsame.
  - rewrite Eos in Ho'. destruct Ho' as [E|[]]. injection E as <-.
    assert (v1 = u) by (unfold value_of in *; congruence). subst v1.
    specialize (Hb s' v2 Hs' H2). unfold better in *. destruct (o_max o); lia.
Qed.

Lemma opt_best_exists o : os = [OObj o] -> r = None -> e_interrupt e' = None -> ys <> [] ->
  exists s, best ps0 o (fun y => In y ys) s.
Proof.
  intros Eos Hr Hi Hne'.
  assert (Hall : forall y, In y ys -> exists v, value_of ps0 o y v).
  { intros y Hy. apply opt_values; auto. rewrite Eos. now left. }
  clear - Hall Hne'. induction ys as [|y l IH]; [contradiction|]. clear Hne'.
  destruct (Hall y (or_introl eq_refl)) as (v & Hv).
  destruct l as [|z l].
  - exists y. split; [now left|]. exists v. split; [exact Hv|]. intros t w [<-|[]] Hw. unfold value_of in *.
    assert (v = w) by congruence. subst. unfold better. destruct (o_max o); lia.
  - destruct IH as (s & Hs & u & Hu & Hb); [discriminate|intros t Ht; apply Hall; now right|].
    assert (Hdec : better o v u \/ ~ better o v u) by (unfold better; destruct (o_max o); lia).
    destruct Hdec as [Hbt|Hnb].
    + exists y. split; [now left|]. exists v. split; [exact Hv|]. intros t w [<-|Ht] Hw.
      * unfold value_of in *. assert (v = w) by congruence. subst. unfold better. destruct (o_max o); lia.
      * specialize (Hb t w Ht Hw). unfold better in *. destruct (o_max o); lia.
    + exists s. split; [now right|]. exists u. split; [exact Hu|]. intros t w [<-|Ht] Hw; [|now apply (Hb t)].
      unfold value_of in *. assert (v = w) by congruence. now subst.
Qed.

(** *** C38: no exception *)

Lemma opt_setup_ok wA oms w ex : make_constraints os w0 = (wA, Ok oms) -> groups_ok m sub -> objectives_total m ps0 os ->
  do_setup cmp wA (x_additional (with_objectives a oms)) <> (w, Err ex).
Proof.
  intros Emk Hg Htot Es. destruct (meaning wA oms [] Emk) as [_ Hnr].
  destruct (made_facts shuffle e os a Hv wA oms Emk) as ((aux & Hx) & HnA & Eos & _).
  assert (Hvar : forall x d, is_variable (w_model wA) x d <-> is_variable m x d) by (intros x d; exact (extends_variable w0 wA aux x d Hx)).
  pose proof (made_cons shuffle e os a Hv wA oms Emk) as Ecs.
  destruct (do_setup_err cmp wA (x_additional (with_objectives a oms)) w ex HnA (made_objects shuffle e os a Hv wA oms Emk) Es)
    as [(_ & c & s & Hc & Hcc & Hdm & Hm & Hce)|(Hng & _)].
  + change (m_cons (w_model wA) ++ x_additional (with_objectives a oms)) with (all_cons (w_model wA) (with_objectives a oms)) in Hc, Hce.
    assert (Hdm' : forall x v, In (x, v) s -> exists d, is_variable m x d /\ In v d).
    { intros x v Hin. destruct (Hdm x v Hin) as (d & H1 & H2). exists d. split; [now apply Hvar|exact H2]. }
    rewrite Ecs in Hc. apply in_app_or in Hc. destruct Hc as [Hc|Hc].
    * destruct (Hnr c s Hc) as (b & Hb); [now apply (same_variables_concerns m (w_model wA))|exact Hdm'|exact Hm|congruence].
    * apply (oc_In oms) in Hc. destruct Hc as (o & mm & Hom & ->).
      destruct (Htot o (oms_In shuffle e os a Hv wA oms Emk o mm Hom)) as [_ Ht].
      destruct (Ht s Hdm') as (v & Hval).
      { intros x Hx'. apply Hm. apply mentions_vars. now apply (oc_vars shuffle e os a Hv wA oms Emk o mm x Hom). }
      pose proof (Inv_objective shuffle e sv os a Hv wA oms Emk [] _ o mm s v (Inv_init shuffle e sv os a Hv wA oms Emk) Hom Hof Hval) as Hco.
      fold cmp in Hco. congruence.
  + apply Hng. intros c xs Hc Hb. apply (same_variables_concerns m (w_model wA) c Hvar).
    change (m_cons (w_model wA) ++ x_additional (with_objectives a oms)) with (all_cons (w_model wA) (with_objectives a oms)) in Hc.
    rewrite Ecs in Hc. apply in_app_or in Hc. destruct Hc as [Hc|Hc]; [now apply (Hg c xs)|].
    apply (oc_In oms) in Hc. destruct Hc as (o & mm & Hom & ->). rewrite (oc_expr shuffle e os a Hv wA oms Emk o mm Hom) in Hb. discriminate.
Qed.

Lemma opt_ends : ~ In OOther os -> groups_ok m sub -> objectives_total m ps0 os ->
  timeout_of sv a <> LInfinity -> limit_of sv a <> LInfinity ->
  r = None /\
  (e_interrupt e' = Some ILimit -> exists n, limit_of sv a = LNum n /\ ys <> [] /\ n <= len ys) /\
  (e_interrupt e' = Some ITimeout -> exists t, timeout_of sv a = LNum t).
Proof.
  intros Hoo Hg Htot Ht Hl. destruct opt_run as [(Hin & _)|(wA & oms & Emk & Hany)]; [contradiction|].
  destruct (meaning wA oms [] Emk) as [_ Hnr].
  destruct Hany as [Hys Hi Hc|w u f' ys0 w' r0 Hsol Es Eo Hsearch Hdr Hpre Hfin].
  - split; [|split; intros E; congruence]. destruct Hc as [(_ & Hr & _)|(_ & w & [u|ex] & Es & _ & Hu)]; [exact Hr|now destruct Hu|].
    exfalso. exact (opt_setup_ok wA oms w ex Emk Hg Htot Es).
  - destruct (opt_setup shuffle e sv os a Hv wA oms Emk w u Es) as (Ew & _). rewrite Ew in Hsearch, Es.
    assert (Hok : match r0 with Ok _ => None | Err ex => Some ex end = None).
    { destruct r0 as [k|ex]; [reflexivity|]. exfalso.
      exact (opt_no_error shuffle e sv os a Hv wA oms Emk _ u Es ys0 w' ex Hsearch Hof Htot Hnr). }
    destruct Hfin as [E1 E2 _ E3 _ _ _|k E1 E2 E3 E4 E5 _|t E1 E2 E3 _ _|E _ _ _|E _ _ _].
    + rewrite Hok in E2. split; [exact E2|]. cbn in E3. split; intros E; congruence.
    + split; [exact E2|]. split; [|intros E; congruence]. intros _. exists k. split; [exact E1|]. split; [exact E4|lia].
    + split; [exact E2|]. split; [intros E; congruence|]. intros _. exists t. exact E1.
    + contradiction.
    + contradiction.
Qed.

Lemma opt_ok : ~ In OOther os -> unlimited sv a -> groups_ok m sub -> objectives_total m ps0 os ->
  r = None /\ e_interrupt e' = None.
Proof.
  intros Hoo [Ht Hl] Hg Htot. destruct (opt_ends Hoo Hg Htot) as (Hr & H1 & H2); [congruence|congruence|].
  split; [exact Hr|]. destruct (e_interrupt e') as [[|]|]; [destruct (H1 eq_refl) as (n & E & _)|destruct (H2 eq_refl) as (n & E)|reflexivity]; congruence.
Qed.

End Meaning.

(** *** C39 *)

Lemma prefix_chain {A} (R : A -> A -> Prop) l l' : prefix l l' -> chain R l' -> chain R l.
Proof.
  intros (z & ->). induction l as [|x l IH]; [intros; exact I|]. destruct l as [|y l]; [intros; exact I|].
  cbn [app]. intros [H1 H2]. split; [exact H1|]. now apply IH.
Qed.

Lemma opt_chained o (ok : Z -> Z -> Prop) :
  objective_faithful cmp os -> In (OObj o) os ->
  (exists x, occurs x (o_expr o)) ->
  (two o \/ exists x, (forall z, occurs z (o_expr o) -> z = x) /\ forall s, In s ys -> exists v l, s = (x, v) :: l) ->
  (forall p q, better o p q -> ok p q) ->
  (forall s x d v v' p q,
     (forall y t, In (y, t) s -> exists dy, is_variable m y dy /\ In t dy) ->
     is_variable m x d -> occurs x (o_expr o) -> before d v v' ->
     value_of ps0 o ((x, v) :: s) p -> value_of ps0 o ((x, v') :: s) q -> ok q p) ->
  ((forall p, ok p p) \/ (forall x d, is_variable m x d -> occurs x (o_expr o))) ->
  chain (fun s s' => forall p q, value_of ps0 o s p -> value_of ps0 o s' q -> ok q p) ys.
Proof.
  intros Hof Hin Hsome Htwo Hb Hal Heq. destruct opt_run as [(_ & -> & _)|(wA & oms & Emk & Hany)]; [exact I|].
  destruct (opt_loop wA oms Emk Hany) as [(-> & _)|(_ & _ & u & ys0 & w' & r0 & Es & Hsearch & Hpre & _)]; [exact I|].
  destruct (opt_setup shuffle e sv os a Hv wA oms Emk _ u Es) as (_ & _ & _ & Hp & Hnd & Hdoms).
  destruct (made_facts shuffle e os a Hv wA oms Emk) as ((aux & Hx) & HnA & Eos & _).
  assert (Hom : exists mm, In (o, mm) oms).
  { rewrite Eos in Hin. apply in_map_iff in Hin. destruct Hin as ((o' & mm) & E & Hin). injection E as ->. eauto. }
  destruct Hom as (mm & Hom).
  assert (Hcase : ys = [] \/ two o \/ leads o (order_of shuffle sv (with_objectives a oms) (w_model wA) u)).
  { destruct Htwo as [|(x & Hz & Hkeys)]; [auto|]. destruct ys as [|s l] eqn:Ey; [auto|]. right. right.
    destruct (Hkeys s (or_introl eq_refl)) as (v & q & E). exists x, (map fst q). split; [|exact Hz].
    destruct Hpre as (zs & Epre). subst ys0.
    destruct (search_extends oms u _ 0%nat _ [] _ _ _ Hnd Hdoms Hsearch s (or_introl eq_refl)) as (l' & E' & El').
    rewrite <- El'. cbn in E'. rewrite <- E', E. reflexivity. }
  destruct Hcase as [->|Hcase]; [exact I|].
  eapply prefix_chain; [exact Hpre|].
  refine (opt_chain shuffle e sv os a Hv wA oms Emk _ u Es o mm Hom Hof Hsome Hcase ok Hb Hal _ ys0 w' r0 Hsearch).
  destruct Heq as [Heq|Heq]; [left; exact Heq|right]. intros x Hxo.
  assert (Hpk : In x (dkeys (pure_variables (m_vars (w_model wA))))) by (apply (Permutation_in x Hp); exact Hxo).
  apply pure_keys_In in Hpk. destruct Hpk as (d & Hd'). apply (Heq x d). now apply (extends_variable w0 wA aux x d Hx).
Qed.

End Whole.
