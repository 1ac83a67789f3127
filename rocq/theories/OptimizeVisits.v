(** The order of the variables of an optimisation. *)
From Coq Require Import Permutation.
From Verif Require Import Optimize SolverWatch OptimizeWatch SpecFormula SpecSafe SpecSolve SpecOrder SpecSpace SpecWatch SpecOptimize ExprFacts DictFacts ModelFacts
  CompileFacts CodeFacts SearchFacts LoopFacts EnumFacts SetupFacts SolveFacts MasterFacts SolverProps SolverMore
  OrderFacts TraceFacts OptimizeFacts OptimizeRun OptimizeSingle OptimizeProps WatchFacts WatchProps SpecBound BoundFacts OptimizeOrder.
Open Scope list_scope.
Open Scope Z_scope.

Lemma dget_app {A} (d d' : dict A) x : dget (d ++ d') x = match dget d x with Some v => Some v | None => dget d' x end.
Proof. induction d as [|[y v] d IH]; [reflexivity|]. cbn. destruct (String.eqb x y); [reflexivity|exact IH]. Qed.

Lemma extends_declared w w' aux x : extends w w' aux -> declared (w_model w') x = declared (w_model w) x.
Proof.
  intros (E & Haux & _). unfold declared. rewrite E. cbn [m_vars]. rewrite dget_app.
  destruct (dget (m_vars (w_model w)) x); [reflexivity|].
  destruct (dget aux x) as [i|] eqn:Ei; [|reflexivity]. apply dget_In in Ei. now destruct (Haux _ _ Ei) as (p & -> & _).
Qed.

Lemma sorts_ext {K} (lt : K -> K -> Prop) k k' names order : (forall x, k x = k' x) -> sorts lt k names order -> sorts lt k' names order.
Proof. intros E [Hp H]. split; [exact Hp|]. intros x y Hc. rewrite <- !E. now apply H. Qed.

Lemma visits_same shuffle p m m' cs order : variables_of m' = variables_of m -> (forall x, domain_size m' x = domain_size m x) ->
  visits shuffle p m' cs order -> visits shuffle p m cs order.
Proof.
  intros Ev Ed. unfold visits. rewrite Ev. destruct p; auto.
  - intros (key & Hk & Hs). exists key. split; [|exact Hs]. intros x Hx. specialize (Hk x Hx). unfold group_key in *.
    destruct (key x) as [[g b] d]. now rewrite <- Ed.
  - apply sorts_ext. exact Ed.
  - apply sorts_ext. exact Ed.
Qed.

Lemma optimize_visits clk shuffle f e sv os a ys e' r :
  let m := w_model (e_world e) in
  opt_valid shuffle e os a -> optimize_all clk shuffle f e sv os a = Some (ys, e', r) -> ys <> [] ->
  exists ocs, Forall2 bounds_objective ocs os /\
    forall s, In s ys -> visits shuffle (policy_of sv a) m (all_cons m a ++ ocs) (map fst s).
Proof.
  intros m Hv H Hne.
  destruct (opt_run clk shuffle f e sv os a ys e' r Hv H) as [(_ & E & _)|(wA & oms & Emk & Hany)]; [congruence|].
  destruct (opt_loop clk shuffle e sv os a ys e' r Hv wA oms Emk Hany) as [(E & _)|(_ & _ & u & ys0 & w' & r0 & Es & Hsearch & Hpre & _)]; [congruence|].
  set (aA := with_objectives a oms) in *.
  destruct (made_facts shuffle e os a Hv wA oms Emk) as ((aux & Hx) & HnA & Eos & M).
  destruct (opt_setup shuffle e sv os a Hv wA oms Emk _ u Es) as (Ew & Hu & Hg & Hpm & Hnd & Hin).
  fold aA in Ew, Hu, Hg, Hpm, Hnd, Hin.
  set (order := order_of shuffle sv aA (w_model wA) u) in *.
  set (i := GInfo (u_doms u) (u_cons u) (u_ad u)) in *.
  exists (map (fun p => mm_cons (snd p)) oms). split.
  - assert (Hall : forall o mm, In (o, mm) oms -> bounds_objective (mm_cons mm) (OObj o)).
    { intros o mm Ho. exists o. split; [reflexivity|]. split.
      - intros (xs & E). now rewrite (oc_expr shuffle e os a Hv wA oms Emk o mm Ho) in E.
      - intros x. rewrite mentions_vars. exact (oc_vars shuffle e os a Hv wA oms Emk o mm x Ho). }
    rewrite Eos. clear - Hall. induction oms as [|[o mm] l IH]; cbn [map fst snd]; constructor.
    + apply Hall. now left.
    + apply IH. intros o' mm' Ho. apply Hall. now right.
  - intros s Hsi.
    assert (Hsub : subseq ys (enum wA (bare i) order [])).
    { apply (subseq_trans ys0); [exact (search_subseq _ _ wA _ _ _ _ _ _ _ Hsearch)|now apply prefix_subseq]. }
    apply (subseq_In _ _ _ Hsub) in Hsi. apply (enum_In wA (bare i) order [] s Hnd) in Hsi.
    destruct Hsi as (l & -> & E & _). cbn [app]. rewrite E.
    destruct (do_setup_keys _ _ _ _ _ Es) as [K1 K2].
    assert (Evs : variables_of (w_model wA) = variables_of m).
    { rewrite <- variables_of_pure. destruct Hx as (Em & Haux & _). rewrite Em. cbn [m_vars]. rewrite pure_aux; [apply variables_of_pure|].
      intros x j Hj. destruct (Haux x j Hj) as (p & -> & _). eauto. }
    apply (visits_same shuffle _ m (w_model wA)); [exact Evs|intros x; unfold domain_size; now rewrite (extends_declared _ _ _ x Hx)|].
    assert (Ecs : m_cons (w_model wA) ++ x_additional aA = all_cons m a ++ map (fun p => mm_cons (snd p)) oms).
    { exact (made_cons shuffle e os a Hv wA oms Emk). }
    rewrite <- Ecs. unfold order, order_of. now apply select_visits.
Qed.
