(** Lemmas behind Properties_Bound.v. *)
From Coq Require Import Permutation.
From Verif Require Import Optimize SolverWatch OptimizeWatch SpecFormula SpecSafe SpecSolve SpecWatch SpecOptimize
  ExprFacts DictFacts ModelFacts CompileFacts CodeFacts SearchFacts LoopFacts EnumFacts SetupFacts SolveFacts MasterFacts
  SolverProps SolverMore TraceFacts OptimizeFacts OptimizeRun OptimizeSingle WatchFacts WatchProps BoundFacts SpecBound.
Open Scope list_scope.
Open Scope Z_scope.

Lemma consistent_moved w w' m m' cs s : (forall x d, is_variable m' x d <-> is_variable m x d) ->
  (forall c, In c cs -> ceval w' c s = ceval w c s) -> consistent w m cs s -> consistent w' m' cs s.
Proof.
  intros Hv Hc (H1 & H2 & H3). split; [|split; [|exact H3]].
  - intros x v Hin. destruct (H1 x v Hin) as (d & Hd & Hvd). exists d. split; [now apply Hv|exact Hvd].
  - intros c Hin Hcon Hm. unfold evaluates_true. rewrite (Hc c Hin). apply (H2 c Hin); [|exact Hm].
    now apply (same_variables_concerns m m' c Hv).
Qed.

Lemma last_solution_split ys y : last_solution ys = Some y -> exists l, ys = l ++ [y].
Proof.
  intros H. destruct ys as [|z ys] using rev_ind; [discriminate|]. rewrite last_solution_snoc in H.
  injection H as ->. eauto.
Qed.

Section Bounding.
Variable clk : nat -> Z.
Variable shuffle : list name -> list name.

Lemma observed_same f e sv os a :
  optimize_all clk shuffle f e sv os a =
  match optimize_watched clk shuffle f e sv os a with Some (vs, e', r) => Some (found vs, e', r) | None => None end.
Proof.
  unfold optimize_all, optimize_watched. destruct (make_constraints os (e_world e)) as [w [oms|ex]]; [|reflexivity].
  apply observe_drain.
Qed.

Variables (f : nat) (e : env) (sv : solver) (os : list oarg) (a : args).
Variables (vs : list visit) (e' : env) (r : option exn).
Let w0 := e_world e.
Let m := w_model w0.
Let sub := all_cons m a.
Let cmp := s_compile sv.
Let ps0 := w_par w0.
Hypothesis Hv : opt_valid shuffle e os a.
Hypothesis H : optimize_watched clk shuffle f e sv os a = Some (vs, e', r).
Hypothesis Hf : objective_faithful cmp os.

Let Hs : shuffles shuffle := proj1 (proj1 Hv).
Let Hn : well_named m := proj1 (proj2 (proj1 Hv)).
Let Hd : domains_ok m := proj1 (proj2 (proj2 (proj1 Hv))).
Let Hk : known w0 sub := proj1 (proj2 (proj2 Hv)).

Definition bounded (order : list name) : Prop :=
  Permutation order (variables_of m) /\
  (policy_of sv a = ORDERED -> order = variables_of m) /\
  (policy_of sv a = REVERSED -> order = rev (variables_of m)) /\
  (policy_of sv a = RANDOM -> order = shuffle (variables_of m)) /\
  (forall t, In t (tried vs) -> starts order t) /\
  (forall t, In t (found vs) -> map fst t = order) /\
  NoDup (tried vs) /\ ForallOrdPairs (depth_first order (declared m)) (tried vs) /\
  (forall pre v post t, vs = pre ++ v :: post -> v = Extends t \/ v = Finds t ->
     consistent (e_world e') m sub t /\ reached ps0 os pre t) /\
  (r = None -> e_interrupt e' = None -> m_solvable m = true -> objectives_total m ps0 os ->
   forall t, consistent (e_world e') m sub t -> reached ps0 os vs t ->
   (starts order t -> In t (tried vs)) /\ (t <> [] -> map fst t = order -> In t (found vs))).

Lemma bounded_nothing : vs = [] -> (r <> None \/ m_solvable m = false \/ ~ has_variable m) -> exists order, bounded order.
Proof.
  intros Evs Hno.
  exists (match policy_of sv a with REVERSED => rev (variables_of m) | RANDOM => shuffle (variables_of m) | _ => variables_of m end).
  assert (Hperm : Permutation (match policy_of sv a with REVERSED => rev (variables_of m)
     | RANDOM => shuffle (variables_of m) | _ => variables_of m end) (variables_of m)).
  { destruct (policy_of sv a); try apply Permutation_refl; try apply Hs; symmetry; apply Permutation_rev. }
  unfold bounded. rewrite Evs.
  split; [exact Hperm|]. split; [now intros ->|]. split; [now intros ->|]. split; [now intros ->|].
  split; [intros t []|]. split; [intros t []|]. split; [constructor|]. split; [constructor|]. split.
  { intros pre v post t E. destruct pre; discriminate. }
  intros Hr _ Hsol _ t _ _.
  assert (Hnv : forall x, ~ In x (variables_of m)).
  { intros x Hin. destruct Hno as [Hno|[Hno|Hno]]; [contradiction|congruence|]. apply Hno.
    apply variables_of_In in Hin. destruct Hin as (d & Hin). now exists x, d. }
  split.
  - intros (x & q & Hx). exfalso. apply (Hnv x). eapply Permutation_in; [exact Hperm|]. rewrite Hx. apply in_or_app. right. now left.
  - intros Ht E. exfalso. destruct t as [|[x v] t]; [contradiction|]. apply (Hnv x). eapply Permutation_in; [exact Hperm|].
    rewrite <- E. now left.
Qed.

Lemma bounding : exists order, bounded order.
Proof.
  pose proof H as H'. unfold optimize_watched in H'. fold w0 in H'.
  destruct (make_constraints os w0) as [wA [oms|ex]] eqn:Emk.
  2:{ injection H' as E1 _ E3. apply bounded_nothing; [auto|]. left. rewrite <- E3. discriminate. }
  set (aA := with_objectives a oms) in *.
  destruct (made_facts shuffle e os a Hv wA oms Emk) as ((aux & Hx) & HnA & Eos & M).
  pose proof Hx as (Em & Haux & _).
  assert (HoA : objects wA (all_cons (w_model wA) aA)) by exact (made_objects shuffle e os a Hv wA oms Emk).
  assert (Hvar : forall x d, is_variable (w_model wA) x d <-> is_variable m x d) by (intros x d; exact (extends_variable w0 wA aux x d Hx)).
  assert (Hvars : dkeys (pure_variables (m_vars (w_model wA))) = variables_of m).
  { rewrite Em. cbn [m_vars]. rewrite pure_aux; [apply variables_of_pure|]. intros x j Hin.
    destruct (Haux x j Hin) as (p & -> & _). eauto. }
  destruct f as [|f']; [discriminate|]. rewrite observe_S, begin_spec in H'. cbv zeta in H'. cbn [extended map app set_world e_world] in H'.
  destruct (m_solvable (w_model wA)) eqn:Esol; cbn [negb] in H'.
  2:{ injection H' as E1 _ _. apply bounded_nothing; [auto|]. right. left. rewrite Em in Esol. exact Esol. }
  destruct (do_setup (s_compile sv) wA (x_additional aA)) as [w [u|ex]] eqn:Es.
  2:{ injection H' as E1 _ E3. apply bounded_nothing; [auto|]. left. rewrite <- E3. discriminate. }
  destruct (opt_setup shuffle e sv os a Hv wA oms Emk w u Es) as (Ew & Hu & Hg & Hpm & Hnd & Hin).
  fold aA in Ew, Hu, Hg, Hpm, Hnd, Hin.
  set (order := order_of shuffle sv aA (w_model wA) u) in *.
  destruct order as [|x0 names0] eqn:Eord.
  { injection H' as E1 _ _. apply bounded_nothing; [auto|]. right. right. intros (x & d & Hxd).
    apply Permutation_nil in Hpm. rewrite Hvars in Hpm.
    assert (Hx' : In x (variables_of m)) by (apply variables_of_In; eauto). rewrite Hpm in Hx'. destruct Hx'. }
  rewrite <- Eord in *.
  assert (Hne : order <> []) by (rewrite Eord; discriminate).
  destruct (observe clk shuffle f' _ 0 (start_env clk (set_world e wA) w)
     (GLoop (run_local (set_world e wA) sv aA u) (Cfg [(order, [])] []) 0)) as [[[vs1 e1] r1]|] eqn:Eo;
    [|discriminate].
  injection H' as E1 E2 E3. subst vs1 e1 r1.
  set (i := GInfo (u_doms u) (u_cons u) (u_ad u)) in *.
  set (J := Inv e sv os a wA oms) in *.
  set (csA := all_cons (w_model wA) aA) in *.
  set (w1 := compile_all cmp wA csA) in *.
  assert (Ew1 : w = w1) by exact Ew. rewrite Ew1 in *. clear Ew Ew1.
  assert (Hcs : csA = sub ++ map (fun p : objective * minmax => mm_cons (snd p)) oms) by exact (made_cons shuffle e os a Hv wA oms Emk).
  pose proof (observe_loop clk shuffle _ i order J w1 Hnd (Inv_step shuffle e sv os a Hv wA oms Emk) f' 0%nat
    (start_env clk (set_world e wA) w1) (run_local (set_world e wA) sv aA u) (Cfg [(order, [])] []) 0 vs e' r []
    (start_running clk (set_world e wA) w1) eq_refl) as Hobs.
  assert (Hrec0 : recorded i order J [] (Cfg [(order, [])] [])).
  { constructor; cbn [g_stack g_doms].
    - intros xs s [E|[]]. injection E as <- <-. split; [reflexivity|]. intros s x v q E. destruct s; discriminate.
    - intros x rest s d v _ E. discriminate.
    - intros pre ev t post E. destruct pre; discriminate.
    - intros pre t mid E. destruct pre; discriminate.
    - right. exists order, []. split; [reflexivity|]. reflexivity. }
  destruct (Hobs ltac:(cbn; split; [exact Hne|split; [exact Hnd|split; [reflexivity|exact I]]]) ltac:(constructor) Hrec0
             (Inv_init shuffle e sv os a Hv wA oms Emk) Eo) as (Hev & Hsubs & (ysF & HIF) & Hend).
  cbn [app] in Hev, Hend. clear Hobs.
  assert (Hlocal : forall c, In c sub -> concerns (w_model wA) c -> c_local w1 c) by exact (sub_local shuffle e sv os a Hv wA oms Emk).
  assert (Hstable : forall wx c s, (exists ys, J ys wx) -> In c sub -> ceval wx c s = ceval w1 c s).
  { intros wx c s (ys & HJ) Hc. exact (Inv_stable shuffle e sv os a Hv wA oms Emk ys wx c s HJ Hc). }
  assert (Hsub : forall c, In c sub -> In c csA) by (intros c Hc; rewrite Hcs; apply in_or_app; now left).
  assert (Hoc : forall c, In c csA -> ~ In c sub -> exists o mm, In (o, mm) oms /\ c = mm_cons mm).
  { intros c Hc Hns. rewrite Hcs in Hc. apply in_app_or in Hc. destruct Hc as [Hc|Hc]; [contradiction|].
    apply in_map_iff in Hc. destruct Hc as ((o & mm) & <- & Hc). eauto. }
  assert (Hoexp : forall o mm, In (o, mm) oms -> is_ad (mm_cons mm) = false).
  { intros o mm Hom. unfold is_ad. now rewrite (oc_expr shuffle e os a Hv wA oms Emk o mm Hom). }
  assert (Hovars : forall o mm z, In (o, mm) oms -> (In z (c_vars (mm_cons mm)) <-> occurs z (o_expr o))).
  { intros o mm z Hom. exact (oc_vars shuffle e os a Hv wA oms Emk o mm z Hom). }
  assert (Hosin : forall o mm, In (o, mm) oms -> In (OObj o) os).
  { intros o mm Hom. rewrite Eos. apply in_map_iff. exists (o, mm). auto. }
  (* what the record says about one visit *)
  assert (Hvisit : forall pre v post t, vs = pre ++ v :: post -> v = Extends t \/ v = Finds t ->
     consistent (e_world e') m sub t /\ reached ps0 os pre t).
  { intros pre v post t E Ht. destruct (Hev pre v t post E Ht) as (B & Hb1 & Hb2).
    assert (Hkeys : exists q0, order = map fst t ++ q0).
    { destruct Ht as [->| ->].
      - destruct (Hb1 eq_refl) as (x & q & Eq). eauto.
      - exists []. rewrite app_nil_r. symmetry. now apply Hb2. }
    destruct Hkeys as (q0 & Hkeys). split.
    - apply (consistent_moved w1 (e_world e') (w_model wA) m sub t).
      + intros x d. symmetry. apply Hvar.
      + intros c Hc. apply Hstable; [eauto|exact Hc].
      + apply (passed_consistent w1 (w_model wA) csA sub u order (fun wx => exists ys, J ys wx) HnA Hu Hsub Hlocal Hpm Hstable t q0 Hkeys).
        intros p x z q Eq. destruct (B p x z q Eq) as (pre' & mid & wx & _ & HJ & Hdom & Hps). split; [exact Hdom|]. exists wx. split; [eauto|exact Hps].
    - intros s x z q Eq. destruct (B s x z q Eq) as (pre' & mid & wx & E' & HJ & Hdom & Hps).
      exists pre', mid. split; [exact E'|]. intros o Ho (x1 & x2 & Hne12 & Ho1 & Ho2) Hox Hdet l y p b El Hvy Hvs.
      assert (Hom : exists mm, In (o, mm) oms).
      { rewrite Eos in Ho. apply in_map_iff in Ho. destruct Ho as ((o' & mm) & Eo' & Hom). injection Eo' as <-. now exists mm. }
      destruct Hom as (mm & Hom).
      assert (Hxs : ~ In x (dkeys s)).
      { rewrite Eq in Hkeys. rewrite map_app, <- app_assoc in Hkeys. exact (proj1 (order_tail order Hnd s x _ Hkeys)). }
      rewrite passed_iff in Hps. destruct Hps as [_ Hps]. rewrite dset_new in Hps by assumption.
      assert (Hc : ceval wx (mm_cons mm) (s ++ [(x, z)]) = Ok true).
      { apply Hps.
        - change (i_cons i) with (u_cons u). apply (ui_cons _ _ _ _ Hu). split; [rewrite Hcs; apply in_or_app; right; apply in_map_iff; now exists (o, mm)|].
          split; [now apply (Hoexp o)|]. split; [|now apply (Hovars o)].
          intros Hlen. destruct (c_vars (mm_cons mm)) as [|z1 [|z2 zs]] eqn:Ec; try discriminate.
          apply (Hovars o mm x1 Hom) in Ho1. apply (Hovars o mm x2 Hom) in Ho2. rewrite Ec in Ho1, Ho2.
          destruct Ho1 as [<-|[]]. destruct Ho2 as [<-|[]]. contradiction.
        - intros z1 Hz1. apply Hdet. now apply (Hovars o mm). }
      rewrite (Inv_objective shuffle e sv os a Hv wA oms Emk (found pre') wx o mm _ p HJ Hom Hf Hvs) in Hc.
      injection Hc as Hc. destruct HJ as (_ & _ & _ & Hstate & _). unfold state in Hstate. rewrite El, last_solution_snoc in Hstate.
      destruct (Hstate o mm Hom) as [Hz Hb]. rewrite Hz in Hc. cbn in Hc. apply betterb_spec in Hc.
      fold w0 ps0 in Hb. unfold value_of in Hvy. rewrite Hvy in Hb. injection Hb as ->. exact Hc. }
  assert (Hsorted : ForallOrdPairs (depth_first order (declared m)) (tried vs)).
  { apply (subseq_FOP _ _ _ Hsubs). unfold remaining. cbn [g_stack g_doms flat_map]. rewrite app_nil_r. unfold frame_nodes. cbn [fst snd].
    rewrite Eord at 2. cbn [dget]. rewrite <- Eord.
    eapply FOP_impl; [|exact (nodes_sorted w1 (bare i) order [] Hnd)].
    intros s s' _ _ [He|(p & x & q & b & c & E & Hpre & Hb & Hc & Hbef)]; [now left|right].
    exists p, x, q, b, c. repeat split; try assumption.
    assert (Hxo : In x order) by (rewrite E; apply in_or_app; right; now left).
    apply (order_In (w_model wA) order Hpm) in Hxo. destruct Hxo as (d & Hxo).
    rewrite (declared_variable m x d Hn (proj1 (Hvar x d) Hxo)).
    exact (loop_dom shuffle (set_world e wA) sv aA w1 u Hs HnA HoA Es x d b c Hxo Hbef). }
  assert (Hk' : dkeys (u_doms u) = variables_of m).
  { rewrite (ui_keys _ _ _ _ Hu). exact Hvars. }
  exists order. unfold bounded.
  split; [rewrite <- Hvars; exact Hpm|].
  split; [intros Hpo; unfold order, order_of; change (arg_or (x_policy aA) (s_policy sv)) with (policy_of sv a); rewrite Hpo; exact Hk'|].
  split; [intros Hpo; unfold order, order_of; change (arg_or (x_policy aA) (s_policy sv)) with (policy_of sv a); rewrite Hpo; simpl; now rewrite Hk'|].
  split; [intros Hpo; unfold order, order_of; change (arg_or (x_policy aA) (s_policy sv)) with (policy_of sv a); rewrite Hpo; simpl; now rewrite Hk'|].
  split.
  { intros t Ht. apply tried_In, in_split in Ht. destruct Ht as (pre & post & E).
    destruct (Hev pre _ t post E (or_introl eq_refl)) as (_ & Hb & _). now apply Hb. }
  split.
  { intros t Ht. apply found_In, in_split in Ht. destruct Ht as (pre & post & E).
    destruct (Hev pre _ t post E (or_intror eq_refl)) as (_ & _ & Hb). now apply Hb. }
  split.
  { revert Hsorted. apply FOP_NoDup. intros t [(q & Hq & E)|(p & x & q & b & c & E & _ & Hb & Hc & Hbef)].
    - apply Hq. apply (f_equal (@length _)) in E. rewrite app_length in E. destruct q; [reflexivity|]. simpl in E. lia.
    - assert (Hxo : In x order) by (rewrite E; apply in_or_app; right; now left).
      apply (order_In (w_model wA) order Hpm) in Hxo. destruct Hxo as (d & Hxo). apply Hvar in Hxo.
      rewrite (declared_variable m x d Hn Hxo) in Hbef.
      apply (NoDup_before d b c (Hd x d Hxo) Hbef). congruence. }
  split; [exact Hsorted|]. split; [exact Hvisit|].
  intros Hr Hint _ Htot t Hcons Hreach. destruct (Hend Hr Hint) as (cE & HcE & [_ _ _ Rp Rr]).
  assert (Hcons1 : consistent w1 (w_model wA) sub t).
  { apply (consistent_moved (e_world e') w1 m (w_model wA) sub t); [exact Hvar| |exact Hcons].
    intros c Hc. symmetry. apply Hstable; [eauto|exact Hc]. }
  assert (Hroot : In (Extends []) vs).
  { destruct Rr as [Rr|(xs & stk & E & _)]; [exact Rr|]. rewrite HcE in E. discriminate. }
  assert (Hmain : forall q0, order = map fst t ++ q0 -> t <> [] -> In (child q0 t) vs).
  { intros q0 Hkeys Ht. destruct (exists_last Ht) as (s & (x & z) & Et).
    destruct (Hreach s x z [] Et) as (pre & mid & Evs & Hkept).
    destruct (Rp pre s mid Evs) as (wx & y & rest & d & Eo' & HJ & Ef & Hall).
    assert (Eyr : y = x /\ rest = q0).
    { rewrite Et, map_app, <- app_assoc in Hkeys. cbn [map fst app] in Hkeys. rewrite Hkeys in Eo'. apply app_inv_head in Eo'.
      injection Eo' as <- <-. auto. }
    destruct Eyr as [-> ->].
    assert (Hdet : forall o mm sx, In (o, mm) oms -> (forall z1, In z1 (c_vars (mm_cons mm)) -> In z1 (dkeys sx)) -> incl sx t ->
       exists p, value_of ps0 o sx p).
    { intros o mm sx Hom Hz Hinc. destruct (Htot o (Hosin o mm Hom)) as [_ Ht']. apply Ht'.
      - intros x1 v1 Hin1. destruct Hcons as (Hc1 & _). apply Hc1. now apply Hinc.
      - intros x1 Hx1. apply Hz. now apply (Hovars o mm). }
    assert (Hp : In z (dom i x) /\ passed wx i x s z = true).
    { apply (consistent_passed w1 (w_model wA) csA sub u order (fun wx => exists ys, J ys wx) HnA Hu Hlocal Hpm Hstable
               t q0 s x z [] wx Hkeys Hcons1 Et (ex_intro (fun ys => J ys wx) (found pre) HJ)).
      - intros c Hc Had. rewrite Hcs in Hc. apply in_app_or in Hc. destruct Hc as [Hc|Hc]; [exact Hc|].
        apply in_map_iff in Hc. destruct Hc as ((o & mm) & <- & Hom). cbn [snd] in Had. rewrite (Hoexp o mm Hom) in Had. discriminate.
      - intros c Hc Hns Hxc Ecv. destruct (Hoc c Hc Hns) as (o & mm & Hom & ->).
        destruct (Hdet o mm [(x, z)] Hom) as (p & Hval).
        { rewrite Ecv. intros z1 [<-|[]]. now left. }
        { intros pr [<-|[]]. rewrite Et. apply in_or_app. right. now left. }
        rewrite (Inv_objective shuffle e sv os a Hv wA oms Emk [] w1 o mm [(x, z)] p (Inv_init shuffle e sv os a Hv wA oms Emk) Hom Hf Hval).
        destruct (Inv_init shuffle e sv os a Hv wA oms Emk) as (_ & _ & _ & Hst0 & _). unfold state in Hst0. cbn [last_solution] in Hst0.
        fold aA csA cmp w1 in Hst0. rewrite (Hst0 o mm Hom). reflexivity.
      - intros c Hc Hns Hxc Hlen Hall'. destruct (Hoc c Hc Hns) as (o & mm & Hom & ->).
        destruct (Hdet o mm (s ++ [(x, z)]) Hom Hall') as (p & Hval); [rewrite Et; apply incl_refl|].
        rewrite (Inv_objective shuffle e sv os a Hv wA oms Emk (found pre) wx o mm _ p HJ Hom Hf Hval).
        destruct HJ as (_ & _ & _ & Hstate & _). unfold state in Hstate.
        destruct (last_solution (found pre)) as [y|] eqn:El.
        + destruct (Hstate o mm Hom) as [Hz Hb]. rewrite Hz. cbn. f_equal. apply betterb_spec.
          destruct (last_solution_split _ _ El) as (l & El'). apply (Hkept o (Hosin o mm Hom)) with (l := l) (y := y); try assumption.
          * destruct (c_vars (mm_cons mm)) as [|z1 [|z2 zs]] eqn:Ec; [contradiction|exfalso; now apply Hlen|].
            exists z1, z2. split; [|split; apply (Hovars o mm _ Hom); rewrite Ec; [now left|right; now left]].
            pose proof (c_vars_NoDup (mm_cons mm)) as Hndc. rewrite Ec in Hndc. inversion Hndc as [|? ? Hni _]; subst.
            intros ->. apply Hni. now left.
          * now apply (Hovars o mm).
          * intros z1 Hz1. apply Hall'. now apply (Hovars o mm).
        + rewrite (Hstate o mm Hom). reflexivity.
      - intros c Hc. rewrite Hcs in Hc. apply in_app_or in Hc. destruct Hc as [Hc|Hc]; [now left|]. right. intros Hc'.
        apply in_map_iff in Hc. destruct Hc as ((o & mm) & <- & Hom). cbn [snd] in Hc'.
        pose proof (md_ids _ _ _ M o mm Hom) as Hge. pose proof (proj1 (Hk _ Hc')) as Hlt. unfold w0 in *. destruct Hge as [Hge _]. exact (Nat.lt_irrefl _ (Nat.lt_le_trans _ _ _ Hlt Hge)). }
    assert (Hzd : In z d).
    { assert (Ed : d = filter (passed wx i x s) (dom i x)).
      { unfold filter_domain in Ef. destruct (dget (i_doms i) x) as [dm|] eqn:Edm; [|discriminate].
        apply filterM_Ok in Ef. unfold dom, dget_or. rewrite Edm. exact Ef. }
      rewrite Ed. now apply filter_In. }
    destruct (Hall z Hzd) as [Hc|[(d' & Hc & _)|(_ & xs & stk & Hc & _)]].
    - rewrite Et. exact Hc.
    - rewrite HcE in Hc. destruct Hc.
    - rewrite HcE in Hc. discriminate. }
  split.
  - intros (x & q & Hx'). apply tried_In. destruct t as [|pr t]; [exact Hroot|].
    pose proof (Hmain (x :: q) Hx' ltac:(discriminate)) as Hm. exact Hm.
  - intros Ht Ek. apply found_In. pose proof (Hmain [] ltac:(rewrite app_nil_r; now symmetry) Ht) as Hm. exact Hm.
Qed.

End Bounding.
