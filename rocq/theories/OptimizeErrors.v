(** Lemmas behind Properties_Cut.v: the exceptions of optimisations. *)
From Coq Require Import Permutation.
From Verif Require Import Optimize SpecFormula SpecSafe SpecSolve SpecOptimize ExprFacts DictFacts ModelFacts CompileFacts CodeFacts
  SearchFacts LoopFacts EnumFacts SetupFacts SolveFacts MasterFacts TraceFacts OptimizeFacts OptimizeRun OptimizeProps.
Open Scope list_scope.
Open Scope Z_scope.

(** [do_setup_err], with one witness for both states. *)
Lemma do_setup_err_same cmp w add w' ex :
  well_named (w_model w) -> objects w (m_cons (w_model w) ++ add) ->
  do_setup cmp w add = (w', Err ex) ->
  let m := w_model w in
  let cs := m_cons m ++ add in
  (exists c s, In c cs /\ concerns m c /\ (forall x v, In (x, v) s -> exists d, is_variable m x d /\ In v d) /\
     (forall x, mentions c x -> In x (map fst s)) /\ ceval w' c s = Err ex /\ ceval (compile_all cmp w cs) c s = Err ex) \/
  (~ groups_ok m cs /\ (ex = KeyError \/ ex = ValueError)).
Proof.
  intros Hn Ho H m cs. pose proof Ho as [Hid _]. unfold do_setup in H. fold m cs in H, Hid.
  destruct (setup_loop cmp w _ cs) as [w2 [u2|ex2]] eqn:El.
  - right.
    destruct (setup_loop_spec (compile_all cmp w cs) _ cmp cs [] w _ _ _ (uinv_init _ _) eq_refl Hid El) as [-> Hu].
    destruct (check_groups (u_bounds u2) (u_groups u2)) as [[]|ex2] eqn:Eg; [discriminate|].
    inversion H; subst. split.
    + intros Hok. assert (Ht : check_groups (u_bounds u2) (u_groups u2) = Ok tt); [|congruence].
      apply check_groups_spec. intros g Hg. apply (ui_groups _ _ _ _ Hu) in Hg. destruct Hg as (c & Hc & Had & ->).
      simpl in Hc. unfold is_ad in Had. destruct (c_body c) as [b|e|xs] eqn:Eb; try discriminate.
      destruct (Hok c xs Hc Eb) as [(x & Hx) Hv]. rewrite (ui_bounds _ _ _ _ Hu). split.
      * apply mentions_vars in Hx. destruct (c_vars c); [contradiction|discriminate].
      * intros y Hy. apply pure_keys_In. apply Hv. now apply mentions_vars.
    + clear - Eg. revert Eg. generalize (u_bounds u2). induction (u_groups u2) as [|g gs IH]; simpl; [discriminate|].
      intros b. destruct (forallb _ g); [|intros E; inversion E; auto]. destruct g; [intros E; inversion E; auto|apply IH].
  - left. inversion H; subst.
    destruct (setup_loop_err (compile_all cmp w cs) _ cmp cs [] w _ _ _ (uinv_init _ _) eq_refl Hid El)
      as (c & x & v & d & Hc & Ecv & Hd & Hv & He & He1).
    apply pure_dget in Hd; [|assumption].
    exists c, [(x, v)]. split; [assumption|]. split; [|split; [|split; [|split; assumption]]].
    + split; [exists x; apply mentions_vars; rewrite Ecv; now left|]. intros y Hy. apply mentions_vars in Hy.
      rewrite Ecv in Hy. destruct Hy as [<-|[]]. eauto.
    + intros y u [E|[]]. inversion E; subst. eauto.
    + intros y Hy. apply mentions_vars in Hy. rewrite Ecv in Hy. destruct Hy as [<-|[]]. now left.
Qed.

Section Errors.
Variable clk : nat -> Z.
Variable shuffle : list name -> list name.
Variables (f : nat) (e : env) (sv : solver) (os : list oarg) (a : args).
Variables (ys : list subst) (e' : env) (ex : exn).
Let w0 := e_world e.
Let m := w_model w0.
Let sub := all_cons m a.
Let cmp := s_compile sv.
Let ps0 := w_par w0.
Hypothesis Hv : opt_valid shuffle e os a.
Hypothesis H : optimize_all clk shuffle f e sv os a = Some (ys, e', Some ex).
Hypothesis Hf : objective_faithful cmp os.

Definition in_domains (s : subst) : Prop := forall x v, In (x, v) s -> exists d, is_variable m x d /\ In v d.

(** An objective without a value. *)
Definition objective_raises : Prop :=
  (exists o s, In (OObj o) os /\ in_domains s /\ (forall x d, is_variable m x d -> In x (map fst s)) /\
     evaluate ps0 s (o_expr o) = Err ex) \/
  (exists o s, In (OObj o) os /\ in_domains s /\ (forall x, occurs x (o_expr o) -> In x (map fst s)) /\
     forall v, ~ value_of ps0 o s v).

Lemma raises : 
  (In OOther os /\ ex = ValueError /\ ys = []) \/
  eval_error (e_world e') m sub ex \/
  (~ groups_ok m sub /\ (ex = KeyError \/ ex = ValueError)) \/
  (ex = TypeError /\ (timeout_of sv a = LInfinity \/ limit_of sv a = LInfinity)) \/
  objective_raises.
Proof.
  destruct (opt_run clk shuffle f e sv os a ys e' (Some ex) Hv H) as [(Hin & Hy & Hr & _)|(wA & oms & Emk & Hany)].
  { left. injection Hr as ->. auto. }
  right. fold w0 in Emk.
  destruct (made_facts shuffle e os a Hv wA oms Emk) as ((aux & Hx) & HnA & Eos & M).
  assert (Hvar : forall x d, is_variable (w_model wA) x d <-> is_variable m x d) by (intros x d; exact (extends_variable w0 wA aux x d Hx)).
  pose proof (made_cons shuffle e os a Hv wA oms Emk) as Ecs.
  set (csA := all_cons (w_model wA) (with_objectives a oms)) in *.
  (* an objective constraint raises in a reachable state *)
  assert (Hobj : forall ys2 w2 o mm s, Inv e sv os a wA oms ys2 w2 -> In (o, mm) oms -> in_domains s ->
    (forall x, mentions (mm_cons mm) x -> In x (map fst s)) -> ceval w2 (mm_cons mm) s = Err ex -> objective_raises).
  { intros ys2 w2 o mm s HI Hom Hdm Hm Hce. right. exists o, s. split; [exact (oms_In shuffle e os a Hv wA oms Emk o mm Hom)|].
    split; [exact Hdm|]. split.
    - intros x Hox. apply Hm. apply mentions_vars. now apply (oc_vars shuffle e os a Hv wA oms Emk o mm x Hom).
    - intros v Hval. rewrite (Inv_objective shuffle e sv os a Hv wA oms Emk ys2 w2 o mm s v HI Hom Hf Hval) in Hce. discriminate. }
  assert (Hgr : ~ groups_ok (w_model wA) csA -> ~ groups_ok m sub).
  { intros Hng Hg. apply Hng. intros c xs Hc Hb. apply (same_variables_concerns m (w_model wA) c Hvar).
    rewrite Ecs in Hc. apply in_app_or in Hc. destruct Hc as [Hc|Hc]; [now apply (Hg c xs)|].
    apply (oc_In oms) in Hc. destruct Hc as (o & mm & Hom & ->). rewrite (oc_expr shuffle e os a Hv wA oms Emk o mm Hom) in Hb. discriminate. }
  pose proof Hany as Hany'.
  destruct Hany as [Hys Hi Hc|w u f' ys0 w' r0 Hsol Es Eo Hsearch Hdr Hpre Hfin].
  - destruct Hc as [(_ & Hr & _)|(_ & w & [u|ex'] & Es & Ew & Hu)]; [discriminate|destruct Hu; discriminate|].
    injection Hu as <-. cbn [e_world set_world] in Es.
    destruct (do_setup_err_same (s_compile sv) wA (x_additional (with_objectives a oms)) w ex HnA (made_objects shuffle e os a Hv wA oms Emk) Es)
      as [(c & s & Hc & Hcc & Hdm & Hm & Hce & Hce1)|(Hng & Hex)].
    2:{ right. left. split; [exact (Hgr Hng)|exact Hex]. }
    change (m_cons (w_model wA) ++ x_additional (with_objectives a oms)) with csA in Hc, Hce1.
    assert (Hdm' : in_domains s).
    { intros x v Hin. destruct (Hdm x v Hin) as (d & H1 & H2). exists d. split; [now apply Hvar|exact H2]. }
    rewrite Ecs in Hc. apply in_app_or in Hc. destruct Hc as [Hc|Hc].
    + left. exists c, s. split; [exact Hc|]. split; [now apply (same_variables_concerns m (w_model wA))|].
      split; [exact Hdm'|]. split; [exact Hm|]. rewrite Ew. exact Hce.
    + right. right. right. apply (oc_In oms) in Hc. destruct Hc as (o & mm & Hom & ->).
      exact (Hobj [] _ o mm s (Inv_init shuffle e sv os a Hv wA oms Emk) Hom Hdm' Hm Hce1).
  - destruct (opt_loop clk shuffle e sv os a ys e' (Some ex) Hv wA oms Emk Hany') as [(Hys & Hi & Hc)|(_ & _ & u2 & ys2 & w2 & r2 & Es2 & _ & _ & (ysx & HIx) & _)].
    { destruct Hc as [(Hc & _)|(_ & w3 & u3 & Es3 & _ & Hu3)].
      - exfalso. cbn [e_world set_world] in Hsol. destruct Hx as (Em & _). rewrite Em in Hsol. cbn [m_solvable] in Hsol. fold m in Hsol. congruence.
      - cbn [e_world set_world] in Es. change (x_additional (with_objectives a oms)) with (x_additional a ++ map (fun p => mm_cons (snd p)) oms) in Es.
        rewrite Es in Es3. injection Es3 as <- <-. destruct Hu3. discriminate. }
    cbn [e_world set_world] in *.
    destruct Hfin as [E1 E2 _ E3 _ _ _|k E1 E2 E3 E4 E5 _|t E1 E2 E3 _ _|E _ E' _|E _ E' _]; try discriminate.
    2:{ right. right. left. injection E' as ->. split; [reflexivity|]. left. exact E. }
    2:{ right. right. left. injection E' as ->. split; [reflexivity|]. right. exact E. }
    destruct r0 as [k|ex0]; [discriminate|]. injection E2 as <-.
    destruct (opt_setup shuffle e sv os a Hv wA oms Emk w u Es) as (Ew & Hu & _ & Hpm & Hnd & Hin). rewrite Ew in Hsearch, Es.
    assert (Hst : forall c s, In c sub -> ceval (e_world e') c s = ceval (compile_all (s_compile sv) wA csA) c s)
      by (intros c s Hc; exact (Inv_stable shuffle e sv os a Hv wA oms Emk ysx _ c s HIx Hc)).
    destruct (search_err _ (consumer_of oms) (Inv e sv os a wA oms)
      (fun k w s w' ys => Inv_step shuffle e sv os a Hv wA oms Emk k w s w' ys) _ 0 _ [] ys0 w' ex [] Hnd Hin
      (Inv_init shuffle e sv os a Hv wA oms Emk) Hsearch)
      as (w3 & l & (ys3 & HI) & Hl & [(x & v & q & E & Hv' & Hacc)|(E & k & Hc)]); cbn [app] in *.
    + set (order := order_of shuffle sv (with_objectives a oms) (w_model wA) u) in *.
      assert (Hxo : In x order) by (rewrite E; apply in_or_app; right; now left).
      assert (Hlo : forall z t, In (z, t) l -> In z order).
      { intros z t Hz. rewrite E. apply in_or_app. left. change z with (fst (z, t)). now apply in_map. }
      assert (Hxl : ~ In x (dkeys l)).
      { rewrite E in Hnd. apply NoDup_remove_2 in Hnd. intros Hxx. apply Hnd. apply in_or_app. now left. }
      assert (Hdoms : in_domains (l ++ [(x, v)])).
      { intros z t Hz. apply in_app_or in Hz. destruct Hz as [Hz|[Ez|[]]].
        - apply (dom_declared shuffle e sv os a Hv wA oms Emk _ u Es); [now apply Hl|now apply (Hlo z t)].
        - injection Ez as <- <-. now apply (dom_declared shuffle e sv os a Hv wA oms Emk _ u Es). }
      assert (Herr : exists c, In c (dget_or (u_cons u) x []) /\ (forall z, In z (c_vars c) -> In z (dkeys (l ++ [(x, v)]))) /\
                       ceval w3 c (l ++ [(x, v)]) = Err ex).
      { unfold accept in Hacc. rewrite dset_new in Hacc by assumption. destruct (existsb _ _); [discriminate|]. cbn [i_cons] in Hacc.
        revert Hacc. generalize (dget_or (u_cons u) x []). intros cs. induction cs as [|c cs IH]; cbn [no_unsatisfied]; intros Hq; [discriminate|].
        unfold unsatisfied in Hq. destruct (forallb (fun y => dmem (l ++ [(x, v)]) y) (c_vars c)) eqn:Ef.
        - rewrite forallb_forall in Ef. destruct (ceval w3 c (l ++ [(x, v)])) as [[|]|] eqn:Ec; cbn [bind negb] in Hq.
          + destruct (IH Hq) as (c' & H1 & H2). exists c'. split; [now right|exact H2].
          + discriminate.
          + injection Hq as ->. exists c. split; [now left|]. split; [|exact Ec]. intros z Hz. now apply dmem_In, Ef.
        - cbn [bind] in Hq. destruct (IH Hq) as (c' & H1 & H2). exists c'. split; [now right|exact H2]. }
      destruct Herr as (c & Hc & Hvars & Hce). apply (ui_cons _ _ _ _ Hu) in Hc.
      destruct Hc as (Hc & _ & _ & Hxc). change (In c csA) in Hc. rewrite Ecs in Hc. apply in_app_or in Hc. destruct Hc as [Hc|Hc].
      * left. exists c, (l ++ [(x, v)]). split; [exact Hc|]. split.
        { split; [exists x; now apply mentions_vars|]. intros z Hz. apply mentions_vars, Hvars in Hz.
          apply in_map_iff in Hz. destruct Hz as ((z' & t) & <- & Hz). destruct (Hdoms z' t Hz) as (d & Hd & _). eauto. }
        split; [exact Hdoms|]. split; [intros z Hz; apply Hvars; now apply mentions_vars|].
        rewrite (Hst c _ Hc), <- (Inv_stable shuffle e sv os a Hv wA oms Emk ys3 w3 c _ HI Hc). exact Hce.
      * right. right. right. apply (oc_In oms) in Hc. destruct Hc as (o & mm & Hom & ->).
        apply (Hobj ys3 w3 o mm (l ++ [(x, v)]) HI Hom Hdoms); [|exact Hce]. intros z Hz. apply Hvars. now apply mentions_vars.
    + right. right. right. left.
      assert (Hdoms : in_domains l).
      { intros z t Hz. apply (dom_declared shuffle e sv os a Hv wA oms Emk _ u Es); [now apply Hl|]. rewrite <- E. change z with (fst (z, t)). now apply in_map. }
      assert (Hall : forall x d, is_variable m x d -> In x (map fst l)).
      { intros x d Hxd. rewrite E. apply (sub_order_In (w_model wA) _ Hpm). exists d. now apply Hvar. }
      destruct HI as (_ & HI & _). unfold consumer_of in Hc.
      enough (Hgo : forall oms' w4, (forall o mm, In (o, mm) oms' -> In (o, mm) oms) -> old (w_npar w0) ps0 w4 ->
                add_solutions oms' w4 l = Err ex -> exists o mm, In (o, mm) oms /\ evaluate ps0 l (o_expr o) = Err ex).
      { destruct (Hgo oms w3 (fun _ _ h => h) HI Hc) as (o & mm & Hom & He). exists o, l.
        split; [exact (oms_In shuffle e os a Hv wA oms Emk o mm Hom)|auto]. }
      clear Hc HI. induction oms' as [|[o mm] oms' IH]; intros w4 Hsub Hold Hc; [discriminate|]. cbn [add_solutions] in Hc.
      assert (Hom : In (o, mm) oms) by (apply Hsub; now left).
      unfold add_solution in Hc.
      rewrite (old_value (w_npar w0) ps0 o mm oms w4 l (made_good shuffle e os a Hv wA oms Emk) Hom Hold) in Hc.
      destruct (evaluate ps0 l (o_expr o)) as [vt|ex2] eqn:Ev; cbn [bind] in Hc.
      2:{ injection Hc as ->. exists o, mm. auto. }
      apply (IH (set_bound w4 mm vt)); [intros o' mm' Hh; apply Hsub; now right| |exact Hc].
      destruct (set_bound_spec w4 mm vt o (md_shape _ _ _ M o mm Hom)) as ((_ & _ & _ & Hpp & _) & _).
      intros p Hp'. rewrite Hpp; [now apply Hold|]. intros Hpin. pose proof (md_pars _ _ _ M o mm p Hom Hpin) as Hge. unfold w0 in *. lia.
Qed.
End Errors.
