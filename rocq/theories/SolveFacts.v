(** The assignments enumerated by the search are the solutions. *)
From Coq Require Import Permutation.
From Verif Require Import Solver SpecFormula SpecSafe SpecSolve ExprFacts DictFacts ModelFacts CompileFacts CodeFacts
  SearchFacts LoopFacts EnumFacts SetupFacts.
Open Scope list_scope.
Open Scope Z_scope.

(** ** Variable order *)

Lemma insert_by_perm key x l : Permutation (insert_by key x l) (x :: l).
Proof.
  induction l as [|y l IH]; simpl; [reflexivity|]. destruct (lex_leb (key x) (key y)); [reflexivity|].
  rewrite IH. apply perm_swap.
Qed.

Lemma sorted_by_perm key l : Permutation (sorted_by key l) l.
Proof. induction l as [|x l IH]; simpl; [reflexivity|]. now rewrite insert_by_perm, IH. Qed.

Lemma sorted_rev_perm key l : Permutation (sorted_rev key l) l.
Proof. unfold sorted_rev. now rewrite <- Permutation_rev, sorted_by_perm, <- Permutation_rev. Qed.

Lemma select_order_perm sh p m u : shuffles sh -> Permutation (select_order sh p m u) (dkeys (u_doms u)).
Proof.
  intros Hs. destruct p; simpl.
  - reflexivity.
  - now rewrite <- Permutation_rev.
  - apply Hs.
  - now rewrite <- Permutation_rev, sorted_rev_perm.
  - apply sorted_by_perm.
  - apply sorted_rev_perm.
  - apply sorted_by_perm.
  - apply sorted_rev_perm.
Qed.

(** ** Acceptance of a value *)

Lemma no_unsatisfied_true w cs s :
  no_unsatisfied w cs s = Ok true <->
  forall c, In c cs -> (forall z, In z (c_vars c) -> In z (dkeys s)) -> ceval w c s = Ok true.
Proof.
  induction cs as [|c cs IH]; simpl; [split; [intros _ c []|reflexivity]|].
  unfold unsatisfied. destruct (forallb (fun x => dmem s x) (c_vars c)) eqn:Ef.
  - rewrite forallb_forall in Ef.
    assert (Hb : forall z, In z (c_vars c) -> In z (dkeys s)) by (intros z Hz; now apply dmem_In, Ef).
    destruct (ceval w c s) as [[|]|ex] eqn:Ec; cbn [bind negb].
    + rewrite IH. split; [intros H c' [<-|Hc]; auto|auto].
    + split; [discriminate|]. intros H. rewrite (H c (or_introl eq_refl) Hb) in Ec. discriminate.
    + split; [discriminate|]. intros H. rewrite (H c (or_introl eq_refl) Hb) in Ec. discriminate.
  - cbn [bind]. rewrite IH. split; [|auto]. intros H c' [<-|Hc]; [|auto]. intros Hb. exfalso.
    assert (Ht : forallb (fun x => dmem s x) (c_vars c) = true); [|congruence].
    apply forallb_forall. intros x Hx. apply dmem_In. auto.
Qed.

Lemma no_unsatisfied_err w cs s ex :
  no_unsatisfied w cs s = Err ex ->
  exists c, In c cs /\ (forall z, In z (c_vars c) -> In z (dkeys s)) /\ ceval w c s = Err ex.
Proof.
  induction cs as [|c cs IH]; simpl; [discriminate|].
  unfold unsatisfied. destruct (forallb (fun x => dmem s x) (c_vars c)) eqn:Ef.
  - rewrite forallb_forall in Ef. destruct (ceval w c s) as [[|]|ex'] eqn:Ec; cbn [bind negb]; intros H.
    + destruct (IH H) as (c' & H1 & H2). exists c'. auto.
    + discriminate.
    + inversion H; subst. exists c. repeat split; auto. intros z Hz. now apply dmem_In, Ef.
  - cbn [bind]. intros H. destruct (IH H) as (c' & H1 & H2). exists c'. auto.
Qed.

Lemma passed_iff w i x s v :
  passed w i x s v = true <->
  (forall y, In y (dget_or (i_ad i) x []) -> dget (dset s x v) y <> Some v) /\
  (forall c, In c (dget_or (i_cons i) x []) -> (forall z, In z (c_vars c) -> In z (dkeys (dset s x v))) ->
     ceval w c (dset s x v) = Ok true).
Proof.
  unfold passed, accept. set (s' := dset s x v).
  set (p := fun y => match dget s' y with Some u => u =? v | None => false end).
  assert (Hp : existsb p (dget_or (i_ad i) x []) = false <->
    forall y, In y (dget_or (i_ad i) x []) -> dget s' y <> Some v).
  { split.
    - intros He y Hy Hd. assert (Ht : existsb p (dget_or (i_ad i) x []) = true); [|congruence].
      apply existsb_exists. exists y. split; [assumption|]. unfold p. rewrite Hd. apply Z.eqb_refl.
    - intros H. destruct (existsb p (dget_or (i_ad i) x [])) eqn:E; [|reflexivity].
      apply existsb_exists in E. destruct E as (y & Hy & Hpy). unfold p in Hpy.
      destruct (dget s' y) as [u|] eqn:Ed; [|discriminate]. apply Z.eqb_eq in Hpy. subst u.
      exfalso. now apply (H y Hy). }
  destruct (existsb p (dget_or (i_ad i) x [])) eqn:E.
  - split; [discriminate|]. intros [H _]. apply Hp in H. discriminate.
  - rewrite <- no_unsatisfied_true. destruct (no_unsatisfied w (dget_or (i_cons i) x []) s') as [b|ex].
    + split; [intros ->; split; [now apply Hp|reflexivity]|intros [_ H]; now inversion H].
    + split; [discriminate|]. intros [_ H]. discriminate.
Qed.

Lemma accept_err w i x s v ex : accept w i x s v = Err ex ->
  exists c, In c (dget_or (i_cons i) x []) /\ (forall z, In z (c_vars c) -> In z (dkeys (dset s x v))) /\
            ceval w c (dset s x v) = Err ex.
Proof.
  unfold accept. destruct (existsb _ _); [discriminate|]. apply no_unsatisfied_err.
Qed.

(** The last of some variables in an assignment. *)
Lemma last_var (l : subst) vs : vs <> [] -> (forall y, In y vs -> In y (map fst l)) ->
  exists p x v q, l = p ++ (x, v) :: q /\ In x vs /\ forall y, In y vs -> In y (map fst (p ++ [(x, v)])).
Proof.
  induction l as [|[x v] l IH] using rev_ind; intros Hne H.
  - destruct vs as [|y vs]; [contradiction|]. destruct (H y (or_introl eq_refl)).
  - destruct (in_dec string_dec x vs) as [Hx|Hx].
    + exists l, x, v, []. auto.
    + destruct (IH Hne) as (p & y & u & q & -> & Hy & Hall).
      { intros z Hz. specialize (H z Hz). rewrite map_app, in_app_iff in H. destruct H as [H|[<-|[]]]; [assumption|].
        contradiction. }
      exists p, y, u, (q ++ [(x, v)]). split; [now rewrite <- app_assoc|auto].
Qed.

Lemma dget_prefix {A} (p q : dict A) y : In y (dkeys p) -> dget (p ++ q) y = dget p y.
Proof. intros H. rewrite dget_app. apply dget_Some in H. destruct H as (a & ->). reflexivity. Qed.

Lemma dget_mid {A} (p q : dict A) x a : ~ In x (dkeys p) -> dget (p ++ (x, a) :: q) x = Some a.
Proof. intros H. rewrite dget_app. apply dget_None in H. rewrite H. simpl. now rewrite eqb_refl_s. Qed.

Section Solutions.
Variable w1 : world.
Variable m : model.
Variable cs : list constraint.
Variable u : setup.
Variable order : list name.

Hypothesis Hnamed : well_named m.
Hypothesis Hu : uinv w1 (pure_variables (m_vars m)) cs u.
Hypothesis Hlocal : forall c, In c cs -> concerns m c -> c_local w1 c.
Hypothesis Hgroups : forall c, In c cs -> is_ad c = true ->
  c_vars c <> [] /\ forall x, In x (c_vars c) -> In x (dkeys (pure_variables (m_vars m))).
Hypothesis Hperm : Permutation order (dkeys (pure_variables (m_vars m))).

Let i := GInfo (u_doms u) (u_cons u) (u_ad u).
Let pure := pure_variables (m_vars m).

Lemma order_In x : In x order <-> exists d, is_variable m x d.
Proof.
  unfold is_variable. rewrite <- pure_keys_In. split; intros H; [eapply Permutation_in; [exact Hperm|exact H]|].
  eapply Permutation_in; [symmetry; exact Hperm|exact H].
Qed.

Lemma order_NoDup : NoDup order.
Proof.
  eapply Permutation_NoDup; [symmetry; exact Hperm|]. apply pure_NoDup. apply Hnamed.
Qed.

Lemma variable_unique x d d' : is_variable m x d -> is_variable m x d' -> d = d'.
Proof. intros H H'. apply pure_dget in H; [|assumption]. apply pure_dget in H'; [|assumption]. congruence. Qed.

Lemma concerns_iff c : concerns m c <-> c_vars c <> [] /\ forall x, In x (c_vars c) -> In x order.
Proof.
  unfold concerns. split.
  - intros [(x & Hx) H]. apply mentions_vars in Hx. split; [destruct (c_vars c); [contradiction|discriminate]|].
    intros y Hy. apply order_In. apply H. now apply mentions_vars.
  - intros [Hne H]. split.
    + destruct (c_vars c) as [|x l] eqn:E; [contradiction|]. exists x. apply mentions_vars. rewrite E. now left.
    + intros x Hx. apply order_In. apply H. now apply mentions_vars.
Qed.

Lemma dom_In x d v : is_variable m x d ->
  (In v (dom i x) <-> In v d /\ single_ok w1 cs x v).
Proof.
  intros Hd. apply pure_dget in Hd; [|assumption].
  destruct (ui_doms _ _ _ _ Hu x d Hd) as (f & Hf & Hv).
  unfold dom, dget_or. change (i_doms i) with (u_doms u). rewrite Hf, filter_In.
  split; intros [H1 H2]; (split; [assumption|]); now apply (Hv v H1).
Qed.

(** What passes at every step. *)
Definition stepwise (l : subst) : Prop :=
  forall p x v q, l = p ++ (x, v) :: q -> In v (dom i x) /\ passed w1 i x ([] ++ p) v = true.

Lemma stepwise_sound l : map fst l = order -> stepwise l ->
  solves (evaluates_true w1) m cs l.
Proof.
  intros Hkeys Hstep.
  assert (Hnd : NoDup (map fst l)) by (rewrite Hkeys; apply order_NoDup).
  assert (Hsplit : forall p x v q, l = p ++ (x, v) :: q -> ~ In x (dkeys p) /\ dset p x v = p ++ [(x, v)]).
  { intros p x v q ->. assert (Hn : ~ In x (dkeys p)); [|split; [assumption|now apply dset_new]].
    rewrite map_app in Hnd. simpl in Hnd. apply NoDup_remove_2 in Hnd. intros Hin. apply Hnd.
    apply in_or_app. now left. }
  split.
  - split; [assumption|]. split; [intros x; rewrite Hkeys; apply order_In|].
    intros x v d Hin Hd. apply in_split in Hin. destruct Hin as (p & q & E).
    destruct (Hstep p x v q E) as [Hv _]. apply (dom_In x d v Hd) in Hv. tauto.
  - intros c Hc Hcon. pose proof (proj1 (concerns_iff c) Hcon) as [Hne Hvars].
    assert (Hvars' : forall y, In y (c_vars c) -> In y (map fst l)) by (intros y Hy; rewrite Hkeys; auto).
    unfold evaluates_true. destruct (is_ad c) eqn:Had.
    + (* all different *)
      unfold is_ad in Had. destruct (c_body c) as [b|e|xs] eqn:Eb; try discriminate.
      assert (Ecv : c_vars c = dedup xs) by (unfold c_vars; now rewrite Eb).
      unfold ceval. rewrite Eb, <- Ecv.
      destruct (ad_evaluate_spec l (c_vars c) (c_vars_NoDup c)) as (b & -> & Hb).
      { intros x Hx. apply (proj1 (dget_Some l x)). now apply Hvars'. }
      f_equal. apply Hb.
      assert (Hwlog : forall x y p v q, l = p ++ (x, v) :: q -> In x (c_vars c) -> In y (c_vars c) -> x <> y ->
                        In y (dkeys p) -> dget l x <> dget l y).
      { intros x y p v q E Hx Hy Hxy Hyp. destruct (Hsplit _ _ _ _ E) as [Hxp Ed].
        destruct (Hstep p x v q E) as [_ Hp]. rewrite passed_iff in Hp. cbn [app] in Hp. destruct Hp as [Hp _].
        rewrite E. rewrite dget_mid by assumption. rewrite dget_prefix by assumption.
        specialize (Hp y). rewrite Ed, dget_prefix in Hp by assumption. intros Heq. symmetry in Heq. revert Heq.
        apply Hp. change (i_ad i) with (u_ad u). apply (ui_ad _ _ _ _ Hu). exists c.
        split; [assumption|]. split; [unfold is_ad; now rewrite Eb|]. auto. }
      intros x y Hx Hy Hxy.
      destruct (last_var l [x; y]) as (p & z & v & q & E & Hz & Hall); [discriminate| |].
      { intros z [<-|[<-|[]]]; auto. }
      rewrite map_app in Hall. simpl in Hall.
      destruct Hz as [<-|[<-|[]]].
      * apply (Hwlog x y p v q E Hx Hy Hxy). specialize (Hall y (or_intror (or_introl eq_refl))).
        apply in_app_iff in Hall. destruct Hall as [Hall|[Hall|[]]]; [assumption|contradiction].
      * apply not_eq_sym. apply (Hwlog y x p v q E Hy Hx (not_eq_sym Hxy)). specialize (Hall x (or_introl eq_refl)).
        apply in_app_iff in Hall. destruct Hall as [Hall|[Hall|[]]]; [assumption|]. congruence.
    + destruct (c_vars c) as [|x0 [|x1 rest]] eqn:Ecv; [contradiction| |].
      * (* one variable *)
        assert (Hx0 : In x0 (map fst l)) by (apply Hvars'; now left).
        destruct (proj1 (dget_Some l x0) Hx0) as (v & Hv). pose proof (dget_In l x0 v Hv) as Hin.
        apply in_split in Hin. destruct Hin as (p & q & E).
        destruct (Hstep p x0 v q E) as [Hdom _].
        destruct (proj1 (order_In x0) (Hvars x0 (or_introl eq_refl))) as (d & Hd).
        apply (dom_In x0 d v Hd) in Hdom. destruct Hdom as [_ Hs].
        rewrite <- (Hs c Hc Had Ecv). apply (Hlocal c Hc Hcon). rewrite Ecv. intros y [<-|[]].
        simpl. now rewrite eqb_refl_s.
      * (* several variables *)
        destruct (last_var l (c_vars c)) as (p & x & v & q & E & Hx & Hall);
          [rewrite Ecv; discriminate|rewrite Ecv; assumption|].
        destruct (Hsplit _ _ _ _ E) as [Hxp Ed].
        destruct (Hstep p x v q E) as [_ Hp]. rewrite passed_iff in Hp. cbn [app] in Hp. destruct Hp as [_ Hp].
        rewrite Ed in Hp. rewrite <- (Hp c).
        -- apply (Hlocal c Hc Hcon). intros y Hy. rewrite E.
           replace (p ++ (x, v) :: q) with ((p ++ [(x, v)]) ++ q) by (rewrite <- app_assoc; reflexivity).
           apply dget_prefix. now apply Hall.
        -- change (i_cons i) with (u_cons u). apply (ui_cons _ _ _ _ Hu). rewrite Ecv in *.
           repeat split; auto. simpl. lia.
        -- exact Hall.
Qed.

Lemma solution_stepwise l : map fst l = order -> solves (evaluates_true w1) m cs l -> stepwise l.
Proof.
  intros Hkeys [(Hnd & Hk & Hvals) Hsat] p x v q E.
  assert (Hxp : ~ In x (dkeys p)).
  { rewrite E, map_app in Hnd. simpl in Hnd. apply NoDup_remove_2 in Hnd. intros Hin. apply Hnd.
    apply in_or_app. now left. }
  assert (Hgx : dget l x = Some v) by (rewrite E; now apply dget_mid).
  assert (Hinx : In (x, v) l) by (rewrite E; apply in_or_app; right; now left).
  split.
  - assert (Hx : In x (map fst l)) by (change x with (fst (x, v)); now apply in_map).
    apply Hk in Hx. destruct Hx as (d & Hd). apply (dom_In x d v Hd). split; [now apply (Hvals x v d)|].
    intros c Hc Had Ecv.
    assert (Hcon : concerns m c).
    { apply concerns_iff. rewrite Ecv. split; [discriminate|]. intros y [<-|[]]. apply order_In. eauto. }
    rewrite <- (Hsat c Hc Hcon). apply (Hlocal c Hc Hcon). rewrite Ecv. intros y [<-|[]]. simpl.
    rewrite eqb_refl_s. congruence.
  - cbn [app]. apply passed_iff. rewrite dset_new by assumption.
    assert (Hpre : forall y, In y (dkeys (p ++ [(x, v)])) -> dget (p ++ [(x, v)]) y = dget l y).
    { intros y Hy. rewrite E.
      replace (p ++ (x, v) :: q) with ((p ++ [(x, v)]) ++ q) by (rewrite <- app_assoc; reflexivity).
      symmetry. now apply dget_prefix. }
    split.
    + intros y Hy Hd. change (i_ad i) with (u_ad u) in Hy. apply (ui_ad _ _ _ _ Hu) in Hy.
      destruct Hy as (c & Hc & Had & Hx & Hy & Hxy).
      destruct (Hgroups c Hc Had) as [Hne Hin].
      assert (Hcon : concerns m c).
      { apply concerns_iff. split; [assumption|]. intros z Hz. apply order_In, pure_keys_In. auto. }
      specialize (Hsat c Hc Hcon). unfold evaluates_true, ceval in Hsat. unfold is_ad in Had.
      destruct (c_body c) as [b|e|xs] eqn:Eb; try discriminate.
      assert (Ecv : c_vars c = dedup xs) by (unfold c_vars; now rewrite Eb). rewrite <- Ecv in Hsat.
      destruct (ad_evaluate_spec l (c_vars c) (c_vars_NoDup c)) as (b & Hb & Hd').
      { intros z Hz. apply (proj1 (dget_Some l z)). unfold dkeys. rewrite Hkeys. apply concerns_iff in Hcon. now apply Hcon. }
      assert (b = true) by congruence.
      apply (proj1 Hd' H x y Hx Hy Hxy). rewrite Hgx. symmetry. rewrite <- Hpre; [assumption|].
      apply dget_Some. eauto.
    + intros c Hc Hvars. change (i_cons i) with (u_cons u) in Hc. apply (ui_cons _ _ _ _ Hu) in Hc.
      destruct Hc as (Hc & Had & _ & Hx).
      assert (Hcon : concerns m c).
      { apply concerns_iff. split; [destruct (c_vars c); [contradiction|discriminate]|].
        intros z Hz. rewrite <- Hkeys, E. specialize (Hvars z Hz).
        unfold dkeys in Hvars. rewrite map_app in *. simpl in *. apply in_app_iff in Hvars. apply in_app_iff.
        destruct Hvars as [|[|[]]]; [left|right; left]; assumption. }
      rewrite <- (Hsat c Hc Hcon). apply (Hlocal c Hc Hcon). intros y Hy. apply Hpre. now apply Hvars.
Qed.

Lemma enum_iff s :
  In s (enum w1 i order []) <-> map fst s = order /\ solves (evaluates_true w1) m cs s.
Proof.
  rewrite (enum_In w1 i order [] s) by apply order_NoDup. split.
  - intros (l & -> & Hl & Hst). simpl. split; [assumption|]. apply stepwise_sound; [assumption|exact Hst].
  - intros [Hk Hs]. exists s. split; [reflexivity|]. split; [assumption|]. now apply solution_stepwise.
Qed.

(** Every solution, as a dict, is enumerated. *)
Lemma solves_reorder t : solves (evaluates_true w1) m cs t ->
  exists s, map fst s = order /\ same_dict s t /\ solves (evaluates_true w1) m cs s.
Proof.
  intros [(Hnd & Hk & Hvals) Hsat].
  assert (Hall : forall x, In x order -> exists v, dget t x = Some v).
  { intros x Hx. apply (proj1 (dget_Some t x)). apply Hk. now apply order_In. }
  set (s := map (fun x => (x, match dget t x with Some v => v | None => 0 end)) order).
  assert (Hks : map fst s = order) by (unfold s; rewrite map_map; apply map_id).
  assert (Hdg : forall l x, (forall y, In y l -> exists v, dget t y = Some v) ->
     dget (map (fun x => (x, match dget t x with Some v => v | None => 0 end)) l) x =
     if memb x l then dget t x else None).
  { induction l as [|y l IH]; intros x Hl; [reflexivity|]. simpl.
    destruct (String.eqb_spec x y) as [E|E]; simpl.
    - subst y. destruct (Hl x (or_introl eq_refl)) as (v & ->). reflexivity.
    - apply IH. intros z Hz. apply Hl. now right. }
  assert (Hsame : same_dict s t).
  { intros x. unfold s. rewrite Hdg by assumption. destruct (memb x order) eqn:E; [reflexivity|].
    symmetry. apply dget_None. intros Hin. apply memb_false in E. apply E. apply order_In. now apply Hk. }
  exists s. split; [assumption|]. split; [assumption|]. split.
  - split; [rewrite Hks; apply order_NoDup|]. split; [intros x; rewrite Hks; apply order_In|].
    intros x v d Hin Hd. apply (Hvals x v d); [|assumption]. apply dget_In. rewrite <- Hsame.
    apply dget_NoDup; [unfold dkeys; rewrite Hks; apply order_NoDup|assumption].
  - intros c Hc Hcon. unfold evaluates_true. rewrite <- (Hsat c Hc Hcon). apply (Hlocal c Hc Hcon). intros x _. apply Hsame.
Qed.

(** An exception raised by the search comes from evaluating a constraint. *)
Lemma raises_eval ex : raises w1 i order [] ex ->
  exists c s, In c cs /\ concerns m c /\
    (forall x v, In (x, v) s -> exists d, is_variable m x d /\ In v d) /\
    (forall x, mentions c x -> In x (map fst s)) /\ ceval w1 c s = Err ex.
Proof.
  intros (p & x & q & l & v & Ho & Hl & Hst & Hv & Hacc). cbn [app] in Hacc.
  apply accept_err in Hacc. destruct Hacc as (c & Hc & Hvars & He).
  change (i_cons i) with (u_cons u) in Hc. apply (ui_cons _ _ _ _ Hu) in Hc. destruct Hc as (Hc & Had & _ & Hx).
  pose proof order_NoDup as Hnd. rewrite Ho in Hnd.
  assert (Hxl : ~ In x (dkeys l)).
  { unfold dkeys. rewrite Hl. apply NoDup_remove_2 in Hnd. intros Hin. apply Hnd. apply in_or_app. now left. }
  rewrite dset_new in Hvars, He by assumption.
  assert (Hkeys : forall z, In z (dkeys (l ++ [(x, v)])) -> In z order).
  { intros z Hz. unfold dkeys in Hz. rewrite map_app, Hl in Hz. simpl in Hz. rewrite Ho. apply in_app_iff in Hz.
    apply in_app_iff. destruct Hz as [|[|[]]]; [left|right; left]; assumption. }
  exists c, (l ++ [(x, v)]). split; [assumption|]. split.
  { apply concerns_iff. split; [destruct (c_vars c); [contradiction|discriminate]|]. intros z Hz. now apply Hkeys, Hvars. }
  split; [|split; [|assumption]].
  - intros y a Hin.
    assert (Hy : In y order) by (apply Hkeys; change y with (fst (y, a)); now apply in_map).
    apply order_In in Hy. destruct Hy as (d & Hd). exists d. split; [assumption|].
    apply in_app_iff in Hin. destruct Hin as [Hin|[E|[]]].
    + apply in_split in Hin. destruct Hin as (l1 & l2 & E). destruct (Hst l1 y a l2 E) as [Ha _].
      apply (dom_In y d a Hd) in Ha. tauto.
    + inversion E; subst. apply (dom_In y d a Hd) in Hv. tauto.
  - intros z Hz. apply Hvars. now apply mentions_vars.
Qed.

End Solutions.
