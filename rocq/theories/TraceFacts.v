(** The search with a consumer that changes the program's objects between solutions. *)
From Coq Require Import Permutation.
From Verif Require Import Solver SpecSolve ExprFacts DictFacts CodeFacts SearchFacts LoopFacts EnumFacts SetupFacts
  SolveFacts MasterFacts.
Open Scope list_scope.
Open Scope Z_scope.

Section Trace.
Variable i : ginfo.
Variable consumer : nat -> world -> subst -> res world.

(** An invariant of the objects, depending on the solutions found so far. *)
Variable I : list subst -> world -> Prop.
Hypothesis Hstep : forall k w s w' ys, I ys w -> consumer k w s = Ok w' -> I (ys ++ [s]) w'.

Definition sometime (w : world) : Prop := exists ys, I ys w.

Lemma accept_In w x s dm d : filterM (accept w i x s) dm = Ok d ->
  forall v, In v d <-> In v dm /\ accept w i x s v = Ok true.
Proof.
  revert d. induction dm as [|u dm IH]; intros d H; [injection H as <-; cbn; tauto|].
  cbn [filterM] in H. destruct (accept w i x s u) as [b|] eqn:Eu; [|discriminate]. cbn [bind] in H.
  destruct (filterM (accept w i x s) dm) as [d'|]; [|discriminate]. cbn [bind] in H. injection H as <-.
  intros v. specialize (IH d' eq_refl v). destruct b; cbn [In]; rewrite IH.
  - split; [intros [->|[]]|intros [[->|] ?]]; auto.
  - split; [intros []; auto|intros [[->|] ?]; auto; congruence].
Qed.

Lemma accept_not w x s dm d v : filterM (accept w i x s) dm = Ok d -> In v dm -> ~ In v d ->
  accept w i x s v = Ok false.
Proof.
  revert d. induction dm as [|u dm IH]; intros d H Hv Hn; [contradiction|].
  cbn [filterM] in H. destruct (accept w i x s u) as [b|] eqn:Eu; [|discriminate]. cbn [bind] in H.
  destruct (filterM (accept w i x s) dm) as [d'|]; [|discriminate]. cbn [bind] in H. injection H as <-.
  destruct Hv as [->|Hv].
  - destruct b; [|assumption]. exfalso. apply Hn. now left.
  - apply (IH d' eq_refl Hv). intros Hin. apply Hn. destruct b; [now right|assumption].
Qed.

Lemma dset_NoDup_app (s : subst) x v rest : NoDup (dkeys s ++ x :: rest) ->
  ~ In x (dkeys s) /\ dset s x v = s ++ [(x, v)] /\ NoDup (dkeys (dset s x v) ++ rest).
Proof.
  intros Hnd.
  assert (Hx : ~ In x (dkeys s)).
  { intros Hin. apply NoDup_remove_2 in Hnd. apply Hnd. apply in_or_app. now left. }
  split; [assumption|]. rewrite dset_new by assumption. split; [reflexivity|].
  unfold dkeys. rewrite map_app, <- app_assoc. exact Hnd.
Qed.

(** What is known about a solution that was found. *)
Definition traced (xs : list name) (s y : subst) : Prop :=
  exists l, y = s ++ l /\ map fst l = xs /\
    forall p x v q, l = p ++ (x, v) :: q ->
      In v (dom i x) /\ exists w, sometime w /\ accept w i x (s ++ p) v = Ok true.

(** What is known about a candidate that was not found. *)
Definition pruned (ys0 ys : list subst) (s l : subst) : Prop :=
  exists p x v q w ys1, l = p ++ (x, v) :: q /\ prefix ys1 ys /\ I (ys0 ++ ys1) w /\
    accept w i x (s ++ p) v = Ok false.

Lemma pruned_app ys0 ys zs s l : pruned ys0 ys s l -> pruned ys0 (ys ++ zs) s l.
Proof.
  intros (p & x & v & q & w & ys1 & H1 & H2 & H3 & H4). exists p, x, v, q, w, ys1.
  repeat split; auto. now apply prefix_app.
Qed.
Lemma pruned_shift ys0 ys zs s l : pruned (ys0 ++ ys) zs s l -> pruned ys0 (ys ++ zs) s l.
Proof.
  intros (p & x & v & q & w & ys1 & H1 & H2 & H3 & H4). exists p, x, v, q, w, (ys ++ ys1).
  repeat split; auto; [now apply prefix_app_r|]. now rewrite app_assoc.
Qed.

Lemma search_trace xs : forall k w s ys w' r ys0,
  NoDup (dkeys s ++ xs) -> (forall x, In x xs -> In x (dkeys (i_doms i))) ->
  I ys0 w -> search i consumer xs k w s = (ys, w', r) ->
  (forall y, In y ys -> traced xs s y) /\
  match r with
  | Ok _ => I (ys0 ++ ys) w' /\
      forall l, map fst l = xs -> (forall x v, In (x, v) l -> In v (dom i x)) ->
        In (s ++ l) ys \/ pruned ys0 ys s l
  | Err _ => True
  end.
Proof.
  induction xs as [|x rest IH]; intros k w s ys w' r ys0 Hnd Hx HI H.
  - cbn [search] in H. destruct (consumer k w s) as [w1|ex] eqn:Ec; injection H as <- <- <-.
    + assert (Ht : forall y, In y [s] -> traced [] s y).
      { intros y [<-|[]]. exists []. rewrite app_nil_r. repeat split; destruct p; discriminate. }
      split; [exact Ht|]. split; [eapply Hstep; eauto|]. intros l Hl _. left. destruct l; [|discriminate].
      rewrite app_nil_r. now left.
    + split; [|exact Logic.I]. intros y [<-|[]]. exists []. rewrite app_nil_r. repeat split; destruct p; discriminate.
  - cbn [search] in H. unfold filter_domain in H.
    destruct (proj1 (dget_Some (i_doms i) x) (Hx x (or_introl eq_refl))) as (dm & Hdm). rewrite Hdm in H.
    assert (Hdom : dom i x = dm) by (unfold dom, dget_or; now rewrite Hdm).
    destruct (filterM (accept w i x s) dm) as [d|ex] eqn:Ef.
    2:{ injection H as <- <- <-. split; [intros y []|exact Logic.I]. }
    (* the loop over the values *)
    assert (Hloop : forall d k w1 ys w' r ys1,
      (forall v, In v d -> In v dm /\ accept w i x s v = Ok true) ->
      I (ys0 ++ ys1) w1 ->
      values (fun k w v => search i consumer rest k w (dset s x v)) d k w1 = (ys, w', r) ->
      (forall y, In y ys -> traced (x :: rest) s y) /\
      match r with
      | Ok _ => I (ys0 ++ ys1 ++ ys) w' /\
          forall v l, In v d -> map fst l = rest -> (forall z u, In (z, u) l -> In u (dom i z)) ->
            In (s ++ (x, v) :: l) ys \/ pruned (ys0 ++ ys1) ys s ((x, v) :: l)
      | Err _ => True
      end).
    { clear d Ef H k ys w' r. induction d as [|v d IHd]; intros k w1 ys w' r ys1 Hd HI1 H; cbn [values] in H.
      - injection H as <- <- <-. split; [intros y []|]. split; [rewrite app_nil_r; exact HI1|]. intros v l [].
      - destruct (dset_NoDup_app s x v rest Hnd) as (Hxs & Eset & Hnd').
        destruct (search i consumer rest k w1 (dset s x v)) as [[ysa wa] ra] eqn:Es.
        destruct (IH k w1 (dset s x v) ysa wa ra (ys0 ++ ys1) Hnd' (fun y Hy => Hx y (or_intror Hy)) HI1 Es) as (Ha & Hra).
        assert (Ha' : forall y, In y ysa -> traced (x :: rest) s y).
        { intros y Hy. destruct (Ha y Hy) as (l & -> & Hl & Hp). rewrite Eset in *. exists ((x, v) :: l).
          split; [now rewrite <- app_assoc|]. split; [cbn; now rewrite Hl|].
          intros p z u q E. apply app_eq_snoc_r in E. destruct E as [(-> & Ez & ->)|(p' & -> & E)].
          - injection Ez as <- <-. rewrite app_nil_r. destruct (Hd v (or_introl eq_refl)) as [H1 H2].
            split; [now rewrite Hdom|]. exists w. split; [now exists ys0|assumption].
          - specialize (Hp p' z u q E). now rewrite <- app_assoc in Hp. }
        destruct ra as [ka|ex].
        + destruct Hra as [HIa Hca].
          destruct (values (fun k w v => search i consumer rest k w (dset s x v)) d ka wa) as [[ysb wb] rb] eqn:Ev.
          injection H as <- <- <-.
          assert (HIa' : I (ys0 ++ (ys1 ++ ysa)) wa) by (now rewrite app_assoc).
          destruct (IHd ka wa ysb wb rb (ys1 ++ ysa) (fun u Hu => Hd u (or_intror Hu)) HIa' Ev) as (Hb & Hrb).
          split; [intros y Hy; apply in_app_or in Hy; destruct Hy; auto|].
          destruct rb as [kb|ex]; [|exact Logic.I]. destruct Hrb as [HIb Hcb].
          split; [rewrite <- app_assoc in HIb; exact HIb|].
          intros u l Hu Hl Hld. destruct Hu as [->|Hu].
          * destruct (Hca l Hl Hld) as [Hin|Hp].
            -- left. apply in_or_app. left. rewrite Eset in Hin. now rewrite <- app_assoc in Hin.
            -- right. apply pruned_app. destruct Hp as (p & z & t & q & w2 & ys2 & H1 & H2 & H3 & H4).
               exists ((x, u) :: p), z, t, q, w2, ys2. rewrite H1. repeat split; auto.
               rewrite Eset, <- app_assoc in H4. exact H4.
          * destruct (Hcb u l Hu Hl Hld) as [Hin|Hp]; [left; apply in_or_app; now right|].
            right. apply pruned_shift. now rewrite <- app_assoc.
        + injection H as <- <- <-. split; [exact Ha'|exact Logic.I]. }
    assert (HI0 : I (ys0 ++ []) w) by (now rewrite app_nil_r).
    destruct (Hloop d k w ys w' r [] (fun v Hv => proj1 (accept_In w x s dm d Ef v) Hv) HI0 H) as (Ht & Hr).
    split; [exact Ht|]. destruct r as [k'|ex]; [|exact Logic.I]. destruct Hr as [Hr1 Hr2]. split; [exact Hr1|].
    intros l Hl Hld. destruct l as [|[y v] l]; [discriminate|]. injection Hl as -> Hl.
    assert (Hv : In v dm) by (rewrite <- Hdom; apply Hld; now left).
    destruct (in_dec Z.eq_dec v d) as [Hin|Hout].
    + destruct (Hr2 v l Hin Hl) as [H1|H1]; [intros z u Hu; apply Hld; now right|auto|].
      right. rewrite app_nil_r in H1. exact H1.
    + right. exists [], x, v, l, w, []. split; [reflexivity|]. split; [exists ys; reflexivity|]. rewrite !app_nil_r.
      split; [assumption|]. eapply accept_not; eauto.
Qed.

(** Where an exception comes from. *)
Lemma filterM_err {A} (f : A -> res bool) l ex : filterM f l = Err ex -> exists v, In v l /\ f v = Err ex.
Proof.
  induction l as [|v l IH]; cbn [filterM]; intros H; [discriminate|].
  destruct (f v) as [b|ex'] eqn:Ef; cbn [bind] in H.
  - destruct (filterM f l) as [d|ex']; cbn [bind] in H; [discriminate|]. injection H as ->.
    destruct (IH eq_refl) as (u & Hu & E). exists u. split; [now right|exact E].
  - injection H as ->. exists v. split; [now left|exact Ef].
Qed.

Lemma search_err xs : forall k w s ys w' ex ys0,
  NoDup (dkeys s ++ xs) -> (forall x, In x xs -> In x (dkeys (i_doms i))) ->
  I ys0 w -> search i consumer xs k w s = (ys, w', Err ex) ->
  exists w2 l, sometime w2 /\ (forall x v, In (x, v) l -> In v (dom i x)) /\
    ((exists x v q, xs = map fst l ++ x :: q /\ In v (dom i x) /\ accept w2 i x (s ++ l) v = Err ex) \/
     (map fst l = xs /\ exists k', consumer k' w2 (s ++ l) = Err ex)).
Proof.
  induction xs as [|x rest IH]; intros k w s ys w' ex ys0 Hnd Hx HI H.
  - cbn [search] in H. destruct (consumer k w s) as [w1|ex'] eqn:Ec; [discriminate|]. injection H as <- <- <-.
    exists w, []. split; [now exists ys0|]. split; [intros x v []|]. right. split; [reflexivity|].
    rewrite app_nil_r. eauto.
  - cbn [search] in H. unfold filter_domain in H.
    destruct (proj1 (dget_Some (i_doms i) x) (Hx x (or_introl eq_refl))) as (dm & Hdm). rewrite Hdm in H.
    assert (Hdom : dom i x = dm) by (unfold dom, dget_or; now rewrite Hdm).
    destruct (filterM (accept w i x s) dm) as [d|ex'] eqn:Ef.
    2:{ injection H as <- <- <-. apply filterM_err in Ef. destruct Ef as (v & Hv & Ef). exists w, [].
        split; [now exists ys0|]. split; [intros z u []|]. left. exists x, v, rest. rewrite app_nil_r, Hdom. auto. }
    assert (Hd : forall v, In v d -> In v dm) by (intros v Hv; now apply (accept_In w x s dm d Ef v)).
    clear Ef. revert k w ys ys0 HI H. induction d as [|v d IHd]; intros k w ys ys0 HI H; cbn [values] in H; [discriminate|].
    destruct (dset_NoDup_app s x v rest Hnd) as (Hxs & Eset & Hnd').
    destruct (search i consumer rest k w (dset s x v)) as [[ysa wa] ra] eqn:Es.
    destruct ra as [ka|exa].
    + destruct (values (fun k w v => search i consumer rest k w (dset s x v)) d ka wa) as [[ysb wb] rb] eqn:Ev.
      injection H as <- <- ->.
      destruct (search_trace rest k w (dset s x v) ysa wa (Ok ka) ys0 Hnd' (fun y Hy => Hx y (or_intror Hy)) HI Es) as (_ & HIa & _).
      exact (IHd (fun u Hu => Hd u (or_intror Hu)) ka wa ysb _ HIa Ev).
    + injection H as <- <- <-.
      destruct (IH k w (dset s x v) ysa wa exa ys0 Hnd' (fun y Hy => Hx y (or_intror Hy)) HI Es) as (w2 & l & H1 & H2 & H3).
      exists w2, ((x, v) :: l). split; [exact H1|]. split.
      { intros z u [E|Hin]; [injection E as <- <-; rewrite Hdom; apply Hd; now left|now apply H2]. }
      rewrite Eset, <- app_assoc in H3. cbn [app map fst] in *.
      destruct H3 as [(z & u & q & -> & Hu & Ha)|(-> & Hc)]; [left; exists z, u, q; auto|right; auto].
Qed.

End Trace.

Lemma no_unsatisfied_false w cs s : no_unsatisfied w cs s = Ok false ->
  exists c, In c cs /\ (forall z, In z (c_vars c) -> In z (dkeys s)) /\ ceval w c s = Ok false.
Proof.
  induction cs as [|c cs IH]; cbn [no_unsatisfied]; intros H; [discriminate|].
  unfold unsatisfied in H. destruct (forallb (fun x => dmem s x) (c_vars c)) eqn:Ef.
  - rewrite forallb_forall in Ef. destruct (ceval w c s) as [[|]|] eqn:Ec; cbn [bind negb] in H; try discriminate.
    + destruct (IH H) as (c' & H1 & H2). exists c'. split; [now right|exact H2].
    + exists c. split; [now left|]. split; [|exact Ec]. intros z Hz. now apply dmem_In, Ef.
  - cbn [bind] in H. destruct (IH H) as (c' & H1 & H2). exists c'. split; [now right|exact H2].
Qed.

Lemma accept_false w i x s v : accept w i x s v = Ok false ->
  (exists y, In y (dget_or (i_ad i) x []) /\ dget (dset s x v) y = Some v) \/
  (exists c, In c (dget_or (i_cons i) x []) /\ (forall z, In z (c_vars c) -> In z (dkeys (dset s x v))) /\
             ceval w c (dset s x v) = Ok false).
Proof.
  unfold accept. destruct (existsb _ _) eqn:Ex.
  - intros _. left. apply existsb_exists in Ex. destruct Ex as (y & Hy & H). exists y. split; [assumption|].
    destruct (dget (dset s x v) y) as [u|]; [|discriminate]. apply Z.eqb_eq in H. now subst.
  - intros H. right. now apply no_unsatisfied_false.
Qed.

Lemma accept_passed w i x s v : accept w i x s v = Ok true -> passed w i x s v = true.
Proof. unfold passed. now intros ->. Qed.

(** ** Soundness for the constraints whose evaluation does not change *)

Section Sub.
Variable w1 : world.
Variable m : model.
Variable cs sub : list constraint.
Variable u : setup.
Variable order : list name.
Variable stable : world -> Prop.       (* the worlds of the run *)

Hypothesis Hnamed : well_named m.
Hypothesis Hu : uinv w1 (pure_variables (m_vars m)) cs u.
Hypothesis Hsub : forall c, In c sub -> In c cs.
Hypothesis Hlocal : forall c, In c sub -> concerns m c -> c_local w1 c.
Hypothesis Hperm : Permutation order (dkeys (pure_variables (m_vars m))).
Hypothesis Hst : forall w c s, stable w -> In c sub -> ceval w c s = ceval w1 c s.

Let i := GInfo (u_doms u) (u_cons u) (u_ad u).

Lemma sub_order_In x : In x order <-> exists d, is_variable m x d.
Proof. exact (order_In m order Hperm x). Qed.

Lemma traced_sound l : map fst l = order ->
  (forall p x v q, l = p ++ (x, v) :: q ->
     In v (dom i x) /\ exists w, stable w /\ accept w i x ([] ++ p) v = Ok true) ->
  solves (evaluates_true w1) m sub l.
Proof.
  intros Hkeys Htr.
  assert (Hnd : NoDup (map fst l)) by (rewrite Hkeys; apply (order_NoDup m order Hnamed Hperm)).
  assert (Hsplit : forall p x v q, l = p ++ (x, v) :: q -> ~ In x (dkeys p) /\ dset p x v = p ++ [(x, v)]).
  { intros p x v q ->. assert (Hn : ~ In x (dkeys p)); [|split; [assumption|now apply dset_new]].
    rewrite map_app in Hnd. simpl in Hnd. apply NoDup_remove_2 in Hnd. intros Hin. apply Hnd.
    apply in_or_app. now left. }
  assert (Hdom : forall x d v, is_variable m x d -> In v (dom i x) -> In v d /\ single_ok w1 cs x v).
  { intros x d v Hd Hv. exact (proj1 (dom_In w1 m cs u Hnamed Hu x d v Hd) Hv). }
  split.
  - split; [assumption|]. split; [intros x; rewrite Hkeys; apply sub_order_In|].
    intros x v d Hin Hd. apply in_split in Hin. destruct Hin as (p & q & E).
    destruct (Htr p x v q E) as [Hv _]. apply (Hdom x d v Hd) in Hv. tauto.
  - intros c Hc Hcon. pose proof (proj1 (concerns_iff m order Hperm c) Hcon) as [Hne Hvars].
    assert (Hvars' : forall y, In y (c_vars c) -> In y (map fst l)) by (intros y Hy; rewrite Hkeys; auto).
    unfold evaluates_true. destruct (is_ad c) eqn:Had.
    + unfold is_ad in Had. destruct (c_body c) as [b|e|xs] eqn:Eb; try discriminate.
      assert (Ecv : c_vars c = dedup xs) by (unfold c_vars; now rewrite Eb).
      unfold ceval. rewrite Eb, <- Ecv.
      destruct (ad_evaluate_spec l (c_vars c) (c_vars_NoDup c)) as (b & -> & Hb).
      { intros x Hx. apply (proj1 (dget_Some l x)). now apply Hvars'. }
      f_equal. apply Hb.
      assert (Hwlog : forall x y p v q, l = p ++ (x, v) :: q -> In x (c_vars c) -> In y (c_vars c) -> x <> y ->
                        In y (dkeys p) -> dget l x <> dget l y).
      { intros x y p v q E Hx Hy Hxy Hyp. destruct (Hsplit _ _ _ _ E) as [Hxp Ed].
        destruct (Htr p x v q E) as [_ (w & _ & Hp)]. apply accept_passed in Hp. rewrite passed_iff in Hp. cbn [app] in Hp. destruct Hp as [Hp _].
        rewrite E. rewrite dget_mid by assumption. rewrite dget_prefix by assumption.
        specialize (Hp y). rewrite Ed, dget_prefix in Hp by assumption. intros Heq. symmetry in Heq. revert Heq.
        apply Hp. change (i_ad i) with (u_ad u). apply (ui_ad _ _ _ _ Hu). exists c.
        split; [auto|]. split; [unfold is_ad; now rewrite Eb|]. auto. }
      intros x y Hx Hy Hxy.
      destruct (last_var l [x; y]) as (p & z & v & q & E & Hz & Hall); [discriminate| |].
      { intros z [<-|[<-|[]]]; auto. }
      rewrite map_app in Hall. simpl in Hall.
      destruct Hz as [<-|[<-|[]]].
      * apply (Hwlog x y p v q E Hx Hy Hxy). specialize (Hall y (or_intror (or_introl eq_refl))).
        apply in_app_iff in Hall. destruct Hall as [Hall|[Hall|[]]]; [assumption|contradiction].
      * apply not_eq_sym. apply (Hwlog y x p v q E Hy Hx (not_eq_sym Hxy)). specialize (Hall x (or_introl eq_refl)).
        apply in_app_iff in Hall. destruct Hall as [Hall|[Hall|[]]]; [assumption|]. congruence.
    + destruct (c_vars c) as [|x0 [|x1 rest]] eqn:Ecv; [contradiction| |].
      * assert (Hx0 : In x0 (map fst l)) by (apply Hvars'; now left).
        destruct (proj1 (dget_Some l x0) Hx0) as (v & Hv). pose proof (dget_In l x0 v Hv) as Hin.
        apply in_split in Hin. destruct Hin as (p & q & E).
        destruct (Htr p x0 v q E) as [Hdm _].
        destruct (proj1 (sub_order_In x0) (Hvars x0 (or_introl eq_refl))) as (d & Hd).
        apply (Hdom x0 d v Hd) in Hdm. destruct Hdm as [_ Hs].
        rewrite <- (Hs c (Hsub c Hc) Had Ecv). apply (Hlocal c Hc Hcon). rewrite Ecv. intros y [<-|[]].
        simpl. now rewrite eqb_refl_s.
      * destruct (last_var l (c_vars c)) as (p & x & v & q & E & Hx & Hall);
          [rewrite Ecv; discriminate|rewrite Ecv; assumption|].
        destruct (Hsplit _ _ _ _ E) as [Hxp Ed].
        destruct (Htr p x v q E) as [_ (w & Hw & Hp)]. apply accept_passed in Hp. rewrite passed_iff in Hp. cbn [app] in Hp. destruct Hp as [_ Hp].
        rewrite Ed in Hp. rewrite <- (Hst w c _ Hw Hc) in *. rewrite <- (Hp c).
        -- rewrite !(Hst w c _ Hw Hc). apply (Hlocal c Hc Hcon). intros y Hy. rewrite E.
           replace (p ++ (x, v) :: q) with ((p ++ [(x, v)]) ++ q) by (rewrite <- app_assoc; reflexivity).
           apply dget_prefix. now apply Hall.
        -- change (i_cons i) with (u_cons u). apply (ui_cons _ _ _ _ Hu). rewrite Ecv in *.
           repeat split; auto. simpl. lia.
        -- exact Hall.
Qed.

(** A solution of the stable constraints can only be pruned by another constraint. *)
Lemma pruned_other l p x v q w : map fst l = order -> solves (evaluates_true w1) m sub l ->
  (forall c, In c cs -> is_ad c = true -> In c sub) ->
  (forall c, In c sub -> is_ad c = true ->
     c_vars c <> [] /\ forall x, In x (c_vars c) -> In x (dkeys (pure_variables (m_vars m)))) ->
  stable w -> l = p ++ (x, v) :: q -> accept w i x p v = Ok false ->
  exists c, In c cs /\ ~ In c sub /\ is_ad c = false /\ In x (c_vars c) /\
    (forall z, In z (c_vars c) -> In z (dkeys (p ++ [(x, v)]))) /\
    ceval w c (p ++ [(x, v)]) = Ok false.
Proof.
  intros Hkeys [(Hnd & Hk & Hvals) Hsat] Hads Hgroups Hw E Hacc.
  assert (Hxp : ~ In x (dkeys p)).
  { rewrite E, map_app in Hnd. simpl in Hnd. apply NoDup_remove_2 in Hnd. intros Hin. apply Hnd.
    apply in_or_app. now left. }
  assert (Hgx : dget l x = Some v) by (rewrite E; now apply dget_mid).
  assert (Hpre : forall y, In y (dkeys (p ++ [(x, v)])) -> dget (p ++ [(x, v)]) y = dget l y).
  { intros y Hy. rewrite E.
    replace (p ++ (x, v) :: q) with ((p ++ [(x, v)]) ++ q) by (rewrite <- app_assoc; reflexivity).
    symmetry. now apply dget_prefix. }
  apply accept_false in Hacc. rewrite dset_new in Hacc by assumption.
  destruct Hacc as [(y & Hy & Hd)|(c & Hc & Hvars & Hce)].
  - exfalso. change (i_ad i) with (u_ad u) in Hy. apply (ui_ad _ _ _ _ Hu) in Hy.
    destruct Hy as (c & Hc & Had & Hx & Hy & Hxy). pose proof (Hads c Hc Had) as Hcs.
    destruct (Hgroups c Hcs Had) as [Hne Hin].
    assert (Hcon : concerns m c).
    { apply (concerns_iff m order Hperm). split; [assumption|]. intros z Hz. apply sub_order_In, pure_keys_In. auto. }
    specialize (Hsat c Hcs Hcon). unfold evaluates_true, ceval in Hsat. unfold is_ad in Had.
    destruct (c_body c) as [b|e|xs] eqn:Eb; try discriminate.
    assert (Ecv : c_vars c = dedup xs) by (unfold c_vars; now rewrite Eb). rewrite <- Ecv in Hsat.
    destruct (ad_evaluate_spec l (c_vars c) (c_vars_NoDup c)) as (b & Hb & Hd').
    { intros z Hz. apply (proj1 (dget_Some l z)). unfold dkeys. rewrite Hkeys. apply (concerns_iff m order Hperm) in Hcon. now apply Hcon. }
    assert (b = true) by congruence.
    apply (proj1 Hd' H x y Hx Hy Hxy). rewrite Hgx. symmetry. rewrite <- Hpre; [assumption|].
    apply dget_Some. eauto.
  - change (i_cons i) with (u_cons u) in Hc. apply (ui_cons _ _ _ _ Hu) in Hc. destruct Hc as (Hc & Had & _ & Hx).
    exists c. split; [assumption|]. split; [|repeat split; assumption]. intros Hcs.
    assert (Hcon : concerns m c).
    { apply (concerns_iff m order Hperm). split; [destruct (c_vars c); [contradiction|discriminate]|].
      intros z Hz. rewrite <- Hkeys, E. specialize (Hvars z Hz).
      unfold dkeys in Hvars. rewrite map_app in *. simpl in *. apply in_app_iff in Hvars. apply in_app_iff.
      destruct Hvars as [|[|[]]]; [left|right; left]; assumption. }
    specialize (Hsat c Hcs Hcon). unfold evaluates_true in Hsat. rewrite (Hst w c _ Hw Hcs) in Hce.
    rewrite <- (Hlocal c Hcs Hcon (p ++ [(x, v)]) l) in Hsat; [congruence|]. intros y Hy. apply Hpre. now apply Hvars.
Qed.

End Sub.

(** ** Whole runs with an arbitrary consumer *)

Section Any.
Variable clk : nat -> Z.
Variable shuffle : list name -> list name.
Variable consumer : nat -> world -> subst -> res world.

Lemma drain_invariant (J : world -> Prop) f : forall k e g ys e' r,
  (forall k w s w', J w -> consumer k w s = Ok w' -> J w') ->
  (forall sv a, g <> GInit sv a) -> J (e_world e) ->
  drain clk shuffle f consumer k e g = Some (ys, e', r) -> J (e_world e').
Proof.
  induction f as [|f IH]; intros k e g ys e' r HJ Hg H0 H; [discriminate|]. rewrite drain_S in H.
  pose proof (micro_world clk shuffle e g Hg) as Hw. pose proof (fun sv a => micro_not_init clk shuffle e g sv a Hg) as Hg'.
  destruct (micro clk shuffle e g) as [[e1 g1] [|s| |ex]]; simpl in Hw, Hg'.
  - apply IH in H; auto. congruence.
  - destruct (consumer k (e_world e1) s) as [w|ex] eqn:Ec.
    + destruct (drain clk shuffle f consumer (S k) (set_world e1 w) g1) as [[[zs e2] r2]|] eqn:E; [|discriminate].
      injection H as <- <- <-. apply IH in E; auto. cbn. eapply HJ; [|exact Ec]. congruence.
    + injection H as <- <- <-. congruence.
  - injection H as <- <- <-. congruence.
  - injection H as <- <- <-. congruence.
Qed.

Inductive any_run (e : env) (sv : solver) (a : args) (ys : list subst) (e' : env) (r : option exn) : Prop :=
| AnyEmpty :
    ys = [] -> e_interrupt e' = None ->
    (m_solvable (w_model (e_world e)) = false /\ r = None /\ e_world e' = e_world e \/
     m_solvable (w_model (e_world e)) = true /\ exists w u,
       do_setup (s_compile sv) (e_world e) (x_additional a) = (w, u) /\ e_world e' = w /\
       match u with
       | Ok u => r = None /\ order_of shuffle sv a (w_model (e_world e)) u = []
       | Err ex => r = Some ex
       end) -> any_run e sv a ys e' r
| AnyLoop w u f ys0 w0 r0 :
    m_solvable (w_model (e_world e)) = true ->
    do_setup (s_compile sv) (e_world e) (x_additional a) = (w, Ok u) ->
    order_of shuffle sv a (w_model (e_world e)) u <> [] ->
    search (GInfo (u_doms u) (u_cons u) (u_ad u)) consumer (order_of shuffle sv a (w_model (e_world e)) u) 0 w [] = (ys0, w0, r0) ->
    drain clk shuffle f consumer 0 (start_env clk e w)
      (GLoop (run_local e sv a u) (Cfg [(order_of shuffle sv a (w_model (e_world e)) u, [])] []) 0) = Some (ys, e', r) ->
    prefix ys ys0 ->
    finish clk consumer (run_local e sv a u) (Cfg [(order_of shuffle sv a (w_model (e_world e)) u, [])] []) 0
      (start_env clk e w) e' ys r ys0 w0 (match r0 with Ok _ => None | Err ex => Some ex end) ->
    any_run e sv a ys e' r.

Lemma any_run_spec f e sv a ys e' r :
  shuffles shuffle -> well_named (w_model (e_world e)) ->
  objects (e_world e) (all_cons (w_model (e_world e)) a) ->
  drain clk shuffle f consumer 0 e (GInit sv a) = Some (ys, e', r) ->
  any_run e sv a ys e' r.
Proof.
  intros Hs Hn Ho H. destruct f as [|f]; [discriminate|]. rewrite drain_init in H. cbv zeta in H.
  destruct (m_solvable (w_model (e_world e))) eqn:Esol; cbn [negb] in H.
  2:{ injection H as <- <- <-. apply AnyEmpty; auto. }
  destruct (do_setup (s_compile sv) (e_world e) (x_additional a)) as [w [u|ex]] eqn:Es.
  2:{ injection H as <- <- <-. apply AnyEmpty; auto. right. split; [assumption|]. exists w, (Err ex). auto. }
  destruct (order_of shuffle sv a (w_model (e_world e)) u) as [|x names] eqn:Eo.
  { injection H as <- <- <-. apply AnyEmpty; auto. right. split; [assumption|]. exists w, (Ok u). auto. }
  destruct (order_facts shuffle _ _ _ _ _ sv a Hs Hn Ho Es) as (Hp & Hnd & Hin).
  assert (Hne : order_of shuffle sv a (w_model (e_world e)) u <> []) by (rewrite Eo; discriminate).
  rewrite <- Eo in H.
  set (i := GInfo (u_doms u) (u_cons u) (u_ad u)) in *.
  destruct (search i consumer (order_of shuffle sv a (w_model (e_world e)) u) 0 w []) as [[ys0 w0] r0] eqn:Esearch.
  destruct (urun_search i consumer _ 0 w Hne Hnd) as (n & Hn'). specialize (Hn' 0%nat). rewrite Esearch in Hn'.
  assert (Hu : urun i consumer (n + 0) 0 w (Cfg [(order_of shuffle sv a (w_model (e_world e)) u, [])] []) =
               Some (ys0, w0, match r0 with Ok _ => None | Err ex => Some ex end)).
  { rewrite Hn'. destruct r0; reflexivity. }
  pose proof (drain_urun clk shuffle consumer f 0 (start_env clk e w) (run_local e sv a u) _ 0 ys e' r
                (start_running clk e w) H _ _ _ _ Hu) as [Hpre Hfin].
  eapply AnyLoop; eauto.
Qed.

End Any.
