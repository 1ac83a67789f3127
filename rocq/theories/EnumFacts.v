(** The search with a passive consumer enumerates, in lexicographic order, the
    assignments accepted at every prefix. *)
From Coq Require Import Permutation.
From Verif Require Import Solver SpecSolve ExprFacts DictFacts SearchFacts LoopFacts.
Open Scope list_scope.
Open Scope Z_scope.

Section Enum.
Variable w : world.
Variable i : ginfo.

Definition dom (x : name) : list Z := dget_or (i_doms i) x [].
Definition passed (x : name) (s : subst) (v : Z) : bool :=
  match accept w i x s v with Ok b => b | Err _ => false end.

Fixpoint enum (xs : list name) (s : subst) : list subst :=
  match xs with
  | [] => [s]
  | x :: rest => flat_map (fun v => enum rest (dset s x v)) (filter (passed x s) (dom x))
  end.

Lemma filterM_Ok {A} (f : A -> res bool) l l' :
  filterM f l = Ok l' ->
  l' = filter (fun a => match f a with Ok b => b | Err _ => false end) l.
Proof.
  revert l'. induction l as [|a l IH]; intros l' H; [inversion H; reflexivity|].
  simpl in *. destruct (f a) as [b|]; [|discriminate]. cbn [bind] in H.
  destruct (filterM f l) as [r|]; [|discriminate]. cbn [bind] in H. inversion H; subst.
  rewrite (IH r eq_refl). destruct b; reflexivity.
Qed.

Lemma filterM_Err {A} (f : A -> res bool) l ex :
  filterM f l = Err ex -> exists a, In a l /\ f a = Err ex.
Proof.
  induction l as [|a l IH]; intros H; [discriminate|]. simpl in *.
  destruct (f a) as [b|e] eqn:E; cbn [bind] in H.
  - destruct (filterM f l) as [r|e]; [discriminate|]. inversion H; subst.
    destruct (IH eq_refl) as (a' & Hin & Ha). eauto.
  - inversion H; subst. eauto.
Qed.

Lemma filterM_total {A} (f : A -> res bool) l :
  (forall a, In a l -> exists b, f a = Ok b) -> exists l', filterM f l = Ok l'.
Proof.
  induction l as [|a l IH]; intros H; [eexists; reflexivity|]. simpl.
  destruct (H a (or_introl eq_refl)) as (b & ->). cbn [bind].
  destruct IH as (l' & ->); [intros a' Ha'; apply H; now right|]. cbn [bind]. eauto.
Qed.

(** An error of the search comes from testing a value of a variable. *)
Definition raises (xs : list name) (s : subst) (ex : exn) : Prop :=
  exists p x q l v, xs = p ++ x :: q /\ map fst l = p /\
    (forall a y u b, l = a ++ (y, u) :: b -> In u (dom y) /\ passed y (s ++ a) u = true) /\
    In v (dom x) /\ accept w i x (s ++ l) v = Err ex.

Lemma prefix_app {A} (a b c : list A) : prefix a b -> prefix a (b ++ c).
Proof. intros [d ->]. exists (d ++ c). now rewrite app_assoc. Qed.

Lemma prefix_app_r {A} (a b c : list A) : prefix b c -> prefix (a ++ b) (a ++ c).
Proof. intros [d ->]. exists d. now rewrite app_assoc. Qed.

Lemma prefix_refl {A} (a : list A) : prefix a a.
Proof. exists []. now rewrite app_nil_r. Qed.

Lemma app_eq_snoc_r {A} (a b : list A) l (x y : A) :
  x :: l = a ++ y :: b -> (a = [] /\ x = y /\ l = b) \/ exists a', a = x :: a' /\ l = a' ++ y :: b.
Proof. destruct a as [|z a]; simpl; intros H; inversion H; subst; eauto. Qed.

Lemma search_enum xs : forall k s ys w' r,
  NoDup (dkeys s ++ xs) -> (forall x, In x xs -> In x (dkeys (i_doms i))) ->
  search i passive xs k w s = (ys, w', r) ->
  w' = w /\ prefix ys (enum xs s) /\
  match r with
  | Ok k' => ys = enum xs s /\ k' = (k + length ys)%nat
  | Err ex => raises xs s ex
  end.
Proof.
  induction xs as [|x rest IH]; intros k s ys w' r Hnd Hx H.
  - simpl in H. inversion H; subst. repeat split; try apply prefix_refl; simpl; lia.
  - cbn [search] in H. unfold filter_domain in H.
    destruct (proj1 (dget_Some (i_doms i) x) (Hx x (or_introl eq_refl))) as (dm & Hdm). rewrite Hdm in H.
    assert (Hdom : dom x = dm) by (unfold dom, dget_or; now rewrite Hdm).
    assert (Hxs : ~ In x (dkeys s)).
    { intros Hin. apply NoDup_remove_2 in Hnd. apply Hnd. apply in_or_app. now left. }
    destruct (filterM (accept w i x s) dm) as [d|ex] eqn:Ef.
    + apply filterM_Ok in Ef. change (d = filter (passed x s) dm) in Ef.
      cbn [enum]. rewrite Hdom, <- Ef.
      assert (Hd : forall v, In v d -> In v (dom x) /\ passed x s v = true).
      { intros v Hv. rewrite Ef in Hv. apply filter_In in Hv. now rewrite Hdom. }
      clear Ef Hdm. revert k ys w' r H. induction d as [|v d IHd]; intros k ys w' r H.
      * simpl in H. inversion H; subst. repeat split; try apply prefix_refl. simpl. lia.
      * cbn [values flat_map] in *.
        assert (Hnd' : NoDup (dkeys (dset s x v) ++ rest)).
        { rewrite dset_new by assumption. unfold dkeys. rewrite map_app, <- app_assoc. exact Hnd. }
        destruct (search i passive rest k w (dset s x v)) as [[ys1 w1] r1] eqn:Es.
        destruct (IH k (dset s x v) ys1 w1 r1 Hnd' (fun y Hy => Hx y (or_intror Hy)) Es) as (-> & Hp & Hr1).
        destruct r1 as [k1|ex].
        -- destruct Hr1 as [-> ->].
           destruct (values (fun k w v => search i passive rest k w (dset s x v)) d (k + length (enum rest (dset s x v))) w)
             as [[zs w2] r2] eqn:Ev.
           inversion H; subst. clear H.
           destruct (IHd (fun u Hu => Hd u (or_intror Hu)) _ _ _ _ Ev) as (-> & Hp2 & Hr2).
           split; [reflexivity|]. split; [now apply prefix_app_r|].
           destruct r as [k'|ex]; [|assumption]. destruct Hr2 as [-> ->].
           split; [reflexivity|]. rewrite app_length. lia.
        -- inversion H; subst. split; [reflexivity|]. split; [now apply prefix_app|].
           destruct Hr1 as (p & y & q & l & u & -> & Hl & Hpass & Hu & Hacc).
           rewrite dset_new in Hpass, Hacc by assumption.
           exists (x :: p), y, q, ((x, v) :: l), u. split; [reflexivity|]. split; [simpl; now rewrite Hl|].
           split; [|split; [assumption|now rewrite <- app_assoc in Hacc]].
           intros a z t b E. apply app_eq_snoc_r in E. destruct E as [(-> & Ez & ->)|(a' & -> & E)].
           ++ inversion Ez; subst. rewrite app_nil_r. apply Hd. now left.
           ++ specialize (Hpass a' z t b E). now rewrite <- app_assoc in Hpass.
    + inversion H; subst. apply filterM_Err in Ef. destruct Ef as (v & Hv & He).
      split; [reflexivity|]. split; [exists (enum (x :: rest) s); reflexivity|].
      exists [], x, rest, [], v. rewrite app_nil_r. repeat split; try assumption;
        destruct a; discriminate.
Qed.

(** ** Membership *)

Lemma enum_In xs : forall s s', NoDup (dkeys s ++ xs) ->
  (In s' (enum xs s) <->
   exists l, s' = s ++ l /\ map fst l = xs /\
     forall p x v q, l = p ++ (x, v) :: q -> In v (dom x) /\ passed x (s ++ p) v = true).
Proof.
  induction xs as [|x rest IH]; intros s s' Hnd.
  - simpl. split.
    + intros [->|[]]. exists []. rewrite app_nil_r. repeat split; destruct p; discriminate.
    + intros (l & -> & Hl & _). left. destruct l; [now rewrite app_nil_r|discriminate].
  - cbn [enum].
    assert (Hxs : ~ In x (dkeys s)).
    { intros Hin. apply NoDup_remove_2 in Hnd. apply Hnd. apply in_or_app. now left. }
    rewrite in_flat_map. split.
    + intros (v & Hv & Hin). apply filter_In in Hv. destruct Hv as [Hv Hp].
      assert (Hnd' : NoDup (dkeys (dset s x v) ++ rest)).
      { rewrite dset_new by assumption. unfold dkeys. rewrite map_app, <- app_assoc. exact Hnd. }
      apply IH in Hin; [|assumption]. destruct Hin as (l & -> & Hl & Hall).
      rewrite dset_new by assumption. exists ((x, v) :: l). split; [now rewrite <- app_assoc|].
      split; [simpl; now rewrite Hl|].
      intros p y u q E. apply app_eq_snoc_r in E. destruct E as [(-> & Ey & ->)|(p' & -> & E)].
      * inversion Ey; subst. now rewrite app_nil_r.
      * specialize (Hall p' y u q E). rewrite dset_new in Hall by assumption. now rewrite <- app_assoc in Hall.
    + intros (l & -> & Hl & Hall). destruct l as [|[y v] l]; [discriminate|]. inversion Hl; subst. clear Hl.
      destruct (Hall [] x v l eq_refl) as [Hv Hp]. rewrite app_nil_r in Hp.
      exists v. split; [apply filter_In; auto|].
      assert (Hnd' : NoDup (dkeys (dset s x v) ++ map fst l)).
      { rewrite dset_new by assumption. unfold dkeys. rewrite map_app, <- app_assoc. exact Hnd. }
      apply IH; [assumption|]. rewrite dset_new by assumption. exists l. split; [now rewrite <- app_assoc|].
      split; [reflexivity|]. intros p y u q ->.
      specialize (Hall ((x, v) :: p) y u q eq_refl). rewrite <- app_assoc. exact Hall.
Qed.

(** ** Order *)

Lemma before_filter f d a b : before (filter f d) a b -> before d a b.
Proof.
  intros (l1 & l2 & l3 & E). revert l1 E. induction d as [|v d IH]; intros l1 E.
  - destruct l1; discriminate.
  - simpl in E. destruct (f v).
    + apply app_eq_snoc_r in E. destruct E as [(-> & -> & E)|(l1' & -> & E)].
      * assert (Hin : In b d).
        { assert (Hb : In b (filter f d)) by (rewrite E; apply in_or_app; right; now left).
          apply filter_In in Hb. tauto. }
        apply in_split in Hin. destruct Hin as (m1 & m2 & ->). exists [], m1, m2. reflexivity.
      * destruct (IH l1' E) as (m1 & m2 & m3 & ->). exists (v :: m1), m2, m3. reflexivity.
    + destruct (IH l1 E) as (m1 & m2 & m3 & ->). exists (v :: m1), m2, m3. reflexivity.
Qed.

Lemma enum_dget xs s s' y : NoDup (dkeys s ++ xs) -> In s' (enum xs s) -> ~ In y xs -> dget s' y = dget s y.
Proof.
  intros Hnd Hin Hy. apply enum_In in Hin; [|assumption]. destruct Hin as (l & -> & Hl & _).
  rewrite dget_app. destruct (dget s y); [reflexivity|]. apply dget_None. unfold dkeys. now rewrite Hl.
Qed.

Lemma ForallOrdPairs_app {A} (R : A -> A -> Prop) l1 l2 :
  ForallOrdPairs R l1 -> ForallOrdPairs R l2 -> (forall a b, In a l1 -> In b l2 -> R a b) ->
  ForallOrdPairs R (l1 ++ l2).
Proof.
  induction 1 as [|a l Ha Hl IH]; intros H2 H; [assumption|]. simpl. constructor.
  - apply Forall_app. split; [assumption|]. apply Forall_forall. intros b Hb. apply H; [now left|assumption].
  - apply IH; [assumption|]. intros b c Hb Hc. apply H; [now right|assumption].
Qed.

Lemma FOP_impl {A} (R S : A -> A -> Prop) l :
  (forall a b, In a l -> In b l -> R a b -> S a b) -> ForallOrdPairs R l -> ForallOrdPairs S l.
Proof.
  intros H HR. induction HR as [|a l Ha Hl IH]; [constructor|]. constructor.
  - rewrite Forall_forall in *. intros b Hb. apply H; [now left|now right|auto].
  - apply IH. intros b c Hb Hc. apply H; now right.
Qed.

Lemma enum_sorted xs : forall s, NoDup (dkeys s ++ xs) ->
  ForallOrdPairs (lex_before xs dom) (enum xs s).
Proof.
  induction xs as [|x rest IH]; intros s Hnd; [simpl; repeat constructor|].
  cbn [enum].
  assert (Hxs : ~ In x (dkeys s) /\ ~ In x rest).
  { apply NoDup_remove_2 in Hnd. split; intros Hin; apply Hnd; apply in_or_app; auto. }
  destruct Hxs as [Hxs Hxr].
  assert (Hnd' : forall v, NoDup (dkeys (dset s x v) ++ rest)).
  { intros v. rewrite dset_new by assumption. unfold dkeys. rewrite map_app, <- app_assoc. exact Hnd. }
  assert (Hx : forall v s', In s' (enum rest (dset s x v)) -> dget s' x = Some v).
  { intros v s' Hin. rewrite (enum_dget rest (dset s x v) s' x (Hnd' v) Hin Hxr). apply dget_dset_eq. }
  assert (Hb : forall d, (forall a b, before d a b -> before (dom x) a b) ->
    ForallOrdPairs (lex_before (x :: rest) dom) (flat_map (fun v => enum rest (dset s x v)) d)).
  { induction d as [|v d IHd]; intros Hbd; [constructor|]. cbn [flat_map]. apply ForallOrdPairs_app.
    - eapply FOP_impl; [|apply IH, Hnd'].
      intros s1 s2 H1 H2 (p & y & q & a & b & -> & Hp & Ha & Hb & Hbf).
      exists (x :: p), y, q, a, b. split; [reflexivity|]. split; [|auto].
      intros z [<-|Hz]; [|now apply Hp]. rewrite (Hx v s1 H1), (Hx v s2 H2). reflexivity.
    - apply IHd. intros a b (l1 & l2 & l3 & ->). apply Hbd. exists (v :: l1), l2, l3. reflexivity.
    - intros s1 s2 H1 H2. apply in_flat_map in H2. destruct H2 as (u & Hu & H2).
      exists [], x, rest, v, u. split; [reflexivity|]. split; [intros z []|].
      split; [now apply Hx|]. split; [now apply Hx|]. apply Hbd.
      apply in_split in Hu. destruct Hu as (l1 & l2 & ->). exists [], l1, l2. reflexivity. }
  apply Hb. intros a b. apply before_filter.
Qed.

End Enum.
