(** Lemmas about the record of an observed search with a consumer that changes the state. *)
From Coq Require Import Permutation.
From Verif Require Import Optimize SolverWatch OptimizeWatch SpecFormula SpecSafe SpecSolve SpecWatch SpecOptimize
  ExprFacts DictFacts ModelFacts CompileFacts CodeFacts SearchFacts LoopFacts EnumFacts SetupFacts SolveFacts TraceFacts
  WatchFacts SpecBound.
Open Scope list_scope.
Open Scope Z_scope.

(** ** Lists *)

Inductive subseq {A} : list A -> list A -> Prop :=
| sub_nil l : subseq [] l
| sub_take a l l' : subseq l l' -> subseq (a :: l) (a :: l')
| sub_skip a l l' : subseq l l' -> subseq l (a :: l').

Lemma subseq_refl {A} (l : list A) : subseq l l.
Proof. induction l; now constructor. Qed.

Lemma subseq_app {A} (a b c d : list A) : subseq a b -> subseq c d -> subseq (a ++ c) (b ++ d).
Proof.
  intros H Hc. induction H as [b|x a b _ IH|x a b _ IH]; cbn [app].
  - induction b; [exact Hc|]. now constructor.
  - now constructor.
  - now constructor.
Qed.

Lemma subseq_trans {A} (b c : list A) : subseq b c -> forall a, subseq a b -> subseq a c.
Proof.
  induction 1 as [c|x b c _ IH|x b c _ IH]; intros a H.
  - inversion H; subst. constructor.
  - inversion H; subst; [constructor|constructor; now apply IH|constructor; now apply IH].
  - constructor. now apply IH.
Qed.

Lemma subseq_In {A} (a b : list A) x : subseq a b -> In x a -> In x b.
Proof. induction 1; intros Hin; [contradiction| |right; auto]. destruct Hin as [->|Hin]; [now left|right; auto]. Qed.

Lemma subseq_FOP {A} (R : A -> A -> Prop) a b : subseq a b -> ForallOrdPairs R b -> ForallOrdPairs R a.
Proof.
  induction 1 as [b|x a b H IH|x a b _ IH]; intros HF; [constructor| |]; inversion HF; subst; [|auto].
  constructor; [|auto]. rewrite Forall_forall in *. intros y Hy. eauto using subseq_In.
Qed.

Lemma subseq_flat_filter {A B} (f : A -> list B) p l : subseq (flat_map f (filter p l)) (flat_map f l).
Proof.
  induction l as [|a l IH]; [constructor|]. cbn [filter]. destruct (p a); cbn [flat_map].
  - apply subseq_app; [apply subseq_refl|exact IH].
  - change (flat_map f (filter p l)) with ([] ++ flat_map f (filter p l)). apply subseq_app; [constructor|exact IH].
Qed.

Lemma snoc_split {A} (l : list A) a p b q : l ++ [a] = p ++ b :: q ->
  (q = [] /\ p = l /\ b = a) \/ (exists q', q = q' ++ [a] /\ l = p ++ b :: q').
Proof.
  destruct (exists_last (l := b :: q)) as (q' & c & E); [discriminate|]. rewrite E. intros H.
  rewrite app_assoc in H. apply app_inj_tail in H. destruct H as [-> ->].
  destruct q' as [|d q']; cbn in E; inversion E; subst.
  - left. rewrite app_nil_r. auto.
  - right. exists q'. auto.
Qed.

Lemma found_app a b : found (a ++ b) = found a ++ found b.
Proof. unfold found. apply flat_map_app. Qed.
Lemma tried_app a b : tried (a ++ b) = tried a ++ tried b.
Proof. unfold tried. apply flat_map_app. Qed.
Lemma tried_extends l : tried (map Extends l) = l.
Proof. induction l as [|s l IH]; [reflexivity|]. cbn. now rewrite <- IH at 2. Qed.
Lemma found_extends l : found (map Extends l) = [].
Proof. induction l as [|s l IH]; [reflexivity|]. exact IH. Qed.
Lemma tried_In vs t : In t (tried vs) <-> In (Extends t) vs.
Proof.
  unfold tried. rewrite in_flat_map. split.
  - intros ([s|s] & Hin & H); [|contradiction]. destruct H as [->|[]]. exact Hin.
  - intros H. exists (Extends t). split; [exact H|now left].
Qed.
Lemma found_In vs t : In t (found vs) <-> In (Finds t) vs.
Proof.
  unfold found. rewrite in_flat_map. split.
  - intros ([s|s] & Hin & H); [contradiction|]. destruct H as [->|[]]. exact Hin.
  - intros H. exists (Finds t). split; [exact H|now left].
Qed.

(** ** Order: the extended assignments in the tree of all partial assignments *)

Section Tree.
Variable w0 : world.
Variable i : ginfo.
Definition bare : ginfo := GInfo (i_doms i) [] [].

Lemma bare_passed x s v : passed w0 bare x s v = true.
Proof. reflexivity. Qed.

Lemma core_step_tree w c : g_stack c <> [] -> stack_ok c -> doms_ok c ->
  match core_step w i c with
  | CNext c' | CYield _ c' => stack_ok c' /\ doms_ok c' /\
      subseq (extends_now c ++ remaining w0 bare c') (remaining w0 bare c)
  | CErr _ => subseq (extends_now c) (remaining w0 bare c)
  end.
Proof.
  intros Hne Hok Hdk.
  pose proof (core_step_nodes w i c Hne Hok Hdk) as Hstep.
  destruct c as [stk doms]. unfold core_step, stack_ok, doms_ok in *. cbn [g_stack g_doms] in *.
  destruct stk as [|[[|x rest] s] stk]; [contradiction|destruct Hok; contradiction|].
  destruct Hok as (_ & Hnd & Hrest & Hch). cbn [tl] in Hrest.
  unfold extends_now in *. cbn [g_stack g_doms] in *.
  destruct (dget doms x) as [d|] eqn:Ed.
  - assert (Hrem : remaining w0 bare (Cfg ((x :: rest, s) :: stk) doms) =
      flat_map (fun v => nodes w0 bare rest (dset s x v)) d ++ flat_map (frame_nodes w0 bare doms) stk).
    { unfold remaining. cbn [g_stack g_doms flat_map]. unfold frame_nodes at 1. cbn [fst snd]. now rewrite Ed. }
    destruct d as [|v d].
    + destruct Hstep as (H1 & H2 & _). split; [exact H1|]. split; [exact H2|]. rewrite Hrem. cbn [flat_map app].
      unfold remaining. cbn [g_stack g_doms].
      destruct (chained_change w0 bare doms (ddel doms x) x stk (x :: rest) (or_introl eq_refl)) as [_ ->];
        [intros y Hy; apply dget_ddel_ne; congruence|assumption|]. apply subseq_refl.
    + pose proof (take_value_step w0 bare x rest s v d stk doms Hnd Hrest Hch Hdk) as Ht.
      destruct (take_value x rest s (v :: d) ((x :: rest, s) :: stk) doms) as [c'|z c'|ex] eqn:Et.
      * destruct (Ht c' (or_introl eq_refl)) as (H1 & H2 & H3). rewrite Hrem, <- H3. split; [|split]; [exact H1|exact H2|apply subseq_refl].
      * destruct (Ht c' (or_intror (ex_intro _ z eq_refl))) as (H1 & H2 & H3). rewrite Hrem, <- H3. split; [|split]; [exact H1|exact H2|apply subseq_refl].
      * constructor.
  - assert (Hrem : remaining w0 bare (Cfg ((x :: rest, s) :: stk) doms) =
      (s :: flat_map (fun v => nodes w0 bare rest (dset s x v)) (filter (passed w0 bare x s) (dom bare x))) ++
      flat_map (frame_nodes w0 bare doms) stk).
    { unfold remaining. cbn [g_stack g_doms flat_map]. unfold frame_nodes at 1. cbn [fst snd]. now rewrite Ed. }
    rewrite Hrem. cbn [app].
    assert (Hall : filter (passed w0 bare x s) (dom bare x) = dom i x).
    { change (dom bare x) with (dom i x). induction (dom i x) as [|v d IH]; [reflexivity|]. cbn [filter]. rewrite bare_passed. now rewrite IH. }
    rewrite Hall.
    destruct (filter_domain w i x s) as [d|ex] eqn:Ef.
    2:{ constructor. constructor. }
    assert (Hd : d = filter (passed w i x s) (dom i x)).
    { unfold filter_domain in Ef. destruct (dget (i_doms i) x) as [dm|] eqn:Edm; [|discriminate].
      apply filterM_Ok in Ef. unfold dom, dget_or. rewrite Edm. exact Ef. }
    assert (Hsub : subseq (flat_map (fun v => nodes w0 bare rest (dset s x v)) d) (flat_map (fun v => nodes w0 bare rest (dset s x v)) (dom i x))).
    { rewrite Hd. apply subseq_flat_filter. }
    destruct d as [|v d].
    + destruct Hstep as (H1 & H2 & _). split; [exact H1|]. split; [exact H2|]. constructor.
      change (remaining w0 bare (Cfg stk doms)) with ([] ++ flat_map (frame_nodes w0 bare doms) stk).
      apply subseq_app; [constructor|apply subseq_refl].
    + assert (Hrest' : forall y, In y rest -> dget (dset doms x (v :: d)) y = None).
      { intros y Hy. rewrite dget_dset_ne; [now apply Hrest|]. inversion Hnd; subst. intros ->. contradiction. }
      destruct (chained_change w0 bare doms (dset doms x (v :: d)) x stk (x :: rest) (or_introl eq_refl)) as [Hch' Hfl];
        [intros y Hy; now rewrite dget_dset_ne|assumption|].
      pose proof (take_value_step w0 bare x rest s v d stk _ Hnd Hrest' Hch' (dset_NoDup _ _ _ Hdk)) as Ht.
      destruct (take_value x rest s (v :: d) ((x :: rest, s) :: stk) (dset doms x (v :: d))) as [c'|z c'|ex] eqn:Et.
      * destruct (Ht c' (or_introl eq_refl)) as (H1 & H2 & H3). split; [|split]; [exact H1|exact H2|].
        rewrite H3, Hfl. constructor. apply subseq_app; [exact Hsub|apply subseq_refl].
      * destruct (Ht c' (or_intror (ex_intro _ z eq_refl))) as (H1 & H2 & H3). split; [|split]; [exact H1|exact H2|].
        rewrite H3, Hfl. constructor. apply subseq_app; [exact Hsub|apply subseq_refl].
      * constructor. constructor.
Qed.

End Tree.

(** ** The record *)

Section Record.
Variable i : ginfo.
Variable order : list name.
Variable Inv : list subst -> world -> Prop.
Hypothesis Hnd : NoDup order.

(** The value passed when the values of its variable were tested. *)
Definition stored (hist : list visit) (x : name) (s : subst) (v : Z) : Prop :=
  exists pre mid w, hist = pre ++ Extends s :: mid /\ Inv (found pre) w /\ In v (dom i x) /\ passed w i x s v = true.
Definition backed (hist : list visit) (t : subst) : Prop :=
  forall s x v q, t = s ++ (x, v) :: q -> stored hist x s v.

(** The assignment on top of the stack has not been extended yet. *)
Definition fresh (c : cfg) (t : subst) : Prop :=
  exists xs stk, g_stack c = (xs, t) :: stk /\ forall y q, xs = y :: q -> dget (g_doms c) y = None.

Definition child (rest : list name) (t : subst) : visit := match rest with [] => Finds t | _ => Extends t end.

Definition events (hist : list visit) : Prop :=
  forall pre ev t post, hist = pre ++ ev :: post -> ev = Extends t \/ ev = Finds t ->
    backed pre t /\ (ev = Extends t -> starts order t) /\ (ev = Finds t -> map fst t = order).

Definition promises (hist : list visit) (c : cfg) : Prop :=
  forall pre t mid, hist = pre ++ Extends t :: mid ->
    exists w x rest d, order = map fst t ++ x :: rest /\ Inv (found pre) w /\ filter_domain w i x t = Ok d /\
      forall v, In v d ->
        In (child rest (t ++ [(x, v)])) hist \/
        (exists d', In (x :: rest, t) (g_stack c) /\ dget (g_doms c) x = Some d' /\ In v d') \/
        (rest <> [] /\ fresh c (t ++ [(x, v)])).

Record recorded (hist : list visit) (c : cfg) : Prop := {
  rec_frames : forall xs s, In (xs, s) (g_stack c) -> order = map fst s ++ xs /\ backed hist s;
  rec_doms : forall x rest s d v, In (x :: rest, s) (g_stack c) -> dget (g_doms c) x = Some d -> In v d -> stored hist x s v;
  rec_events : events hist;
  rec_promises : promises hist c;
  rec_root : In (Extends []) hist \/ fresh c []
}.

Lemma stored_more hist more x s v : stored hist x s v -> stored (hist ++ more) x s v.
Proof.
  intros (pre & mid & w & -> & H). exists pre, (mid ++ more), w. split; [now rewrite <- app_assoc|exact H].
Qed.
Lemma backed_more hist more t : backed hist t -> backed (hist ++ more) t.
Proof. intros H s x v q E. apply stored_more. exact (H s x v q E). Qed.

Lemma chained_heads doms : forall stk xs y r s', chained doms xs stk -> In (y :: r, s') stk ->
  ~ In y xs /\ forall x, In x xs -> In x r.
Proof.
  induction stk as [|[ys s] stk IH]; intros xs y r s' Hc Hin; [contradiction|].
  destruct Hc as [(z & -> & Hz & Hzx) Hc]. destruct Hin as [E|Hin].
  - injection E as -> -> ->. auto.
  - destruct (IH _ _ _ _ Hc Hin) as [H1 H2]. split; [intros H; apply H1; now right|]. intros x Hx. apply H2. now right.
Qed.

Lemma order_tail (s : subst) x rest : order = map fst s ++ x :: rest -> ~ In x (dkeys s) /\ ~ In x rest.
Proof.
  intros E. rewrite E in Hnd. apply NoDup_remove_2 in Hnd. split; intros H; apply Hnd; apply in_or_app; auto.
Qed.

Lemma filter_domain_In w x s d v : filter_domain w i x s = Ok d -> In v d -> In v (dom i x) /\ passed w i x s v = true.
Proof.
  intros E Hin. assert (Hd : d = filter (passed w i x s) (dom i x)).
  { unfold filter_domain in E. destruct (dget (i_doms i) x) as [dm|] eqn:Edm; [|discriminate].
    apply filterM_Ok in E. unfold dom, dget_or. rewrite Edm. exact E. }
  rewrite Hd in Hin. now apply filter_In in Hin.
Qed.

(** The values of the variable of the top frame are tested. *)
Lemma record_test hist x rest s stk doms w d :
  chained doms (x :: rest) stk -> dget doms x = None -> filter_domain w i x s = Ok d -> Inv (found hist) w ->
  recorded hist (Cfg ((x :: rest, s) :: stk) doms) ->
  recorded (hist ++ [Extends s]) (Cfg ((x :: rest, s) :: stk) (dset doms x d)).
Proof.
  intros Hch Hx Ef HI [Rf Rd Re Rp Rr]. cbn [g_stack g_doms] in *. constructor; cbn [g_stack g_doms].
  - intros xs t Hin. destruct (Rf xs t Hin) as [E B]. split; [exact E|now apply backed_more].
  - intros y r t d' v Hin Hd Hv. destruct (string_dec y x) as [->|Hne].
    + destruct Hin as [E|Hin].
      * injection E as <- <-. rewrite dget_dset_eq in Hd. injection Hd as <-.
        exists hist, [], w. split; [reflexivity|]. split; [exact HI|]. now apply (filter_domain_In w x s d v).
      * exfalso. apply (chained_heads doms stk (x :: rest) x r t Hch Hin). now left.
    + rewrite dget_dset_ne in Hd by assumption. apply stored_more. exact (Rd y r t d' v Hin Hd Hv).
  - intros pre ev t post E Hev. destruct (snoc_split _ _ _ _ _ E) as [(-> & -> & ->)|(post' & -> & E')].
    + destruct Hev as [Hev|Hev]; [|discriminate]. injection Hev as <-. destruct (Rf _ s (or_introl eq_refl)) as [Eo B].
      split; [exact B|]. split; [intros _; now exists x, rest|discriminate].
    + exact (Re pre ev t post' E' Hev).
  - intros pre t mid E. destruct (snoc_split _ _ _ _ _ E) as [(-> & -> & Et)|(mid' & -> & E')].
    + injection Et as ->. exists w, x, rest, d. split; [apply (Rf _ s (or_introl eq_refl))|]. split; [exact HI|]. split; [exact Ef|].
      intros v Hv. right. left. exists d. cbn [g_stack g_doms]. split; [now left|]. split; [apply dget_dset_eq|exact Hv].
    + destruct (Rp pre t mid' E') as (w' & y & r & d' & Eo & HI' & Ef' & Hall). exists w', y, r, d'.
      split; [exact Eo|]. split; [exact HI'|]. split; [exact Ef'|]. intros v Hv.
      destruct (Hall v Hv) as [H|[(d2 & H1 & H2 & H3)|(Hr & xs & stk' & H1 & H2)]].
      * left. apply in_or_app. now left.
      * right. left. exists d2. cbn [g_stack g_doms] in *. split; [exact H1|]. split; [|exact H3].
        rewrite dget_dset_ne; [exact H2|]. intros ->. congruence.
      * left. cbn [g_stack] in H1. injection H1 as <- -> <-. apply in_or_app. right. destruct r; [contradiction|]. now left.
  - left. apply in_or_app. destruct Rr as [Rr|(xs & stk' & E & _)]; [now left|]. cbn [g_stack] in E.
    injection E as <- -> <-. right. now left.
Qed.

(** The tested values are used up. *)
Lemma record_pop hist x rest s stk doms :
  chained doms (x :: rest) stk -> dget doms x = Some [] ->
  recorded hist (Cfg ((x :: rest, s) :: stk) doms) -> recorded hist (Cfg stk (ddel doms x)).
Proof.
  intros Hch Hx [Rf Rd Re Rp Rr]. cbn [g_stack g_doms] in *.
  assert (Hheads : forall y r t, In (y :: r, t) stk -> y <> x).
  { intros y r t Hin ->. apply (chained_heads doms stk (x :: rest) x r t Hch Hin). now left. }
  assert (Hnf : forall t, ~ fresh (Cfg ((x :: rest, s) :: stk) doms) t).
  { intros t (xs & stk' & E & Hn). cbn [g_stack g_doms] in *. injection E as <- -> <-. rewrite (Hn x rest eq_refl) in Hx. discriminate. }
  constructor; cbn [g_stack g_doms].
  - intros xs t Hin. apply Rf. now right.
  - intros y r t d v Hin Hd Hv. rewrite dget_ddel_ne in Hd by (apply not_eq_sym; eauto).
    exact (Rd y r t d v (or_intror Hin) Hd Hv).
  - exact Re.
  - intros pre t mid E. destruct (Rp pre t mid E) as (w' & y & r & d' & Eo & HI' & Ef' & Hall). exists w', y, r, d'.
    split; [exact Eo|]. split; [exact HI'|]. split; [exact Ef'|]. intros v Hv.
    destruct (Hall v Hv) as [H|[(d2 & H1 & H2 & H3)|(Hr & H1)]].
    + now left.
    + right. left. exists d2. cbn [g_stack g_doms] in *. destruct H1 as [H1|H1].
      * injection H1 as <- <- <-. rewrite Hx in H2. injection H2 as <-. contradiction.
      * split; [exact H1|]. split; [|exact H3]. rewrite dget_ddel_ne; [exact H2|]. apply not_eq_sym. eauto.
    + exfalso. exact (Hnf _ H1).
  - left. destruct Rr as [Rr|Rr]; [exact Rr|]. exfalso. exact (Hnf _ Rr).
Qed.

(** A value is taken. *)
Lemma record_take hist x rest s stk doms v d :
  NoDup (x :: rest) -> (forall y, In y rest -> dget doms y = None) -> chained doms (x :: rest) stk -> dget doms x = Some (v :: d) ->
  recorded hist (Cfg ((x :: rest, s) :: stk) doms) ->
  recorded (hist ++ match rest with [] => [Finds (s ++ [(x, v)])] | _ => [] end)
    (Cfg (match rest with [] => (x :: rest, s) :: stk | _ => (rest, s ++ [(x, v)]) :: (x :: rest, s) :: stk end) (dset doms x d)).
Proof.
  intros Hndx Hrest Hch Hx [Rf Rd Re Rp Rr]. cbn [g_stack g_doms] in *.
  assert (Hheads : forall y r t, In (y :: r, t) stk -> y <> x).
  { intros y r t Hin ->. apply (chained_heads doms stk (x :: rest) x r t Hch Hin). now left. }
  assert (Hnf : forall t, ~ fresh (Cfg ((x :: rest, s) :: stk) doms) t).
  { intros t (xs & stk' & E & Hn). cbn [g_stack g_doms] in *. injection E as <- -> <-. rewrite (Hn x rest eq_refl) in Hx. discriminate. }
  destruct (Rf _ s (or_introl eq_refl)) as [Eo Bs].
  assert (Bs' : backed hist (s ++ [(x, v)])).
  { intros t y u q E. destruct (snoc_split _ _ _ _ _ E) as [(_ & -> & E')|(q' & _ & E')].
    - injection E' as -> ->. exact (Rd x rest s (v :: d) v (or_introl eq_refl) Hx (or_introl eq_refl)).
    - exact (Bs t y u q' E'). }
  set (more := match rest with [] => [Finds (s ++ [(x, v)])] | _ => [] end).
  set (stk' := match rest with [] => (x :: rest, s) :: stk | _ => (rest, s ++ [(x, v)]) :: (x :: rest, s) :: stk end).
  assert (Hold : forall fr, In fr ((x :: rest, s) :: stk) -> In fr stk').
  { intros fr Hin. unfold stk'. destruct rest; [exact Hin|now right]. }
  assert (Hnew : forall fr, In fr stk' -> In fr ((x :: rest, s) :: stk) \/ (rest <> [] /\ fr = (rest, s ++ [(x, v)]))).
  { intros fr Hin. unfold stk' in Hin. destruct rest; [now left|]. destruct Hin as [<-|Hin]; [right; split; [discriminate|reflexivity]|now left]. }
  assert (Htop : forall r t, In (x :: r, t) ((x :: rest, s) :: stk) -> r = rest /\ t = s).
  { intros r t [E|Hin]; [injection E as <- <-; auto|]. exfalso. exact (Hheads x r t Hin eq_refl). }
  constructor; cbn [g_stack g_doms].
  - intros xs t Hin. destruct (Hnew _ Hin) as [Hin'|(_ & E)].
    + destruct (Rf xs t Hin') as [E B]. split; [exact E|now apply backed_more].
    + injection E as -> ->. split; [|now apply backed_more]. rewrite map_app, <- app_assoc. exact Eo.
  - intros y r t d' u Hin Hd Hu. apply stored_more. destruct (Hnew _ Hin) as [Hin'|(_ & E)].
    + destruct (string_dec y x) as [->|Hne].
      * rewrite dget_dset_eq in Hd. injection Hd as <-. exact (Rd x r t (v :: d) u Hin' Hx (or_intror Hu)).
      * rewrite dget_dset_ne in Hd by assumption. exact (Rd y r t d' u Hin' Hd Hu).
    + injection E as E ->. assert (Hy : In y rest) by (rewrite <- E; now left).
      rewrite dget_dset_ne in Hd; [rewrite (Hrest y Hy) in Hd; discriminate|]. intros ->. inversion Hndx. contradiction.
  - unfold more. destruct rest; [|rewrite app_nil_r; exact Re].
    intros pre ev t post E Hev. destruct (snoc_split _ _ _ _ _ E) as [(-> & -> & ->)|(post' & -> & E')].
    + destruct Hev as [Hev|Hev]; [discriminate|]. injection Hev as <-. split; [exact Bs'|]. split; [discriminate|].
      intros _. rewrite map_app. symmetry. exact Eo.
    + exact (Re pre ev t post' E' Hev).
  - assert (Hsplit : forall pre t mid, hist ++ more = pre ++ Extends t :: mid -> exists mid', hist = pre ++ Extends t :: mid').
    { intros pre t mid E. unfold more in E. destruct rest; [|rewrite app_nil_r in E; eauto].
      destruct (snoc_split _ _ _ _ _ E) as [(_ & _ & E')|(mid' & _ & E')]; [discriminate|eauto]. }
    intros pre t mid E. destruct (Hsplit pre t mid E) as (mid' & E').
    destruct (Rp pre t mid' E') as (w' & y & r & d' & Eo' & HI' & Ef' & Hall). exists w', y, r, d'.
    split; [exact Eo'|]. split; [exact HI'|]. split; [exact Ef'|]. intros u Hu.
    destruct (Hall u Hu) as [H|[(d2 & H1 & H2 & H3)|(Hr & H1)]].
    + left. apply in_or_app. now left.
    + cbn [g_stack g_doms] in *. destruct (string_dec y x) as [->|Hne].
      * destruct (Htop r t H1) as [-> ->]. rewrite Hx in H2. injection H2 as <-. destruct H3 as [<-|H3].
        -- unfold more. destruct rest as [|z rest]; [left; apply in_or_app; right; now left|].
           right. right. split; [discriminate|]. exists (z :: rest), ((x :: z :: rest, s) :: stk). cbn [g_stack g_doms stk'].
           split; [reflexivity|]. intros y q Ey. injection Ey as <- <-. rewrite dget_dset_ne; [apply Hrest; now left|].
           intros ->. inversion Hndx as [|? ? Hn _]; subst. apply Hn. now left.
        -- right. left. exists d. split; [apply Hold; exact H1|]. split; [apply dget_dset_eq|exact H3].
      * right. left. exists d2. split; [now apply Hold|]. split; [|exact H3]. now rewrite dget_dset_ne.
    + exfalso. exact (Hnf _ H1).
  - left. apply in_or_app. left. destruct Rr as [Rr|Rr]; [exact Rr|]. exfalso. exact (Hnf _ Rr).
Qed.

Lemma ddel_dset (doms : dict (list Z)) x d : dget doms x = None -> ddel (dset doms x d) x = doms.
Proof.
  induction doms as [|[y b] doms IH]; cbn; intros H; [now rewrite eqb_refl_s|].
  destruct (String.eqb_spec x y) as [->|Hne]; [discriminate|]. cbn. apply String.eqb_neq in Hne. rewrite Hne. now rewrite IH.
Qed.

Lemma record_step hist c w : g_stack c <> [] -> stack_ok c -> Inv (found hist) w -> recorded hist c ->
  match core_step w i c with
  | CNext c' => recorded (hist ++ map Extends (extends_now c)) c'
  | CYield y c' => recorded ((hist ++ map Extends (extends_now c)) ++ [Finds y]) c'
  | CErr _ => events (hist ++ map Extends (extends_now c))
  end.
Proof.
  intros Hne Hok HI Hrec. destruct c as [stk doms]. unfold core_step, stack_ok, extends_now in *. cbn [g_stack g_doms] in *.
  destruct stk as [|[[|x rest] s] stk]; [contradiction|destruct Hok; contradiction|].
  destruct Hok as (_ & Hndx & Hrest & Hch). cbn [tl] in Hrest.
  pose proof (rec_frames _ _ Hrec (x :: rest) s (or_introl eq_refl)) as [Eo _].
  destruct (order_tail s x rest Eo) as [Hxs _].
  assert (Htake : forall hist doms v d, (forall y, In y rest -> dget doms y = None) -> chained doms (x :: rest) stk ->
    dget doms x = Some (v :: d) -> recorded hist (Cfg ((x :: rest, s) :: stk) doms) ->
    match take_value x rest s (v :: d) ((x :: rest, s) :: stk) doms with
    | CNext c' => recorded hist c'
    | CYield y c' => recorded (hist ++ [Finds y]) c'
    | CErr _ => True
    end).
  { intros h dm v d H1 H2 H3 H4. pose proof (record_take h x rest s stk dm v d Hndx H1 H2 H3 H4) as Hr.
    unfold take_value. rewrite dset_new by assumption. destruct rest; [exact Hr|]. rewrite app_nil_r in Hr. exact Hr. }
  destruct (dget doms x) as [[|v d]|] eqn:Ed; cbn [map]; [| |].
  - rewrite app_nil_r. now apply (record_pop hist x rest s).
  - rewrite app_nil_r. pose proof (Htake hist doms v d Hrest Hch Ed Hrec) as Ht.
    destruct (take_value x rest s (v :: d) ((x :: rest, s) :: stk) doms) as [c'|y c'|ex] eqn:Et; try exact Ht.
    unfold take_value in Et. destruct rest; discriminate.
  - destruct (filter_domain w i x s) as [d|ex] eqn:Ef.
    2:{ intros pre ev t post E Hev. destruct (snoc_split _ _ _ _ _ E) as [(-> & -> & ->)|(post' & -> & E')].
        + destruct Hev as [Hev|Hev]; [|discriminate]. injection Hev as <-. destruct (rec_frames _ _ Hrec _ s (or_introl eq_refl)) as [_ B].
          split; [exact B|]. split; [intros _; now exists x, rest|discriminate].
        + exact (rec_events _ _ Hrec pre ev t post' E' Hev). }
    pose proof (record_test hist x rest s stk doms w d Hch Ed Ef HI Hrec) as Hrec1.
    assert (Hch' : chained (dset doms x d) (x :: rest) stk).
    { apply (chained_change w i doms (dset doms x d) x stk (x :: rest) (or_introl eq_refl)); [|exact Hch].
      intros y Hy. now rewrite dget_dset_ne. }
    destruct d as [|v d].
    + pose proof (record_pop _ x rest s stk _ Hch' (dget_dset_eq _ _ _) Hrec1) as Hr. now rewrite ddel_dset in Hr.
    + assert (Hrest' : forall y, In y rest -> dget (dset doms x (v :: d)) y = None).
      { intros y Hy. rewrite dget_dset_ne; [now apply Hrest|]. inversion Hndx; subst. intros ->. contradiction. }
      pose proof (Htake _ _ v d Hrest' Hch' (dget_dset_eq _ _ _) Hrec1) as Ht.
      destruct (take_value x rest s (v :: d) ((x :: rest, s) :: stk) (dset doms x (v :: d))) as [c'|y c'|ex] eqn:Et; try exact Ht.
      unfold take_value in Et. destruct rest; discriminate.
Qed.

End Record.

(** ** The observed loop *)

Section Observed.
Variable clk : nat -> Z.
Variable shuffle : list name -> list name.
Variable consumer : nat -> world -> subst -> res world.

Lemma observe_S f k e g :
  observe clk shuffle (S f) consumer k e g =
      let now := map Extends (extended clk e g) in
      match micro clk shuffle e g with
      | (e', g', EvNone) =>
          match observe clk shuffle f consumer k e' g' with
          | Some (vs, e'', r) => Some (now ++ vs, e'', r)
          | None => None
          end
      | (e', g', EvYield s) =>
          match consumer k (e_world e') s with
          | Err ex => Some (now ++ [Finds s], e', Some ex)
          | Ok w =>
              match observe clk shuffle f consumer (S k) (set_world e' w) g' with
              | Some (vs, e'', r) => Some (now ++ Finds s :: vs, e'', r)
              | None => None
              end
          end
      | (e', g', EvStop) => Some (now, e', None)
      | (e', g', EvRaise ex) => Some (now, e', Some ex)
      end.
Proof. reflexivity. Qed.

(** Observing changes nothing. *)
Lemma observe_drain f : forall k e g,
  drain clk shuffle f consumer k e g =
  match observe clk shuffle f consumer k e g with Some (vs, e', r) => Some (found vs, e', r) | None => None end.
Proof.
  induction f as [|f IH]; intros k e g; [reflexivity|]. rewrite drain_S, observe_S. cbv zeta.
  destruct (micro clk shuffle e g) as [[e' g'] [|s| |ex]].
  - rewrite IH. destruct (observe clk shuffle f consumer k e' g') as [[[vs e2] r]|]; [|reflexivity].
    now rewrite found_app, found_extends.
  - destruct (consumer k (e_world e') s) as [w|ex].
    + rewrite IH. destruct (observe clk shuffle f consumer (S k) (set_world e' w) g') as [[[vs e2] r]|]; [|reflexivity].
      now rewrite found_app, found_extends.
    + now rewrite found_app, found_extends.
  - now rewrite found_extends.
  - now rewrite found_extends.
Qed.

Variable i : ginfo.
Variable order : list name.
Variable Inv : list subst -> world -> Prop.
Variable w0 : world.
Hypothesis Hnd : NoDup order.
Hypothesis Hstep : forall k w s w' ys, Inv ys w -> consumer k w s = Ok w' -> Inv (ys ++ [s]) w'.

Definition observed (hist : list visit) (c : cfg) (vs : list visit) (e' : env) (r : option exn) : Prop :=
  events i order Inv (hist ++ vs) /\ subseq (tried vs) (remaining w0 (bare i) c) /\ (exists ys, Inv ys (e_world e')) /\
  (r = None -> e_interrupt e' = None -> exists c', g_stack c' = [] /\ recorded i order Inv (hist ++ vs) c').

Lemma events_prefix a b : events i order Inv (a ++ b) -> events i order Inv a.
Proof. intros H pre ev t post E. apply (H pre ev t (post ++ b)). rewrite E. now rewrite <- app_assoc. Qed.

Lemma observe_loop f : forall k e l c n vs e' r hist,
  running e (l_timer l) -> l_info l = i -> stack_ok c -> doms_ok c -> recorded i order Inv hist c -> Inv (found hist) (e_world e) ->
  observe clk shuffle f consumer k e (GLoop l c n) = Some (vs, e', r) -> observed hist c vs e' r.
Proof.
  induction f as [f IH] using lt_wf_ind. intros k e l c n vs e' r hist Hrun Hi Hok Hdk Hrec HI H.
  destruct f as [|f]; [discriminate|]. rewrite observe_S in H. cbv zeta in H. cbn [Solver.micro extended] in H.
  destruct (g_stack c) as [|[xs s] stk] eqn:Estk.
  { inversion H; subst. unfold observed. cbn [map]. rewrite app_nil_r. split; [apply Hrec|]. split; [constructor|]. split; [eauto|].
    intros _ _. exists c. auto. }
  assert (Hnone : forall e1 r1, e_world e1 = e_world e -> (r1 = None -> e_interrupt e1 <> None) -> observed hist c [] e1 r1).
  { intros e1 r1 E1 Hr1. unfold observed. rewrite app_nil_r. split; [apply Hrec|]. split; [constructor|]. split; [rewrite E1; eauto|].
    intros Hr Hint. destruct (Hr1 Hr Hint). }
  destruct (check_timeout_cases clk e l) as [(e1 & Hc & Hw & Ht & Hint & Htm & Hclk & Hnt & Hnn)|[(t & Hto & Hc & Hel)|(Hto & Hc)]];
    rewrite Hc in H.
  2:{ replace (map Extends _) with (@nil visit) in H by (destruct xs as [|x xs]; [reflexivity|now destruct (dget (g_doms c) x)]).
      inversion H; subst. apply Hnone; [reflexivity|discriminate]. }
  2:{ replace (map Extends _) with (@nil visit) in H by (destruct xs as [|x xs]; [reflexivity|now destruct (dget (g_doms c) x)]).
      inversion H; subst. apply Hnone; [reflexivity|discriminate]. }
  assert (Hrun1 : running e1 (l_timer l)) by (unfold running; rewrite Ht; exact Hrun).
  rewrite Hw in H. rewrite Hi in H.
  assert (Hext : match xs with [] => [] | x :: _ => match dget (g_doms c) x with Some _ => [] | None => [s] end end = extends_now c).
  { unfold extends_now. now rewrite Estk. }
  rewrite Hext in H.
  assert (Hne : g_stack c <> []) by (rewrite Estk; discriminate).
  pose proof (core_step_tree w0 i (e_world e) c Hne Hok Hdk) as Htree.
  pose proof (record_step i order Inv Hnd hist c (e_world e) Hne Hok HI Hrec) as Hrs.
  set (now := map Extends (extends_now c)) in *.
  assert (Hnow : tried now = extends_now c) by apply tried_extends.
  assert (Hfn : found now = []) by apply found_extends.
  destruct (core_step (e_world e) i c) as [c'|y c'|ex].
  - destruct Htree as (Hok' & Hdk' & Hsub).
    destruct (observe clk shuffle f consumer k e1 (GLoop l c' n)) as [[[vs1 e2] r1]|] eqn:Ew; [|discriminate].
    inversion H; subst vs e2 r1. clear H.
    assert (HI1 : Inv (found (hist ++ now)) (e_world e1)) by (rewrite found_app, Hfn, app_nil_r, Hw; exact HI).
    destruct (IH f ltac:(lia) k e1 l c' n vs1 e' r (hist ++ now) Hrun1 Hi Hok' Hdk' Hrs HI1 Ew) as (H1 & H2 & H3 & H4).
    unfold observed. rewrite app_assoc. split; [exact H1|]. split; [|split; [exact H3|exact H4]].
    rewrite tried_app, Hnow. apply (subseq_trans _ _ Hsub). apply subseq_app; [apply subseq_refl|exact H2].
  - destruct Htree as (Hok' & Hdk' & Hsub).
    destruct (do_stop_running clk e1 (l_timer l) Hrun1) as (t & s0 & Hs0 & Et & Hstop).
    rewrite Hstop in H. set (e2 := tick (set_timer e1 (l_timer l) t)) in *.
    assert (Hw2 : e_world e2 = e_world e) by exact Hw.
    assert (Htried1 : subseq (tried (now ++ [Finds y])) (remaining w0 (bare i) c)).
    { rewrite tried_app, Hnow. apply (subseq_trans _ _ Hsub). apply subseq_app; [apply subseq_refl|constructor]. }
    destruct (consumer k (e_world e2) y) as [w1|ex] eqn:Ecs.
    2:{ inversion H; subst. unfold observed. rewrite app_assoc. split; [apply Hrs|]. split; [exact Htried1|].
        split; [rewrite Hw2; eauto|discriminate]. }
    destruct (observe clk shuffle f consumer (S k) (set_world e2 w1) (GYield l c' (n + 1))) as [[[vs1 e3] r1]|] eqn:Ew; [|discriminate].
    inversion H; subst vs e3 r1. clear H.
    assert (HI1 : Inv (found ((hist ++ now) ++ [Finds y])) w1).
    { rewrite !found_app, Hfn, app_nil_r. cbn. apply (Hstep k (e_world e2)); [rewrite Hw2; exact HI|exact Ecs]. }
    assert (Hshape : hist ++ now ++ Finds y :: vs1 = ((hist ++ now) ++ [Finds y]) ++ vs1).
    { rewrite <- !app_assoc. reflexivity. }
    assert (Hlast : forall e5 r5, e_world e5 = w1 -> (r5 = None -> e_interrupt e5 <> None) -> vs1 = [] ->
              observed hist c (now ++ Finds y :: vs1) e5 r5).
    { intros e5 r5 E5 Hr5 ->. unfold observed. rewrite app_assoc. split; [apply Hrs|]. split; [exact Htried1|].
      split; [rewrite E5; eauto|]. intros Hr Hin. destruct (Hr5 Hr Hin). }
    destruct f as [|f]; [discriminate|]. rewrite observe_S in Ew. cbv zeta in Ew. cbn [Solver.micro extended map app] in Ew.
    assert (Hst : stopped (set_world e2 w1) (l_timer l)).
    { unfold stopped, e2. simpl. rewrite upd_same. subst t. reflexivity. }
    destruct (do_start_stopped clk (set_world e2 w1) (l_timer l) Hst) as (t4 & Et4 & Hstart). rewrite Hstart in Ew.
    set (e4 := tick (set_timer (set_world e2 w1) (l_timer l) t4)) in *.
    assert (Hw4 : e_world e4 = w1) by reflexivity.
    assert (Hrun4 : running e4 (l_timer l)).
    { unfold running, e4. simpl. rewrite upd_same. subst t4. reflexivity. }
    assert (Hrec4 : forall vs2 e5 r5, observe clk shuffle f consumer (S k) e4 (GLoop l c' (n + 1)) = Some (vs2, e5, r5) ->
      vs1 = vs2 -> observed hist c (now ++ Finds y :: vs1) e5 r5).
    { intros vs2 e5 r5 E ->.
      destruct (IH f ltac:(lia) (S k) e4 l c' (n + 1) vs2 e5 r5 ((hist ++ now) ++ [Finds y]) Hrun4 Hi Hok' Hdk' Hrs ltac:(rewrite Hw4; exact HI1) E)
        as (H1 & H2 & H3 & H4).
      unfold observed. rewrite Hshape. split; [exact H1|]. split; [|split; [exact H3|exact H4]].
      rewrite tried_app, Hnow. apply (subseq_trans _ _ Hsub). apply subseq_app; [apply subseq_refl|exact H2]. }
    destruct (l_limit l) as [|m|].
    + destruct (observe clk shuffle f consumer (S k) e4 (GLoop l c' (n + 1))) as [[[vs2 e5] r5]|] eqn:E4; [|discriminate].
      injection Ew as <- <- <-. now apply (Hrec4 vs2).
    + destruct (m <=? n + 1).
      * injection Ew as <- <- <-. apply Hlast; [unfold do_abort; now destruct (t_running _)|discriminate|reflexivity].
      * destruct (observe clk shuffle f consumer (S k) e4 (GLoop l c' (n + 1))) as [[[vs2 e5] r5]|] eqn:E4; [|discriminate].
        injection Ew as <- <- <-. now apply (Hrec4 vs2).
    + injection Ew as <- <- <-. apply Hlast; [reflexivity|discriminate|reflexivity].
  - inversion H; subst. unfold observed. split; [exact Hrs|]. split; [rewrite Hnow; exact Htree|].
    split; [rewrite Hw; eauto|discriminate].
Qed.

End Observed.

(** ** The partial assignments whose values passed are consistent with the constraints that do
    not change *)

Section Sub.
Variable w1 : world.
Variable m : model.
Variable cs sub : list constraint.
Variable u : setup.
Variable order : list name.
Variable stable : world -> Prop.

Hypothesis Hnamed : well_named m.
Hypothesis Hu : uinv w1 (pure_variables (m_vars m)) cs u.
Hypothesis Hsub : forall c, In c sub -> In c cs.
Hypothesis Hlocal : forall c, In c sub -> concerns m c -> c_local w1 c.
Hypothesis Hperm : Permutation order (dkeys (pure_variables (m_vars m))).
Hypothesis Hst : forall w c s, stable w -> In c sub -> ceval w c s = ceval w1 c s.

Let i := GInfo (u_doms u) (u_cons u) (u_ad u).

Lemma passed_consistent l q0 : order = map fst l ++ q0 ->
  (forall p x v q, l = p ++ (x, v) :: q -> In v (dom i x) /\ exists w, stable w /\ passed w i x p v = true) ->
  consistent w1 m sub l.
Proof.
  intros Hkeys Hstep.
  assert (Hsb : forall x, In x (map fst l) -> In x order).
  { intros x Hx. rewrite Hkeys. apply in_or_app. now left. }
  assert (Hnd : NoDup (map fst l)).
  { pose proof (order_NoDup m order Hnamed Hperm) as Hn. rewrite Hkeys in Hn. now apply NoDup_app_l in Hn. }
  assert (Hsplit : forall p x v q, l = p ++ (x, v) :: q -> ~ In x (dkeys p) /\ dset p x v = p ++ [(x, v)]).
  { intros p x v q ->. assert (Hn : ~ In x (dkeys p)); [|split; [assumption|now apply dset_new]].
    rewrite map_app in Hnd. simpl in Hnd. apply NoDup_remove_2 in Hnd. intros Hin. apply Hnd.
    apply in_or_app. now left. }
  assert (Hdiff : forall c, In c sub -> is_ad c = true -> forall x y v, In x (c_vars c) -> In y (c_vars c) -> x <> y ->
    dget l x = Some v -> dget l y <> Some v).
  { intros c Hc Had.
    assert (Hwlog : forall x y p v q, l = p ++ (x, v) :: q -> In x (c_vars c) -> In y (c_vars c) -> x <> y ->
                      In y (dkeys p) -> dget l x <> dget l y).
    { intros x y p v q E Hx Hy Hxy Hyp. destruct (Hsplit _ _ _ _ E) as [Hxp Ed].
      destruct (Hstep p x v q E) as [_ (w & _ & Hp)]. rewrite passed_iff in Hp. destruct Hp as [Hp _].
      rewrite E. rewrite dget_mid by assumption. rewrite dget_prefix by assumption.
      specialize (Hp y). rewrite Ed, dget_prefix in Hp by assumption. intros Heq. symmetry in Heq. revert Heq.
      apply Hp. change (i_ad i) with (u_ad u). apply (ui_ad _ _ _ _ Hu). exists c. auto. }
    intros x y v Hx Hy Hxy Hvx Hvy.
    assert (Hinl : forall z, z = x \/ z = y -> In z (map fst l)).
    { intros z [->| ->]; apply (dget_Some l); eauto. }
    destruct (last_var l [x; y]) as (p & z & a & q & E & Hz & Hall); [discriminate| |].
    { intros z [<-|[<-|[]]]; auto. }
    rewrite map_app in Hall. simpl in Hall.
    destruct Hz as [<-|[<-|[]]].
    - apply (Hwlog x y p a q E Hx Hy Hxy); [|congruence]. specialize (Hall y (or_intror (or_introl eq_refl))).
      apply in_app_iff in Hall. destruct Hall as [Hall|[Hall|[]]]; [assumption|contradiction].
    - apply (Hwlog y x p a q E Hy Hx (not_eq_sym Hxy)); [|congruence]. specialize (Hall x (or_introl eq_refl)).
      apply in_app_iff in Hall. destruct Hall as [Hall|[Hall|[]]]; [assumption|]. congruence. }
  split; [|split].
  - intros x v Hin. assert (Hx : In x (map fst l)) by (change x with (fst (x, v)); now apply in_map).
    apply Hsb, (order_In m order Hperm) in Hx. destruct Hx as (d & Hd). exists d. split; [assumption|].
    apply in_split in Hin. destruct Hin as (p & q & E).
    destruct (Hstep p x v q E) as [Hv _]. apply (dom_In w1 m cs u Hnamed Hu x d v Hd) in Hv. tauto.
  - intros c Hc Hcon Hm. pose proof (proj1 (concerns_iff m order Hperm c) Hcon) as [Hne Hvars].
    assert (Hvars' : forall y, In y (c_vars c) -> In y (map fst l)) by (intros y Hy; apply Hm; now apply mentions_vars).
    unfold evaluates_true. destruct (is_ad c) eqn:Had.
    + pose proof (Hdiff c Hc Had) as Hdc. unfold is_ad in Had. destruct (c_body c) as [b|e|xs] eqn:Eb; try discriminate.
      assert (Ecv : c_vars c = dedup xs) by (unfold c_vars; now rewrite Eb).
      unfold ceval. rewrite Eb, <- Ecv.
      destruct (ad_evaluate_spec l (c_vars c) (c_vars_NoDup c)) as (b & -> & Hb).
      { intros x Hx. apply (proj1 (dget_Some l x)). now apply Hvars'. }
      f_equal. apply Hb. intros x y Hx Hy Hxy Heq.
      destruct (proj1 (dget_Some l x) (Hvars' x Hx)) as (v & Hv).
      apply (Hdc x y v Hx Hy Hxy Hv). congruence.
    + destruct (c_vars c) as [|x1 [|x2 rest]] eqn:Ecv; [contradiction| |].
      * assert (Hx1 : In x1 (map fst l)) by (apply Hvars'; now left).
        destruct (proj1 (dget_Some l x1) Hx1) as (v & Hv). pose proof (dget_In l x1 v Hv) as Hin.
        apply in_split in Hin. destruct Hin as (p & q & E).
        destruct (Hstep p x1 v q E) as [Hdom _].
        destruct (proj1 (order_In m order Hperm x1) (Hvars x1 (or_introl eq_refl))) as (d & Hd).
        apply (dom_In w1 m cs u Hnamed Hu x1 d v Hd) in Hdom. destruct Hdom as [_ Hs].
        rewrite <- (Hs c (Hsub c Hc) Had Ecv). apply (Hlocal c Hc Hcon). rewrite Ecv. intros y [<-|[]].
        simpl. now rewrite eqb_refl_s.
      * destruct (last_var l (c_vars c)) as (p & x & v & q & E & Hx & Hall);
          [rewrite Ecv; discriminate|rewrite Ecv; assumption|].
        destruct (Hsplit _ _ _ _ E) as [Hxp Ed].
        destruct (Hstep p x v q E) as [_ (w & Hw & Hp)]. rewrite passed_iff in Hp. destruct Hp as [_ Hp].
        rewrite Ed in Hp. transitivity (ceval w1 c (p ++ [(x, v)])).
        -- apply (Hlocal c Hc Hcon). intros y Hy. rewrite E.
           replace (p ++ (x, v) :: q) with ((p ++ [(x, v)]) ++ q) by (rewrite <- app_assoc; reflexivity).
           apply dget_prefix. now apply Hall.
        -- rewrite <- (Hst w c _ Hw Hc). apply (Hp c); [|exact Hall].
           change (i_cons i) with (u_cons u). apply (ui_cons _ _ _ _ Hu). rewrite Ecv in *.
           repeat split; auto. simpl. lia.
  - intros c xs x y v Hc Hb Hx Hy Hxy Hvx.
    assert (Had : is_ad c = true) by (unfold is_ad; now rewrite Hb).
    apply (Hdiff c Hc Had x y v); try assumption; apply mentions_vars; unfold mentions; now rewrite Hb.
Qed.

(** A value fails only because of another constraint. *)
Lemma consistent_passed l q0 p x v q w : order = map fst l ++ q0 -> consistent w1 m sub l -> l = p ++ (x, v) :: q -> stable w ->
  (forall c, In c cs -> is_ad c = true -> In c sub) ->
  (forall c, In c cs -> ~ In c sub -> In x (c_vars c) -> c_vars c = [x] -> ceval w1 c [(x, v)] = Ok true) ->
  (forall c, In c cs -> ~ In c sub -> In x (c_vars c) -> length (c_vars c) <> 1%nat ->
     (forall z, In z (c_vars c) -> In z (dkeys (p ++ [(x, v)]))) -> ceval w c (p ++ [(x, v)]) = Ok true) ->
  (forall c, In c cs -> In c sub \/ ~ In c sub) ->
  In v (dom i x) /\ passed w i x p v = true.
Proof.
  intros Hkeys (Hvals & Hsat & Hdiff) E Hw Hads Hother1 Hother Hdec.
  assert (Hnd : NoDup (map fst l)).
  { pose proof (order_NoDup m order Hnamed Hperm) as Hn. rewrite Hkeys in Hn. now apply NoDup_app_l in Hn. }
  assert (Hxp : ~ In x (dkeys p)).
  { rewrite E, map_app in Hnd. simpl in Hnd. apply NoDup_remove_2 in Hnd. intros Hin. apply Hnd.
    apply in_or_app. now left. }
  assert (Hgx : dget l x = Some v) by (rewrite E; now apply dget_mid).
  assert (Hinx : In (x, v) l) by (rewrite E; apply in_or_app; right; now left).
  destruct (Hvals x v Hinx) as (d & Hd & Hvd).
  assert (Hxo : In x order) by (apply (order_In m order Hperm); eauto).
  split.
  - apply (dom_In w1 m cs u Hnamed Hu x d v Hd). split; [assumption|].
    intros c Hc Had Ecv. destruct (Hdec c Hc) as [Hcs|Hcs]; [|apply Hother1; try assumption; rewrite Ecv; now left].
    assert (Hcon : concerns m c).
    { apply (concerns_iff m order Hperm). rewrite Ecv. split; [discriminate|]. intros y [<-|[]]. assumption. }
    rewrite <- (Hsat c Hcs Hcon).
    + apply (Hlocal c Hcs Hcon). rewrite Ecv. intros y [<-|[]]. simpl. rewrite eqb_refl_s. congruence.
    + intros y Hy. apply mentions_vars in Hy. rewrite Ecv in Hy. destruct Hy as [<-|[]].
      change x with (fst (x, v)). now apply in_map.
  - apply passed_iff. rewrite dset_new by assumption.
    assert (Hpre : forall y, In y (dkeys (p ++ [(x, v)])) -> dget (p ++ [(x, v)]) y = dget l y).
    { intros y Hy. rewrite E.
      replace (p ++ (x, v) :: q) with ((p ++ [(x, v)]) ++ q) by (rewrite <- app_assoc; reflexivity).
      symmetry. now apply dget_prefix. }
    assert (Hin_l : forall y, In y (dkeys (p ++ [(x, v)])) -> In y (map fst l)).
    { intros y Hy. rewrite E. unfold dkeys in Hy. rewrite map_app in *. simpl in *. apply in_app_iff in Hy.
      apply in_app_iff. destruct Hy as [|[|[]]]; [left|right; left]; assumption. }
    split.
    + intros y Hy Hd'. change (i_ad i) with (u_ad u) in Hy. apply (ui_ad _ _ _ _ Hu) in Hy.
      destruct Hy as (c & Hc & Had & Hx & Hy & Hxy). pose proof (Hads c Hc Had) as Hcs.
      unfold is_ad in Had. destruct (c_body c) as [b|e|xs] eqn:Eb; try discriminate.
      assert (Hm : forall z, In z (c_vars c) -> In z xs).
      { intros z Hz. apply mentions_vars in Hz. unfold mentions in Hz. now rewrite Eb in Hz. }
      apply (Hdiff c xs x y v Hcs Eb (Hm x Hx) (Hm y Hy) Hxy Hgx). rewrite <- Hpre; [assumption|].
      apply dget_Some. eauto.
    + intros c Hc Hvars. change (i_cons i) with (u_cons u) in Hc. apply (ui_cons _ _ _ _ Hu) in Hc.
      destruct Hc as (Hc & Had & Hlen & Hx). destruct (Hdec c Hc) as [Hcs|Hcs]; [|now apply Hother].
      assert (Hall : forall z, In z (c_vars c) -> In z (map fst l)) by (intros z Hz; now apply Hin_l, Hvars).
      assert (Hcon : concerns m c).
      { apply (concerns_iff m order Hperm). split; [destruct (c_vars c); [contradiction|discriminate]|].
        intros z Hz. rewrite Hkeys. apply in_or_app. left. now apply Hall. }
      rewrite (Hst w c _ Hw Hcs), <- (Hsat c Hcs Hcon).
      * apply (Hlocal c Hcs Hcon). intros y Hy. apply Hpre. now apply Hvars.
      * intros z Hz. apply Hall. now apply mentions_vars.
Qed.

End Sub.
