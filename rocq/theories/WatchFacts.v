(** Lemmas about the partial assignments that the search extends. *)
From Coq Require Import Permutation.
From Verif Require Import Solver SolverWatch SpecFormula SpecSafe SpecSolve SpecWatch ExprFacts DictFacts ModelFacts
  CompileFacts CodeFacts SearchFacts LoopFacts EnumFacts SetupFacts SolveFacts.
Open Scope list_scope.
Open Scope Z_scope.

Lemma NoDup_app_l {A} (a b : list A) : NoDup (a ++ b) -> NoDup a.
Proof.
  induction a as [|x a IH]; simpl; intros H; [constructor|]. inversion H; subst. constructor; [|now apply IH].
  intros Hin. apply H2. apply in_or_app. now left.
Qed.

(** ** The tree of partial assignments *)

Section Nodes.
Variable w : world.
Variable i : ginfo.

Fixpoint nodes (xs : list name) (s : subst) : list subst :=
  match xs with
  | [] => []
  | x :: rest => s :: flat_map (fun v => nodes rest (dset s x v)) (filter (passed w i x s) (dom i x))
  end.

Lemma nodes_In xs : forall s s', NoDup (dkeys s ++ xs) ->
  (In s' (nodes xs s) <->
   exists l, s' = s ++ l /\ (exists x q, xs = map fst l ++ x :: q) /\
     forall p x v q, l = p ++ (x, v) :: q -> In v (dom i x) /\ passed w i x (s ++ p) v = true).
Proof.
  induction xs as [|x rest IH]; intros s s' Hnd.
  - simpl. split; [intros []|]. intros (l & _ & (x & q & E) & _). destruct (map fst l); discriminate.
  - cbn [nodes].
    assert (Hxs : ~ In x (dkeys s)).
    { intros Hin. apply NoDup_remove_2 in Hnd. apply Hnd. apply in_or_app. now left. }
    assert (Hnd' : forall v, NoDup (dkeys (dset s x v) ++ rest)).
    { intros v. rewrite dset_new by assumption. unfold dkeys. rewrite map_app, <- app_assoc. exact Hnd. }
    split.
    + intros [<-|Hin].
      { exists []. rewrite app_nil_r. split; [reflexivity|]. split; [exists x, rest; reflexivity|].
        intros p y v q E. destruct p; discriminate. }
      apply in_flat_map in Hin. destruct Hin as (v & Hv & Hin). apply filter_In in Hv. destruct Hv as [Hv Hp].
      apply IH in Hin; [|apply Hnd']. destruct Hin as (l & -> & (y & q & Hl) & Hall).
      rewrite dset_new by assumption. exists ((x, v) :: l). split; [now rewrite <- app_assoc|].
      split; [exists y, q; simpl; now rewrite Hl|].
      intros p z u q' E. apply app_eq_snoc_r in E. destruct E as [(-> & Ey & ->)|(p' & -> & E)].
      * inversion Ey; subst. now rewrite app_nil_r.
      * specialize (Hall p' z u q' E). rewrite dset_new in Hall by assumption. now rewrite <- app_assoc in Hall.
    + intros (l & -> & (y & q & Hl) & Hall). destruct l as [|[z v] l]; [left; now rewrite app_nil_r|].
      right. inversion Hl; subst. clear Hl.
      destruct (Hall [] z v l eq_refl) as [Hv Hp]. rewrite app_nil_r in Hp.
      apply in_flat_map. exists v. split; [apply filter_In; auto|].
      apply IH; [apply Hnd'|]. rewrite dset_new by assumption. exists l. split; [now rewrite <- app_assoc|].
      split; [eauto|]. intros p y' u q' ->.
      specialize (Hall ((z, v) :: p) y' u q' eq_refl). rewrite <- app_assoc. exact Hall.
Qed.

Lemma nodes_sorted xs : forall s, NoDup (dkeys s ++ xs) ->
  ForallOrdPairs (depth_first xs (dom i)) (nodes xs s).
Proof.
  induction xs as [|x rest IH]; intros s Hnd; [constructor|].
  cbn [nodes].
  assert (Hxs : ~ In x (dkeys s) /\ ~ In x rest).
  { apply NoDup_remove_2 in Hnd. split; intros Hin; apply Hnd; apply in_or_app; auto. }
  destruct Hxs as [Hxs Hxr].
  assert (Hnd' : forall v, NoDup (dkeys (dset s x v) ++ rest)).
  { intros v. rewrite dset_new by assumption. unfold dkeys. rewrite map_app, <- app_assoc. exact Hnd. }
  assert (Hsub : forall v s', In s' (nodes rest (dset s x v)) -> exists l, s' = s ++ (x, v) :: l).
  { intros v s' Hin. apply nodes_In in Hin; [|apply Hnd']. destruct Hin as (l & -> & _).
    exists l. rewrite dset_new by assumption. now rewrite <- app_assoc. }
  assert (Hx : forall v s', In s' (nodes rest (dset s x v)) -> dget s' x = Some v).
  { intros v s' Hin. destruct (Hsub v s' Hin) as (l & ->). now apply dget_mid. }
  constructor.
  { apply Forall_forall. intros s' Hin. apply in_flat_map in Hin. destruct Hin as (v & _ & Hin).
    destruct (Hsub v s' Hin) as (l & ->). left. exists ((x, v) :: l). split; [discriminate|reflexivity]. }
  assert (Hb : forall d, (forall a b, before d a b -> before (dom i x) a b) ->
    ForallOrdPairs (depth_first (x :: rest) (dom i)) (flat_map (fun v => nodes rest (dset s x v)) d)).
  { induction d as [|v d IHd]; intros Hbd; [constructor|]. cbn [flat_map]. apply ForallOrdPairs_app.
    - eapply FOP_impl; [|apply IH, Hnd'].
      intros s1 s2 H1 H2 [He|(p & y & q & a & b & -> & Hp & Ha & Hb & Hbf)]; [now left|]. right.
      exists (x :: p), y, q, a, b. split; [reflexivity|]. split; [|auto].
      intros z [<-|Hz]; [|now apply Hp]. rewrite (Hx v s1 H1), (Hx v s2 H2). reflexivity.
    - apply IHd. intros a b (l1 & l2 & l3 & ->). apply Hbd. exists (v :: l1), l2, l3. reflexivity.
    - intros s1 s2 H1 H2. apply in_flat_map in H2. destruct H2 as (u & Hu & H2). right.
      exists [], x, rest, v, u. split; [reflexivity|]. split; [intros z []|].
      split; [now apply Hx|]. split; [now apply Hx|]. apply Hbd.
      apply in_split in Hu. destruct Hu as (l1 & l2 & ->). exists [], l1, l2. reflexivity. }
  apply Hb. intros a b. apply before_filter.
Qed.

(** ** What remains to be extended, from the stack *)

Definition frame_nodes (doms : dict (list Z)) (fr : list name * subst) : list subst :=
  match fst fr with
  | [] => []
  | x :: rest =>
      match dget doms x with
      | None => nodes (x :: rest) (snd fr)
      | Some d => flat_map (fun v => nodes rest (dset (snd fr) x v)) d
      end
  end.

Definition remaining (c : cfg) : list subst := flat_map (frame_nodes (g_doms c)) (g_stack c).

Definition extends_now (c : cfg) : list subst :=
  match g_stack c with
  | (x :: _, s) :: _ => match dget (g_doms c) x with None => [s] | Some _ => [] end
  | _ => []
  end.

Fixpoint chained (doms : dict (list Z)) (xs : list name) (stk : list (list name * subst)) : Prop :=
  match stk with
  | [] => True
  | (ys, s) :: stk' =>
      (exists y, ys = y :: xs /\ dget doms y <> None /\ ~ In y xs) /\ chained doms ys stk'
  end.

Definition stack_ok (c : cfg) : Prop :=
  match g_stack c with
  | [] => True
  | (xs, s) :: stk =>
      xs <> [] /\ NoDup xs /\ (forall y, In y (tl xs) -> dget (g_doms c) y = None) /\
      chained (g_doms c) xs stk
  end.

Lemma dget_ddel_eq {A} (d : dict A) x : NoDup (dkeys d) -> dget (ddel d x) x = None.
Proof.
  induction d as [|[y b] d IH]; intros Hn; simpl; [reflexivity|]. inversion Hn as [|? ? Hy Hn']; subst.
  destruct (String.eqb_spec x y) as [->|E].
  - apply dget_None. exact Hy.
  - simpl. apply String.eqb_neq in E. rewrite E. now apply IH.
Qed.

Lemma dget_ddel_ne {A} (d : dict A) x y : x <> y -> dget (ddel d x) y = dget d y.
Proof.
  intros Hne. induction d as [|[z b] d IH]; simpl; [reflexivity|].
  destruct (String.eqb_spec x z) as [<-|E].
  - destruct (String.eqb_spec y x); [congruence|reflexivity].
  - simpl. now rewrite IH.
Qed.

Lemma chained_change doms doms' x : forall stk xs,
  In x xs -> (forall y, y <> x -> dget doms' y = dget doms y) ->
  chained doms xs stk -> chained doms' xs stk /\ flat_map (frame_nodes doms') stk = flat_map (frame_nodes doms) stk.
Proof.
  induction stk as [|[ys s] stk IH]; intros xs Hx Hd Hc; [split; reflexivity|].
  destruct Hc as [(y & -> & Hy & Hyx) Hc].
  assert (Hne : y <> x) by (intros ->; contradiction).
  destruct (IH (y :: xs) (or_intror Hx) Hd Hc) as [Hc' Hf]. split.
  - split; [|assumption]. exists y. rewrite (Hd y Hne). auto.
  - cbn [flat_map]. rewrite Hf. f_equal. unfold frame_nodes. cbn [fst snd]. now rewrite (Hd y Hne).
Qed.

Definition doms_ok (c : cfg) : Prop := NoDup (dkeys (g_doms c)).

Lemma take_value_step x rest s v d stk doms :
  NoDup (x :: rest) -> (forall y, In y rest -> dget doms y = None) -> chained doms (x :: rest) stk ->
  NoDup (dkeys doms) ->
  forall c', (take_value x rest s (v :: d) ((x :: rest, s) :: stk) doms = CNext c' \/
              exists y, take_value x rest s (v :: d) ((x :: rest, s) :: stk) doms = CYield y c') ->
  stack_ok c' /\ doms_ok c' /\
  remaining c' = flat_map (fun v => nodes rest (dset s x v)) (v :: d) ++ flat_map (frame_nodes doms) stk.
Proof.
  intros Hnd Hrest Hch Hk c' Hc'. inversion Hnd as [|? ? Hx Hnd']; subst.
  destruct (chained_change doms (dset doms x d) x stk (x :: rest) (or_introl eq_refl)) as [Hch' Hfl];
    [intros y Hy; now rewrite dget_dset_ne|assumption|].
  assert (Hrest' : forall y, In y rest -> dget (dset doms x d) y = None).
  { intros y Hy. rewrite dget_dset_ne; [now apply Hrest|]. intros ->. contradiction. }
  assert (Hdk : NoDup (dkeys (dset doms x d))) by now apply dset_NoDup.
  unfold take_value in Hc'. destruct rest as [|y rest].
  - destruct Hc' as [Hc'|(z & Hc')]; [discriminate|]. inversion Hc'; subst. clear Hc'.
    split; [|split; [exact Hdk|]].
    + cbn. repeat split; try assumption; try discriminate.
    + unfold remaining. cbn [g_stack g_doms flat_map]. rewrite Hfl. unfold frame_nodes at 1. cbn [fst snd].
      rewrite dget_dset_eq. cbn [nodes flat_map app]. reflexivity.
  - destruct Hc' as [Hc'|(z & Hc')]; [|discriminate]. inversion Hc'; subst. clear Hc'.
    split; [|split; [exact Hdk|]].
    + cbn. split; [discriminate|]. split; [assumption|]. split.
      * intros z Hz. apply Hrest'. now right.
      * split; [|exact Hch']. exists x. rewrite dget_dset_eq. split; [reflexivity|]. split; [discriminate|exact Hx].
    + unfold remaining. cbn [g_stack g_doms]. cbn [flat_map]. rewrite Hfl.
      unfold frame_nodes at 1 2. cbn [fst snd]. rewrite dget_dset_eq, (Hrest' y (or_introl eq_refl)).
      now rewrite <- app_assoc.
Qed.

Lemma core_step_nodes c : g_stack c <> [] -> stack_ok c -> doms_ok c ->
  match core_step w i c with
  | CNext c' | CYield _ c' => stack_ok c' /\ doms_ok c' /\ remaining c = extends_now c ++ remaining c'
  | CErr _ => prefix (extends_now c) (remaining c)
  end.
Proof.
  intros Hne Hok Hdk. destruct c as [stk doms]. unfold core_step, stack_ok, doms_ok in *. cbn [g_stack g_doms] in *.
  destruct stk as [|[[|x rest] s] stk]; [contradiction|destruct Hok; contradiction|].
  destruct Hok as (_ & Hnd & Hrest & Hch). cbn [tl] in Hrest.
  unfold extends_now. cbn [g_stack g_doms].
  destruct (dget doms x) as [d|] eqn:Ed.
  - assert (Hrem : remaining (Cfg ((x :: rest, s) :: stk) doms) =
      flat_map (fun v => nodes rest (dset s x v)) d ++ flat_map (frame_nodes doms) stk).
    { unfold remaining. cbn [g_stack g_doms flat_map]. unfold frame_nodes at 1. cbn [fst snd]. now rewrite Ed. }
    destruct d as [|v d].
    + (* back to the frame below *)
      destruct (chained_change doms (ddel doms x) x stk (x :: rest) (or_introl eq_refl)) as [Hch' Hfl];
        [intros y Hy; apply dget_ddel_ne; congruence|assumption|].
      split; [|split].
      * cbn. destruct stk as [|[ys s2] stk]; [exact I|]. destruct Hch' as [(y & -> & Hy & Hyx) Hch'].
        split; [discriminate|]. split; [now constructor|]. split; [|exact Hch'].
        intros z [<-|Hz]; [now apply dget_ddel_eq|].
        rewrite dget_ddel_ne; [now apply Hrest|]. inversion Hnd; subst. intros ->. contradiction.
      * unfold doms_ok. cbn [g_doms]. clear -Hdk. induction doms as [|[y b] d IH]; simpl; [constructor|].
        inversion Hdk; subst. destruct (String.eqb x y); [assumption|]. simpl. constructor; [|now apply IH].
        intros Hin. apply H1. clear -Hin. induction d as [|[z b'] d IH]; simpl in *; [assumption|].
        destruct (String.eqb x z); [now right|]. destruct Hin as [E|Hin]; [left; exact E|right; now apply IH].
      * rewrite Hrem. cbn [flat_map app]. unfold remaining. cbn [g_stack g_doms]. now rewrite Hfl.
    + pose proof (take_value_step x rest s v d stk doms Hnd Hrest Hch Hdk) as Ht.
      destruct (take_value x rest s (v :: d) ((x :: rest, s) :: stk) doms) as [c'|z c'|ex] eqn:Et.
      * destruct (Ht c' (or_introl eq_refl)) as (H1 & H2 & H3). rewrite Hrem, H3. auto.
      * destruct (Ht c' (or_intror (ex_intro _ z eq_refl))) as (H1 & H2 & H3). rewrite Hrem, H3. auto.
      * exists (remaining (Cfg ((x :: rest, s) :: stk) doms)). reflexivity.
  - assert (Hrem : remaining (Cfg ((x :: rest, s) :: stk) doms) =
      nodes (x :: rest) s ++ flat_map (frame_nodes doms) stk).
    { unfold remaining. cbn [g_stack g_doms flat_map]. unfold frame_nodes at 1. cbn [fst snd]. now rewrite Ed. }
    destruct (filter_domain w i x s) as [d|ex] eqn:Ef.
    2:{ rewrite Hrem. cbn [nodes]. eexists. cbn [app]. reflexivity. }
    assert (Hd : d = filter (passed w i x s) (dom i x)).
    { unfold filter_domain in Ef. destruct (dget (i_doms i) x) as [dm|] eqn:Edm; [|discriminate].
      apply filterM_Ok in Ef. unfold dom, dget_or. rewrite Edm. exact Ef. }
    rewrite Hrem. cbn [nodes]. rewrite <- Hd. destruct d as [|v d].
    + (* no value passes *)
      split; [|split].
      * cbn. destruct stk as [|[ys s2] stk]; [exact I|]. destruct Hch as [(y & -> & Hy & Hyx) Hch].
        split; [discriminate|]. split; [now constructor|]. split; [|exact Hch].
        intros z [<-|Hz]; [assumption|now apply Hrest].
      * exact Hdk.
      * reflexivity.
    + assert (Hrest' : forall y, In y rest -> dget (dset doms x (v :: d)) y = None).
      { intros y Hy. rewrite dget_dset_ne; [now apply Hrest|]. inversion Hnd; subst. intros ->. contradiction. }
      destruct (chained_change doms (dset doms x (v :: d)) x stk (x :: rest) (or_introl eq_refl)) as [Hch' Hfl];
        [intros y Hy; now rewrite dget_dset_ne|assumption|].
      pose proof (take_value_step x rest s v d stk _ Hnd Hrest' Hch' (dset_NoDup _ _ _ Hdk)) as Ht.
      destruct (take_value x rest s (v :: d) ((x :: rest, s) :: stk) (dset doms x (v :: d))) as [c'|z c'|ex] eqn:Et.
      * destruct (Ht c' (or_introl eq_refl)) as (H1 & H2 & H3). rewrite H3, Hfl. auto.
      * destruct (Ht c' (or_intror (ex_intro _ z eq_refl))) as (H1 & H2 & H3). rewrite H3, Hfl. auto.
      * eexists. cbn [app]. reflexivity.
Qed.

End Nodes.

(** ** The observed generator *)

Section Watched.
Variable clk : nat -> Z.
Variable shuffle : list name -> list name.

Lemma watch_S f e g :
  watch clk shuffle (S f) e g =
      match micro clk shuffle e g with
      | (e', g', EvNone) =>
          match watch clk shuffle f e' g' with
          | Some (ts, ys, e'', r) => Some (extended clk e g ++ ts, ys, e'', r)
          | None => None
          end
      | (e', g', EvYield s) =>
          match watch clk shuffle f e' g' with
          | Some (ts, ys, e'', r) => Some (extended clk e g ++ ts, s :: ys, e'', r)
          | None => None
          end
      | (e', g', EvStop) => Some (extended clk e g, [], e', None)
      | (e', g', EvRaise ex) => Some (extended clk e g, [], e', Some ex)
      end.
Proof. reflexivity. Qed.

Lemma set_world_id e : set_world e (e_world e) = e.
Proof. now destruct e. Qed.

(** Observing changes nothing. *)
Lemma watch_drain f : forall k e g,
  drain clk shuffle f passive k e g =
  match watch clk shuffle f e g with Some (_, ys, e', r) => Some (ys, e', r) | None => None end.
Proof.
  induction f as [|f IH]; intros k e g; [reflexivity|]. rewrite drain_S, watch_S.
  destruct (micro clk shuffle e g) as [[e' g'] [|s| |ex]]; try reflexivity.
  - rewrite (IH k). now destruct (watch clk shuffle f e' g') as [[[[ts ys] e''] r]|].
  - unfold passive at 1. rewrite set_world_id, (IH (S k)).
    now destruct (watch clk shuffle f e' g') as [[[[ts ys] e''] r]|].
Qed.

Lemma watch_nodes f : forall e l c n ts ys e' r,
  running e (l_timer l) -> stack_ok c -> doms_ok c ->
  watch clk shuffle f e (GLoop l c n) = Some (ts, ys, e', r) ->
  prefix ts (remaining (e_world e) (l_info l) c) /\
  (r = None -> e_interrupt e' = None -> ts = remaining (e_world e) (l_info l) c).
Proof.
  induction f as [f IH] using lt_wf_ind. intros e l c n ts ys e' r Hrun Hok Hdk H.
  destruct f as [|f]; [discriminate|]. rewrite watch_S in H. cbn [Solver.micro extended] in H.
  destruct (g_stack c) as [|[xs s] stk] eqn:Estk.
  { inversion H; subst. unfold remaining. rewrite Estk. split; [now exists []|reflexivity]. }
  destruct (check_timeout_cases clk e l) as [(e1 & Hc & Hw & Ht & Hi & Htm & Hclk & Hnt & Hnone)|[(t & Hto & Hc & Hel)|(Hto & Hc)]];
    rewrite Hc in H.
  2:{ inversion H; subst. split; [|discriminate].
      exists (remaining (e_world e) (l_info l) c). destruct xs; [reflexivity|]. now destruct (dget (g_doms c) n0). }
  2:{ inversion H; subst. split; [|discriminate].
      exists (remaining (e_world e) (l_info l) c). destruct xs; [reflexivity|]. now destruct (dget (g_doms c) n0). }
  assert (Hrun1 : running e1 (l_timer l)) by (unfold running; rewrite Ht; exact Hrun).
  rewrite Hw in H.
  assert (Hext : match xs with [] => [] | x :: _ => match dget (g_doms c) x with Some _ => [] | None => [s] end end = extends_now c).
  { unfold extends_now. now rewrite Estk. }
  assert (Hne : g_stack c <> []) by (rewrite Estk; discriminate).
  pose proof (core_step_nodes (e_world e) (l_info l) c Hne Hok Hdk) as Hstep.
  destruct (core_step (e_world e) (l_info l) c) as [c'|z c'|ex].
  - destruct Hstep as (Hok' & Hdk' & Hrem).
    destruct (watch clk shuffle f e1 (GLoop l c' n)) as [[[[ts1 ys1] e2] r1]|] eqn:Ew; [|discriminate].
    destruct (IH f ltac:(lia) e1 l c' n ts1 ys1 e2 r1 Hrun1 Hok' Hdk' Ew) as [Hp Hall]. rewrite Hw in Hp, Hall.
    rewrite Hext in H. inversion H; subst. rewrite Hrem. split; [now apply prefix_app_r|].
    intros Hr Hint. now rewrite (Hall Hr Hint).
  - destruct Hstep as (Hok' & Hdk' & Hrem).
    destruct (do_stop_running clk e1 (l_timer l) Hrun1) as (t & s0 & Hs0 & Et & Hstop).
    rewrite Hstop in H. set (e2 := tick (set_timer e1 (l_timer l) t)) in *.
    assert (Hw2 : e_world e2 = e_world e) by exact Hw.
    destruct (watch clk shuffle f e2 (GYield l c' (n + 1))) as [[[[ts1 ys1] e3] r1]|] eqn:Ew; [|discriminate].
    rewrite Hext in H. inversion H; subst ts ys e3 r1. clear H. rewrite Hrem.
    destruct f as [|f]; [discriminate|]. rewrite watch_S in Ew. cbn [Solver.micro extended app] in Ew.
    assert (Hst : stopped e2 (l_timer l)).
    { unfold stopped, e2. simpl. rewrite upd_same. subst t. reflexivity. }
    destruct (do_start_stopped clk e2 (l_timer l) Hst) as (t4 & Et4 & Hstart). rewrite Hstart in Ew.
    set (e4 := tick (set_timer e2 (l_timer l) t4)) in *.
    assert (Hw4 : e_world e4 = e_world e) by exact Hw.
    assert (Hrun4 : running e4 (l_timer l)).
    { unfold running, e4. simpl. rewrite upd_same. subst t4. reflexivity. }
    assert (Hrec : forall ts1 ys1 e' r, watch clk shuffle f e4 (GLoop l c' (n + 1)) = Some (ts1, ys1, e', r) ->
      prefix (extends_now c ++ ts1) (extends_now c ++ remaining (e_world e) (l_info l) c') /\
      (r = None -> e_interrupt e' = None ->
       extends_now c ++ ts1 = extends_now c ++ remaining (e_world e) (l_info l) c')).
    { intros ts2 ys2 e5 r5 E.
      destruct (IH f ltac:(lia) e4 l c' (n + 1) ts2 ys2 e5 r5 Hrun4 Hok' Hdk' E) as [Hp Hall]. rewrite Hw4 in Hp, Hall.
      split; [now apply prefix_app_r|]. intros Hr Hint. now rewrite (Hall Hr Hint). }
    assert (Hstopped : forall q : list subst, prefix (extends_now c ++ []) (extends_now c ++ q)).
    { intros q. rewrite app_nil_r. exists q. reflexivity. }
    destruct (l_limit l) as [|m|].
    + destruct (watch clk shuffle f e4 (GLoop l c' (n + 1))) as [[[[ts2 ys2] e5] r5]|] eqn:E4; [|discriminate].
      inversion Ew; subst. eapply Hrec. reflexivity.
    + destruct (m <=? n + 1).
      * inversion Ew; subst. split; [apply Hstopped|]. intros _ Hint. discriminate.
      * destruct (watch clk shuffle f e4 (GLoop l c' (n + 1))) as [[[[ts2 ys2] e5] r5]|] eqn:E4; [|discriminate].
        inversion Ew; subst. eapply Hrec. reflexivity.
    + inversion Ew; subst. split; [apply Hstopped|discriminate].
  - rewrite Hext in H. inversion H; subst. split; [exact Hstep|discriminate].
Qed.

End Watched.

(** ** The partial assignments that pass are the consistent ones *)

Section Consistent.
Variable w1 : world.
Variable m : model.
Variable cs : list constraint.
Variable u : setup.
Variable order : list name.

Hypothesis Hnamed : well_named m.
Hypothesis Hu : uinv w1 (pure_variables (m_vars m)) cs u.
Hypothesis Hlocal : forall c, In c cs -> concerns m c -> c_local w1 c.
Hypothesis Hgroups : forall c, In c cs -> is_ad c = true ->
  c_vars c <> [] /\ forall x, In x (c_vars c) -> In x (dkeys (pure_variables (m_vars m))).
Hypothesis Hperm : Permutation order (dkeys (pure_variables (m_vars m))).

Let i := GInfo (u_doms u) (u_cons u) (u_ad u).

Lemma stepwise_consistent l : starts order l -> stepwise w1 u l -> consistent w1 m cs l.
Proof.
  intros (x0 & q0 & Hkeys) Hstep.
  assert (Hsub : forall x, In x (map fst l) -> In x order).
  { intros x Hx. rewrite Hkeys. apply in_or_app. now left. }
  assert (Hnd : NoDup (map fst l)).
  { pose proof (order_NoDup m order Hnamed Hperm) as Hn. rewrite Hkeys in Hn. now apply NoDup_app_l in Hn. }
  assert (Hsplit : forall p x v q, l = p ++ (x, v) :: q -> ~ In x (dkeys p) /\ dset p x v = p ++ [(x, v)]).
  { intros p x v q ->. assert (Hn : ~ In x (dkeys p)); [|split; [assumption|now apply dset_new]].
    rewrite map_app in Hnd. simpl in Hnd. apply NoDup_remove_2 in Hnd. intros Hin. apply Hnd.
    apply in_or_app. now left. }
  assert (Hdiff : forall c, In c cs -> is_ad c = true -> forall x y v, In x (c_vars c) -> In y (c_vars c) -> x <> y ->
    dget l x = Some v -> dget l y <> Some v).
  { intros c Hc Had.
    assert (Hwlog : forall x y p v q, l = p ++ (x, v) :: q -> In x (c_vars c) -> In y (c_vars c) -> x <> y ->
                      In y (dkeys p) -> dget l x <> dget l y).
    { intros x y p v q E Hx Hy Hxy Hyp. destruct (Hsplit _ _ _ _ E) as [Hxp Ed].
      destruct (Hstep p x v q E) as [_ Hp]. rewrite passed_iff in Hp. cbn [app] in Hp. destruct Hp as [Hp _].
      rewrite E. rewrite dget_mid by assumption. rewrite dget_prefix by assumption.
      specialize (Hp y). rewrite Ed, dget_prefix in Hp by assumption. intros Heq. symmetry in Heq. revert Heq.
      apply Hp. cbn [i_ad]. apply (ui_ad _ _ _ _ Hu). exists c. auto. }
    intros x y v Hx Hy Hxy Hvx Hvy.
    assert (Hinl : forall z, z = x \/ z = y -> In z (map fst l)).
    { intros z [->| ->]; apply (dget_Some l); eauto. }
    destruct (last_var l [x; y]) as (p & z & a & q & E & Hz & Hall); [discriminate| |].
    { intros z [<-|[<-|[]]]; auto. }
    rewrite map_app in Hall. simpl in Hall.
    destruct Hz as [<-|[<-|[]]].
    - apply (Hwlog x y p a q E Hx Hy Hxy); [|congruence]. specialize (Hall y (or_intror (or_introl eq_refl))).
      apply in_app_iff in Hall. destruct Hall as [Hall|[Hall|[]]]; [assumption|contradiction].
    - apply (Hwlog y x p a q E Hy Hx (not_eq_sym Hxy)); [|congruence]. specialize (Hall x (or_introl eq_refl)).
      apply in_app_iff in Hall. destruct Hall as [Hall|[Hall|[]]]; [assumption|]. congruence. }
  split; [|split].
  - intros x v Hin. assert (Hx : In x (map fst l)) by (change x with (fst (x, v)); now apply in_map).
    apply Hsub, (order_In m order Hperm) in Hx. destruct Hx as (d & Hd). exists d. split; [assumption|].
    apply in_split in Hin. destruct Hin as (p & q & E).
    destruct (Hstep p x v q E) as [Hv _]. apply (dom_In w1 m cs u Hnamed Hu x d v Hd) in Hv. tauto.
  - intros c Hc Hcon Hm. pose proof (proj1 (concerns_iff m order Hperm c) Hcon) as [Hne Hvars].
    assert (Hvars' : forall y, In y (c_vars c) -> In y (map fst l)) by (intros y Hy; apply Hm; now apply mentions_vars).
    unfold evaluates_true. destruct (is_ad c) eqn:Had.
    + pose proof (Hdiff c Hc Had) as Hdc. unfold is_ad in Had. destruct (c_body c) as [b|e|xs] eqn:Eb; try discriminate.
      assert (Ecv : c_vars c = dedup xs) by (unfold c_vars; now rewrite Eb).
      unfold ceval. rewrite Eb, <- Ecv.
      destruct (ad_evaluate_spec l (c_vars c) (c_vars_NoDup c)) as (b & -> & Hb).
      { intros x Hx. apply (proj1 (dget_Some l x)). now apply Hvars'. }
      f_equal. apply Hb. intros x y Hx Hy Hxy Heq.
      destruct (proj1 (dget_Some l x) (Hvars' x Hx)) as (v & Hv).
      apply (Hdc x y v Hx Hy Hxy Hv). congruence.
    + destruct (c_vars c) as [|x1 [|x2 rest]] eqn:Ecv; [contradiction| |].
      * assert (Hx1 : In x1 (map fst l)) by (apply Hvars'; now left).
        destruct (proj1 (dget_Some l x1) Hx1) as (v & Hv). pose proof (dget_In l x1 v Hv) as Hin.
        apply in_split in Hin. destruct Hin as (p & q & E).
        destruct (Hstep p x1 v q E) as [Hdom _].
        destruct (proj1 (order_In m order Hperm x1) (Hvars x1 (or_introl eq_refl))) as (d & Hd).
        apply (dom_In w1 m cs u Hnamed Hu x1 d v Hd) in Hdom. destruct Hdom as [_ Hs].
        rewrite <- (Hs c Hc Had Ecv). apply (Hlocal c Hc Hcon). rewrite Ecv. intros y [<-|[]].
        simpl. now rewrite eqb_refl_s.
      * destruct (last_var l (c_vars c)) as (p & x & v & q & E & Hx & Hall);
          [rewrite Ecv; discriminate|rewrite Ecv; assumption|].
        destruct (Hsplit _ _ _ _ E) as [Hxp Ed].
        destruct (Hstep p x v q E) as [_ Hp]. rewrite passed_iff in Hp. cbn [app] in Hp. destruct Hp as [_ Hp].
        rewrite Ed in Hp. rewrite <- (Hp c).
        -- apply (Hlocal c Hc Hcon). intros y Hy. rewrite E.
           replace (p ++ (x, v) :: q) with ((p ++ [(x, v)]) ++ q) by (rewrite <- app_assoc; reflexivity).
           apply dget_prefix. now apply Hall.
        -- cbn [i_cons]. apply (ui_cons _ _ _ _ Hu). rewrite Ecv in *.
           repeat split; auto. simpl. lia.
        -- exact Hall.
  - intros c xs x y v Hc Hb Hx Hy Hxy Hvx.
    assert (Had : is_ad c = true) by (unfold is_ad; now rewrite Hb).
    apply (Hdiff c Hc Had x y v); try assumption; apply mentions_vars; unfold mentions; now rewrite Hb.
Qed.

Lemma consistent_stepwise l : starts order l -> consistent w1 m cs l -> stepwise w1 u l.
Proof.
  intros (x0 & q0 & Hkeys) (Hvals & Hsat & Hdiff) p x v q E.
  assert (Hnd : NoDup (map fst l)).
  { pose proof (order_NoDup m order Hnamed Hperm) as Hn. rewrite Hkeys in Hn. now apply NoDup_app_l in Hn. }
  assert (Hxp : ~ In x (dkeys p)).
  { rewrite E, map_app in Hnd. simpl in Hnd. apply NoDup_remove_2 in Hnd. intros Hin. apply Hnd.
    apply in_or_app. now left. }
  assert (Hgx : dget l x = Some v) by (rewrite E; now apply dget_mid).
  assert (Hinx : In (x, v) l) by (rewrite E; apply in_or_app; right; now left).
  destruct (Hvals x v Hinx) as (d & Hd & Hvd).
  assert (Hxo : In x order) by (apply (order_In m order Hperm); eauto).
  split.
  - apply (dom_In w1 m cs u Hnamed Hu x d v Hd). split; [assumption|].
    intros c Hc Had Ecv.
    assert (Hcon : concerns m c).
    { apply (concerns_iff m order Hperm). rewrite Ecv. split; [discriminate|]. intros y [<-|[]]. assumption. }
    rewrite <- (Hsat c Hc Hcon).
    + apply (Hlocal c Hc Hcon). rewrite Ecv. intros y [<-|[]]. simpl. rewrite eqb_refl_s. congruence.
    + intros y Hy. apply mentions_vars in Hy. rewrite Ecv in Hy. destruct Hy as [<-|[]].
      change x with (fst (x, v)). now apply in_map.
  - cbn [app]. apply passed_iff. rewrite dset_new by assumption.
    assert (Hpre : forall y, In y (dkeys (p ++ [(x, v)])) -> dget (p ++ [(x, v)]) y = dget l y).
    { intros y Hy. rewrite E.
      replace (p ++ (x, v) :: q) with ((p ++ [(x, v)]) ++ q) by (rewrite <- app_assoc; reflexivity).
      symmetry. now apply dget_prefix. }
    assert (Hin_l : forall y, In y (dkeys (p ++ [(x, v)])) -> In y (map fst l)).
    { intros y Hy. rewrite E. unfold dkeys in Hy. rewrite map_app in *. simpl in *. apply in_app_iff in Hy.
      apply in_app_iff. destruct Hy as [|[|[]]]; [left|right; left]; assumption. }
    split.
    + intros y Hy Hd'. cbn [i_ad] in Hy. apply (ui_ad _ _ _ _ Hu) in Hy.
      destruct Hy as (c & Hc & Had & Hx & Hy & Hxy).
      unfold is_ad in Had. destruct (c_body c) as [b|e|xs] eqn:Eb; try discriminate.
      assert (Hm : forall z, In z (c_vars c) -> In z xs).
      { intros z Hz. apply mentions_vars in Hz. unfold mentions in Hz. now rewrite Eb in Hz. }
      apply (Hdiff c xs x y v Hc Eb (Hm x Hx) (Hm y Hy) Hxy Hgx). rewrite <- Hpre; [assumption|].
      apply dget_Some. eauto.
    + intros c Hc Hvars. cbn [i_cons] in Hc. apply (ui_cons _ _ _ _ Hu) in Hc.
      destruct Hc as (Hc & Had & _ & Hx).
      assert (Hall : forall z, In z (c_vars c) -> In z (map fst l)) by (intros z Hz; now apply Hin_l, Hvars).
      assert (Hcon : concerns m c).
      { apply (concerns_iff m order Hperm). split; [destruct (c_vars c); [contradiction|discriminate]|].
        intros z Hz. rewrite Hkeys. apply in_or_app. left. now apply Hall. }
      rewrite <- (Hsat c Hc Hcon).
      * apply (Hlocal c Hc Hcon). intros y Hy. apply Hpre. now apply Hvars.
      * intros z Hz. apply Hall. now apply mentions_vars.
Qed.

Lemma nodes_iff s : In s (nodes w1 i order []) <-> starts order s /\ consistent w1 m cs s.
Proof.
  rewrite (nodes_In w1 i order [] s) by (apply (order_NoDup m order Hnamed Hperm)). split.
  - intros (l & -> & Hl & Hst). simpl. split; [exact Hl|]. apply stepwise_consistent; [exact Hl|exact Hst].
  - intros [Hk Hs]. exists s. split; [reflexivity|]. split; [exact Hk|]. now apply consistent_stepwise.
Qed.

End Consistent.
