(** [_solve_forbidden] does the same search as [solve]. *)
From Coq Require Import Permutation.
From Verif Require Import Solver Forbidden SpecFormula SpecSafe SpecSolve ExprFacts DictFacts ModelFacts CompileFacts CodeFacts
  SearchFacts LoopFacts EnumFacts SetupFacts SolveFacts MasterFacts SolverProps.
Open Scope list_scope.
Open Scope Z_scope.

Definition row (fb : forb) (y z : name) : option Z := match dget fb y with Some d => dget d z | None => None end.

Section Rows.
Variable names : list name.

Definition wf (fb : forb) : Prop :=
  (forall y, In y names -> In y (dkeys fb)) /\ (forall y d, dget fb y = Some d -> NoDup (dkeys d)).

Lemma wf_set fb c d : wf fb -> NoDup (dkeys d) -> wf (dset fb c d).
Proof.
  intros [H1 H2] Hd. split.
  - intros y Hy. apply dset_In_keys. right. auto.
  - intros y d'. rewrite dget_dset. destruct (String.eqb_spec y c); [intros E; inversion E; subst; assumption|apply H2].
Qed.

Lemma row_set fb c d y z : row (dset fb c d) y z = if String.eqb y c then dget d z else row fb y z.
Proof. unfold row. rewrite dget_dset. destruct (String.eqb y c); reflexivity. Qed.

Lemma fb_pop_spec x cs : forall fb, wf fb -> (forall c, In c cs -> In c names) ->
  exists fb', fb_pop x cs fb = Ok fb' /\ wf fb' /\
    (forall y z, z <> x -> row fb' y z = row fb y z) /\
    (forall y, In y cs -> row fb' y x = None) /\ (forall y, ~ In y cs -> row fb' y x = row fb y x).
Proof.
  induction cs as [|c cs IH]; intros fb Hw Hin; [exists fb; simpl; repeat split; auto; try apply Hw; contradiction|].
  simpl. destruct (proj1 (dget_Some fb c) (proj1 Hw c (Hin c (or_introl eq_refl)))) as (d & Hd). rewrite Hd.
  pose proof (proj2 Hw c d Hd) as Hnd.
  destruct (IH (dset fb c (ddel d x))) as (fb' & E & Hw' & H1 & H2 & H3).
  { apply wf_set; [assumption|now apply ddel_NoDup]. }
  { intros c' Hc'. apply Hin. now right. }
  assert (Hr : row fb c = dget d) by (unfold row; now rewrite Hd).
  exists fb'. split; [assumption|]. split; [assumption|]. split; [|split].
  - intros y z Hz. rewrite H1 by assumption. rewrite row_set. destruct (String.eqb_spec y c); [|reflexivity]. subst y.
    rewrite dget_ddel by assumption. destruct (String.eqb_spec z x); [contradiction|]. now rewrite Hr.
  - intros y Hy. destruct (in_dec string_dec y cs) as [Hy'|Hy']; [auto|]. destruct Hy as [<-|Hy]; [|contradiction].
    rewrite H3 by assumption. rewrite row_set, eqb_refl_s. rewrite dget_ddel by assumption. now rewrite eqb_refl_s.
  - intros y Hy. rewrite H3 by (intros Hy'; apply Hy; now right). rewrite row_set.
    destruct (String.eqb_spec y c); [|reflexivity]. exfalso. apply Hy. now left.
Qed.

Lemma fb_push_spec x v cs : forall fb, wf fb -> (forall c, In c cs -> In c names) ->
  exists fb', fb_push x v cs fb = Ok fb' /\ wf fb' /\
    (forall y z, z <> x -> row fb' y z = row fb y z) /\
    (forall y, In y cs -> row fb' y x = Some v) /\ (forall y, ~ In y cs -> row fb' y x = row fb y x).
Proof.
  induction cs as [|c cs IH]; intros fb Hw Hin; [exists fb; simpl; repeat split; auto; try apply Hw; contradiction|].
  simpl. destruct (proj1 (dget_Some fb c) (proj1 Hw c (Hin c (or_introl eq_refl)))) as (d & Hd). rewrite Hd.
  pose proof (proj2 Hw c d Hd) as Hnd.
  destruct (IH (dset fb c (dset d x v))) as (fb' & E & Hw' & H1 & H2 & H3).
  { apply wf_set; [assumption|now apply dset_NoDup]. }
  { intros c' Hc'. apply Hin. now right. }
  assert (Hr : row fb c = dget d) by (unfold row; now rewrite Hd).
  exists fb'. split; [assumption|]. split; [assumption|]. split; [|split].
  - intros y z Hz. rewrite H1 by assumption. rewrite row_set. destruct (String.eqb_spec y c); [|reflexivity]. subst y.
    rewrite dget_dset_ne by assumption. now rewrite Hr.
  - intros y Hy. destruct (in_dec string_dec y cs) as [Hy'|Hy']; [auto|]. destruct Hy as [<-|Hy]; [|contradiction].
    rewrite H3 by assumption. rewrite row_set, eqb_refl_s. apply dget_dset_eq.
  - intros y Hy. rewrite H3 by (intros Hy'; apply Hy; now right). rewrite row_set.
    destruct (String.eqb_spec y c); [|reflexivity]. exfalso. apply Hy. now left.
Qed.
End Rows.

Lemma filterM_ext {A} (f g : A -> res bool) l : (forall a, In a l -> f a = g a) -> filterM f l = filterM g l.
Proof.
  induction l as [|a l IH]; intros H; [reflexivity|]. simpl. rewrite (H a (or_introl eq_refl)).
  rewrite IH; [reflexivity|]. intros b Hb. apply H. now right.
Qed.

Lemma zmem_In v l : zmem v l = true <-> In v l.
Proof.
  induction l as [|u l IH]; simpl; [split; [discriminate|contradiction]|]. rewrite orb_true_iff, IH, Z.eqb_eq.
  split; (intros [H|H]; [left; congruence|now right]).
Qed.

Section Sim.
Variable w : world.
Variable i : ginfo.
Variable names : list name.
Notation ad := (fun x => dget_or (i_ad i) x []).
Hypothesis Hnd : NoDup names.
Hypothesis ad_sym : forall x y, In y (ad x) -> In x (ad y).
Hypothesis ad_irr : forall x, ~ In x (ad x).
Hypothesis ad_in : forall x y, In y (ad x) -> In y names.

Definition after_ (z y : name) : Prop := exists p q, names = p ++ z :: q /\ In y q.

Definition Exact (fb : forb) (s : subst) : Prop :=
  wf names fb /\ forall y z v, row fb y z = Some v <-> In y (ad z) /\ after_ z y /\ dget s z = Some v.
Definition Stale (fb : forb) (x : name) (s : subst) : Prop :=
  wf names fb /\
  (forall y z v, z <> x -> (row fb y z = Some v <-> In y (ad z) /\ after_ z y /\ dget s z = Some v)) /\
  (forall y v, row fb y x = Some v -> In y (ad x)).

Inductive chain : list (list name * subst) -> Prop :=
| ChainNil : chain []
| ChainOne : names <> [] -> chain [(names, [])]
| ChainMore x rest s stk v : chain ((x :: rest, s) :: stk) -> rest <> [] ->
    chain ((rest, dset s x v) :: (x :: rest, s) :: stk).

Lemma chain_tail p stk : chain (p :: stk) -> chain stk.
Proof. intros H. inversion H; subst; [constructor|assumption]. Qed.

Lemma chain_names xs s stk : chain ((xs, s) :: stk) -> xs <> [] /\ names = dkeys s ++ xs.
Proof.
  remember ((xs, s) :: stk) as l eqn:E. intros H. revert xs s stk E.
  induction H as [| |x rest s0 stk0 v H IH Hr]; intros xs s stk E; inversion E; subst.
  - auto.
  - split; [assumption|]. destruct (IH _ _ _ eq_refl) as [_ En]. rewrite En at 1.
    rewrite dset_new.
    + unfold dkeys. rewrite map_app. simpl. now rewrite <- app_assoc.
    + rewrite En in Hnd. apply NoDup_remove_2 in Hnd. intros Hin. apply Hnd. apply in_or_app. now left.
Qed.

Lemma after_bound z x rest (s : subst) : names = dkeys s ++ x :: rest -> In z (dkeys s) -> after_ z x.
Proof.
  intros En Hz. apply in_split in Hz. destruct Hz as (p & q & E). exists p, (q ++ x :: rest). split.
  - rewrite En, E, <- app_assoc. reflexivity.
  - apply in_or_app. right. now left.
Qed.

Lemma after_rest x y rest (s : subst) : names = dkeys s ++ x :: rest -> (after_ x y <-> In y rest).
Proof.
  intros En. split.
  - intros (p & q & E & Hy). rewrite En in E.
    assert (q = rest); [|subst; assumption].
    assert (Hx : ~ In x (dkeys s)) by (rewrite En in Hnd; apply NoDup_remove_2 in Hnd; intros Hin; apply Hnd; apply in_or_app; now left).
    assert (Hp : ~ In x p) by (rewrite En, E in Hnd; apply NoDup_remove_2 in Hnd; intros Hin; apply Hnd; apply in_or_app; now left).
    clear - E Hx Hp. revert p E Hp. induction (dkeys s) as [|a l IH]; intros p E Hp; destruct p as [|b p]; simpl in E; inversion E; subst.
    + reflexivity.
    + exfalso. apply Hp. now left.
    + exfalso. apply Hx. now left.
    + eapply IH; eauto; intros H; [apply Hx|apply Hp]; now right.
  - intros Hy. exists (dkeys s), rest. auto.
Qed.

Lemma pop_exact fb x rest s stk : chain ((x :: rest, s) :: stk) -> Stale fb x s ->
  exists fb', fb_pop x (ad x) fb = Ok fb' /\ Exact fb' s.
Proof.
  intros Hc (Hw & H1 & H2). destruct (chain_names _ _ _ Hc) as [_ En].
  destruct (fb_pop_spec names x (ad x) fb Hw (fun c => ad_in x c)) as (fb' & E & Hw' & P1 & P2 & P3).
  exists fb'. split; [assumption|]. split; [assumption|]. intros y z v.
  destruct (string_dec z x) as [->|Hz]; [|rewrite P1 by assumption; now apply H1].
  assert (Hs : dget s x = None).
  { apply dget_None. rewrite En in Hnd. apply NoDup_remove_2 in Hnd. intros Hin. apply Hnd. apply in_or_app. now left. }
  split.
  - intros Hr. exfalso. destruct (in_dec string_dec y (ad x)) as [Hy|Hy].
    + rewrite P2 in Hr by assumption. discriminate.
    + rewrite P3 in Hr by assumption. apply H2 in Hr. contradiction.
  - intros (_ & _ & Hd). congruence.
Qed.

Lemma domain_same fb x rest s stk : chain ((x :: rest, s) :: stk) -> Exact fb s ->
  fb_domain w i x s fb = filter_domain w i x s.
Proof.
  intros Hc (Hw & H). destruct (chain_names _ _ _ Hc) as [_ En].
  assert (Hx : In x names) by (rewrite En; apply in_or_app; right; now left).
  unfold fb_domain, filter_domain. destruct (proj1 (dget_Some fb x) (proj1 Hw x Hx)) as (d & Hd). rewrite Hd.
  destruct (dget (i_doms i) x) as [dom|]; [|reflexivity]. apply filterM_ext. intros v _. unfold accept.
  set (p := fun y => match dget (dset s x v) y with Some u => u =? v | None => false end).
  assert (Hiff : zmem v (map snd d) = true <-> existsb p (dget_or (i_ad i) x []) = true).
  { rewrite zmem_In, in_map_iff, existsb_exists. pose proof (proj2 Hw x d Hd) as Hnd'. split.
    - intros ([z u] & E & Hin). simpl in E. subst u. apply (dget_NoDup d z v Hnd') in Hin.
      assert (Hr : row fb x z = Some v) by (unfold row; now rewrite Hd).
      apply H in Hr. destruct Hr as (Ha & _ & Hz). exists z. split; [now apply ad_sym|].
      unfold p. rewrite dget_dset_ne; [rewrite Hz; apply Z.eqb_refl|]. intros ->. eapply ad_irr; eauto.
    - intros (z & Hz & Hp). unfold p in Hp.
      assert (Hne : z <> x) by (intros ->; eapply ad_irr; eauto).
      rewrite dget_dset_ne in Hp by assumption. destruct (dget s z) as [u|] eqn:Ez; [|discriminate].
      apply Z.eqb_eq in Hp. subst u.
      assert (Hr : row fb x z = Some v).
      { apply H. split; [now apply ad_sym|]. split; [|assumption]. eapply after_bound; [exact En|]. apply dget_Some. eauto. }
      exists (z, v). split; [reflexivity|]. unfold row in Hr. rewrite Hd in Hr. now apply dget_In. }
  destruct (zmem v (map snd d)); destruct (existsb p _) eqn:Ep; try reflexivity; exfalso;
    destruct Hiff as [Ha Hb]; [specialize (Ha eq_refl)|specialize (Hb eq_refl)]; discriminate.
Qed.

Definition top_ok (fb : forb) (stk : list (list name * subst)) : Prop :=
  match stk with (x :: _, s) :: _ => Stale fb x s | _ => True end.

Lemma down_ok fb p stk : chain (p :: stk) -> Exact fb (snd p) -> top_ok fb stk.
Proof.
  intros Hc (Hw & H). inversion Hc as [| |x rest s stk0 v Hc' Hr]; subst; [exact I|]. simpl in H |- *.
  split; [assumption|]. split.
  - intros y z u Hz. rewrite H. rewrite dget_dset_ne by assumption. reflexivity.
  - intros y u Hu. apply H in Hu. apply Hu.
Qed.

Lemma take_same fb x rest s stk d doms : chain ((x :: rest, s) :: stk) -> Exact fb s -> d <> [] ->
  match take_value x rest s d ((x :: rest, s) :: stk) doms with
  | CErr ex => fb_take i x rest s d ((x :: rest, s) :: stk) doms fb = FErr ex
  | CYield s' _ => fb_take i x rest s d ((x :: rest, s) :: stk) doms fb = FSol s'
  | CNext c' => exists fb', fb_take i x rest s d ((x :: rest, s) :: stk) doms fb = FNext c' fb' /\
      chain (g_stack c') /\ top_ok fb' (g_stack c')
  end.
Proof.
  intros Hc (Hw & H) Hd. destruct d as [|v d]; [contradiction|]. destruct (chain_names _ _ _ Hc) as [_ En].
  unfold take_value, fb_take. destruct rest as [|y0 rest']; [reflexivity|]. set (rest := y0 :: rest') in *.
  destruct (fb_push_spec names x v (filter (fun y => memb y rest) (ad x)) fb Hw) as (fb' & E & Hw' & P1 & P2 & P3).
  { intros c Hc'. apply filter_In in Hc'. eapply ad_in, Hc'. }
  cbv beta in E. rewrite E. exists fb'. split; [reflexivity|]. cbn [g_stack].
  split; [now constructor|]. unfold rest at 1. cbn [top_ok].
  assert (Hx : ~ In x (dkeys s)) by (rewrite En in Hnd; apply NoDup_remove_2 in Hnd; intros Hin; apply Hnd; apply in_or_app; now left).
  assert (Hin : forall y, In y (filter (fun y => memb y rest) (ad x)) <-> In y (ad x) /\ In y rest).
  { intros y. rewrite filter_In. unfold memb. rewrite existsb_exists. split.
    - intros [H1 (z & Hz & Ez)]. apply String.eqb_eq in Ez. subst z. auto.
    - intros [H1 H2]. split; [assumption|]. exists y. split; [assumption|apply eqb_refl_s]. }
  assert (Hxn : row fb = row fb) by reflexivity.
  assert (Hnone : forall y, row fb y x = None).
  { intros y. destruct (row fb y x) as [u|] eqn:Eu; [|reflexivity]. apply H in Eu. destruct Eu as (_ & _ & Eu).
    exfalso. apply Hx. apply dget_Some. eauto. }
  split; [assumption|]. split.
  - intros y z u _. destruct (string_dec z x) as [->|Hz].
    + rewrite dget_dset_eq, (after_rest x y rest s En).
      destruct (in_dec string_dec y (filter (fun y => memb y rest) (ad x))) as [Hy|Hy].
      * rewrite P2 by assumption. apply Hin in Hy. tauto.
      * rewrite P3 by assumption. rewrite Hnone. split; [discriminate|]. intros (A & B & _). exfalso. apply Hy. apply Hin. auto.
    + rewrite P1 by assumption. rewrite dget_dset_ne by assumption. apply H.
  - intros y u Hu. assert (Hy0 : y0 <> x).
    { intros ->. rewrite En in Hnd. apply NoDup_remove_2 in Hnd. apply Hnd. apply in_or_app. right. now left. }
    rewrite P1 in Hu by assumption. apply H in Hu. apply Hu.
Qed.

Lemma step_same c fb : g_stack c <> [] -> chain (g_stack c) -> top_ok fb (g_stack c) ->
  match core_step w i c with
  | CErr ex => fb_step w i c fb = FErr ex
  | CYield s' _ => fb_step w i c fb = FSol s'
  | CNext c' => exists fb', fb_step w i c fb = FNext c' fb' /\ chain (g_stack c') /\ top_ok fb' (g_stack c')
  end.
Proof.
  destruct c as [stk doms]. cbn [g_stack g_doms]. intros Hne Hc Ht. unfold core_step, fb_step. cbn [g_stack g_doms].
  destruct stk as [|[[|x rest] s] stk]; [contradiction|destruct (chain_names _ _ _ Hc) as [Hn _]; contradiction|].
  cbn [top_ok] in Ht. destruct (pop_exact _ _ _ _ _ Hc Ht) as (fb1 & E1 & Hex). cbv beta in E1. rewrite E1.
  pose proof (down_ok fb1 _ _ Hc Hex) as Hdown. pose proof (chain_tail _ _ Hc) as Htail.
  destruct (dget doms x) as [[|v d]|].
  - exists fb1. auto.
  - apply take_same; [assumption|assumption|discriminate].
  - rewrite (domain_same fb1 _ _ _ _ Hc Hex). destruct (filter_domain w i x s) as [[|v d]|ex].
    + exists fb1. auto.
    + apply take_same; [assumption|assumption|discriminate].
    + reflexivity.
Qed.

Definition stop_at_first (k : nat) (w : world) (s : subst) : res world := Err NameError.

Lemma loop_same clk f : forall e t c fb, e_world e = w -> chain (g_stack c) -> top_ok fb (g_stack c) ->
  fb_loop clk f e t LNone i c fb =
  match urun i stop_at_first f 0 w c with
  | Some (ys, _, r) => Some (ys, match ys with [] => e | _ => tick e end, r)
  | None => None
  end.
Proof.
  induction f as [|f IH]; intros e t c fb He Hc Ht; [reflexivity|]. rewrite urun_S. cbn [fb_loop].
  destruct (g_stack c) as [|p stk] eqn:Es; [reflexivity|]. rewrite He.
  pose proof (step_same c fb) as Hst. rewrite Es in Hst. specialize (Hst ltac:(discriminate) Hc Ht).
  destruct (core_step w i c) as [c'|s c'|ex].
  - destruct Hst as (fb' & -> & Hc' & Ht'). now apply IH.
  - rewrite Hst. reflexivity.
  - rewrite Hst. reflexivity.
Qed.
End Sim.

(** The first solution of an enumeration. *)
Lemma urun_first i f : forall k k' w c zs w' r, urun i passive f k w c = Some (zs, w', r) ->
  urun i stop_at_first f k' w c =
  match zs with [] => Some ([], w, r) | s :: _ => Some ([s], w, Some NameError) end.
Proof.
  induction f as [|f IH]; intros k k' w c zs w' r H; [discriminate|]. rewrite urun_S in *.
  destruct (g_stack c) as [|p stk]; [inversion H; reflexivity|].
  destruct (core_step w i c) as [c'|s c'|ex].
  - eapply IH; eauto.
  - unfold passive at 1 in H. destruct (urun i passive f (S k) w c') as [[[ys w1] r1]|]; [|discriminate].
    simpl in H. inversion H; subst. reflexivity.
  - inversion H; subst. reflexivity.
Qed.

Lemma stale_init names i x rest : names = x :: rest -> top_ok i names (map (fun x => (x, [])) names) [(names, [])].
Proof.
  intros ->. simpl top_ok.
  assert (Hr : forall l y z, row (map (fun x => (x, [])) l) y z = None).
  { induction l as [|a l IH]; intros y z; [reflexivity|]. unfold row in *. simpl. destruct (String.eqb y a); [reflexivity|apply IH]. }
  split; [|split].
  - split.
    + intros y Hy. unfold dkeys. change (In y (map fst (map (fun x0 : name => (x0, @nil (name * Z))) (x :: rest)))). rewrite map_map. cbn [fst]. rewrite map_id. exact Hy.
    + intros y d Hd. apply dget_In in Hd. change ((x, []) :: map (fun x0 => (x0, [])) rest) with (map (fun x0 : name => (x0, @nil (name * Z))) (x :: rest)) in Hd.
      apply in_map_iff in Hd. destruct Hd as (z & E & _). inversion E. constructor.
  - intros y z v Hz. change ((x, []) :: map (fun x0 => (x0, [])) rest) with (map (fun x0 : name => (x0, @nil (name * Z))) (x :: rest)).
    rewrite Hr. split; [discriminate|]. simpl. intros (_ & _ & H). discriminate.
  - intros y v. change ((x, []) :: map (fun x0 => (x0, [])) rest) with (map (fun x0 : name => (x0, @nil (name * Z))) (x :: rest)).
    rewrite Hr. discriminate.
Qed.

Lemma fb_loop_mono clk i f : forall e t tmo c fb r k, fb_loop clk f e t tmo i c fb = Some r ->
  fb_loop clk (f + k) e t tmo i c fb = Some r.
Proof.
  induction f as [|f IH]; intros e t tmo c fb r k H; [discriminate|]. cbn [fb_loop Nat.add] in *.
  destruct (g_stack c); [assumption|]. destruct tmo as [|n|].
  - destruct (fb_step (e_world e) i c fb); auto.
  - destruct (n <? timer_elapsed (clk (e_clk e)) t); [assumption|]. destruct (fb_step (e_world (tick e)) i c fb); auto.
  - assumption.
Qed.

(** With a timeout: interrupted, or as without. *)
Lemma fb_loop_timeout clk f i : forall e e0 t tmo c fb ys e' r, e_world e0 = e_world e ->
  fb_loop clk f e t tmo i c fb = Some (ys, e', r) ->
  e_world e' = e_world e /\
  ((ys = [] /\ r = None /\ e_interrupt e' = Some ITimeout /\ exists n, tmo = LNum n) \/
   (ys = [] /\ r = Some TypeError /\ tmo = LInfinity /\ e_interrupt e' = e_interrupt e) \/
   (e_interrupt e' = e_interrupt e /\ exists e1, fb_loop clk f e0 t LNone i c fb = Some (ys, e1, r))).
Proof.
  induction f as [|f IH]; intros e e0 t tmo c fb ys e' r Hw H; [discriminate|]. cbn [fb_loop] in *.
  destruct (g_stack c) as [|p stk]; [inversion H; subst; eauto 8|]. destruct tmo as [|n|].
  - rewrite Hw. destruct (fb_step (e_world e) i c fb); [apply (IH e e0 _ LNone _ _ _ _ _ Hw H)|inversion H; subst; eauto 8|inversion H; subst; eauto 8].
  - destruct (n <? timer_elapsed (clk (e_clk e)) t); [inversion H; subst; split; [reflexivity|left; eauto]|].
    rewrite Hw. change (e_world (tick e)) with (e_world e) in H. destruct (fb_step (e_world e) i c fb).
    + apply (IH (tick e) e0 _ _ _ _ _ _ _ Hw H).
    + inversion H; subst; eauto 8.
    + inversion H; subst; eauto 8.
  - inversion H; subst. eauto 8.
Qed.

Lemma fb_loop_stats clk f i : forall e t c fb ys e' r, fb_loop clk f e t LNone i c fb = Some (ys, e', r) ->
  get_stats e' = get_stats e.
Proof.
  induction f as [|f IH]; intros e t c fb ys e' r H; [discriminate|]. cbn [fb_loop] in H.
  destruct (g_stack c); [inversion H; reflexivity|].
  destruct (fb_step (e_world e) i c fb); [eapply IH; eauto|inversion H; reflexivity|inversion H; reflexivity].
Qed.

Section Run.
Variables (clk : nat -> Z) (shuffle : list name -> list name).
Variables (e : env) (sv : solver) (a : args).
Let m := w_model (e_world e).
Let cs := all_cons m a.
Hypothesis Hv : valid shuffle e a.

Definition fb_args (sv : solver) (a : args) : args :=
  Args (x_timeout a) (x_limit a) (Some (fb_policy (policy_of sv a))) (x_additional a).

Section Loop.
Variables (w : world) (u : setup).
Hypothesis Es : do_setup (s_compile sv) (e_world e) (x_additional a) = (w, Ok u).
Let order := order_of shuffle sv (fb_args sv a) m u.
Let i := GInfo (u_doms u) (u_cons u) (u_ad u).

Lemma fb_search : order <> [] -> exists ys0 r0,
  search i passive order 0 w [] = (ys0, w, r0) /\
  exists n, forall f e1 t, e_world e1 = w -> exists e2, 
    fb_loop clk (n + f) e1 t LNone i (Cfg [(order, [])] []) (map (fun x => (x, [])) order) =
    Some (firstn 1 ys0, e2, match ys0 with [] => match r0 with Ok _ => None | Err ex => Some ex end | _ => Some NameError end).
Proof.
  intros Hne. destruct Hv as (Hs & Hn & _ & Ho).
  destruct (order_facts shuffle _ _ _ _ _ sv (fb_args sv a) Hs Hn Ho Es) as (Hp & Hnd & Hin).
  destruct (do_setup_spec _ _ _ _ _ Ho Es) as (_ & Hu & Hg).
  change (order_of shuffle sv (fb_args sv a) (w_model (e_world e)) u) with order in Hp, Hnd, Hin.
  destruct (search i passive order 0 w []) as [[ys0 w0] r0] eqn:Esearch.
  assert (w0 = w) by (eapply search_passive_world; [| |exact Esearch]; [exact Hnd|exact Hin]). subst w0.
  exists ys0, r0. split; [reflexivity|].
  destruct (urun_search i passive order 0 w Hne Hnd) as (n & Hn'). exists n. intros f e1 t He1.
  specialize (Hn' f). rewrite Esearch in Hn'.
  assert (Hn2 : urun i passive (n + f) 0 w (Cfg [(order, [])] []) =
                Some (ys0, w, match r0 with Ok _ => None | Err ex => Some ex end)).
  { rewrite Hn'. destruct r0; reflexivity. }
  assert (H1 : exists x rest, order = x :: rest) by (destruct order as [|x rest]; [contradiction|eauto]).
  destruct H1 as (x & rest & Eo).
  erewrite (loop_same w i order Hnd).
  - rewrite (urun_first _ _ 0 0 _ _ _ _ _ Hn2). destruct ys0 as [|s ys0]; destruct r0; simpl; eexists; reflexivity.
  - intros x1 y1 H. simpl in *. apply (ui_ad _ _ _ _ Hu) in H. apply (ui_ad _ _ _ _ Hu). destruct H as (c & H1 & H2 & H3 & H4 & H5).
    exists c. auto.
  - intros x1 H. simpl in H. apply (ui_ad _ _ _ _ Hu) in H. destruct H as (c & _ & _ & _ & _ & H). contradiction.
  - intros x1 y1 H. simpl in H. apply (ui_ad _ _ _ _ Hu) in H. destruct H as (c & H1 & H2 & H3 & H4 & H5).
    eapply Permutation_in; [symmetry; exact Hp|]. now apply (Hg c H1 H2).
  - exact He1.
  - cbn [g_stack]. now constructor.
  - cbn [g_stack]. now apply (stale_init order i x rest).
Qed.
End Loop.

(** The cases of a run without a timeout. *)
Inductive fb_run (ys : list subst) (e' : env) (r : option exn) : Prop :=
| FbSetup w ex : do_setup (s_compile sv) (e_world e) (x_additional a) = (w, Err ex) ->
    ys = [] -> e_world e' = w -> r = Some ex -> e_interrupt e' = e_interrupt e -> fb_run ys e' r
| FbEmpty w u : do_setup (s_compile sv) (e_world e) (x_additional a) = (w, Ok u) ->
    order_of shuffle sv (fb_args sv a) m u = [] -> ys = [] -> fb_run ys e' r
| FbTimeout w u n : do_setup (s_compile sv) (e_world e) (x_additional a) = (w, Ok u) ->
    ys = [] -> timeout_of sv a = LNum n -> r = None -> e_interrupt e' = Some ITimeout -> e_world e' = w -> fb_run ys e' r
| FbInfinity w u : do_setup (s_compile sv) (e_world e) (x_additional a) = (w, Ok u) ->
    ys = [] -> timeout_of sv a = LInfinity -> r = Some TypeError -> e_world e' = w -> fb_run ys e' r
| FbLoop w u ys0 r0 : do_setup (s_compile sv) (e_world e) (x_additional a) = (w, Ok u) ->
    order_of shuffle sv (fb_args sv a) m u <> [] ->
    search (GInfo (u_doms u) (u_cons u) (u_ad u)) passive (order_of shuffle sv (fb_args sv a) m u) 0 w [] = (ys0, w, r0) ->
    ys = firstn 1 ys0 -> e_world e' = w -> e_interrupt e' = e_interrupt e ->
    r = match ys0 with [] => match r0 with Ok _ => None | Err ex => Some ex end | _ => Some NameError end -> fb_run ys e' r.

Lemma fb_run_spec f ys e' r : forbidden_all clk shuffle f e sv a = Some (ys, e', r) -> fb_run ys e' r.
Proof.
  unfold forbidden_all. destruct (do_setup (s_compile sv) (e_world e) (x_additional a)) as [w [u|ex]] eqn:Es.
  2:{ intros H. inversion H; subst. eapply FbSetup; eauto. }
  change (select_order shuffle (fb_policy (arg_or (x_policy a) (s_policy sv))) (w_model (e_world e)) u)
    with (order_of shuffle sv (fb_args sv a) m u). cbv zeta.
  intros H. pose proof (fb_loop_timeout clk f (GInfo (u_doms u) (u_cons u) (u_ad u)) _ (tick (set_world e w)) _ _ _ _ _ _ _ eq_refl H) as [Hw Hc].
  cbn [e_world tick set_world] in Hw.
  destruct (list_eq_dec string_dec (order_of shuffle sv (fb_args sv a) m u) []) as [Eo|Hne].
  - eapply FbEmpty; eauto. destruct Hc as [(E & _)|[(E & _)|(_ & e1 & H1)]]; try assumption.
    rewrite Eo in H1. destruct f as [|f]; [discriminate|]. cbn in H1. inversion H1. reflexivity.
  - destruct Hc as [(E1 & E2 & E3 & n & E4)|[(E1 & E2 & E3 & _)|(Hi & e1 & H1)]].
    + eapply FbTimeout; eauto.
    + eapply FbInfinity; eauto.
    + destruct (fb_search w u Es Hne) as (ys0 & r0 & E0 & n & Hn).
      destruct (Hn f (tick (set_world e w)) (Timer 0 (Some (clk (e_clk (set_world e w)))) 0) eq_refl) as (e2 & Hn2).
      apply fb_loop_mono with (k := n) in H1. rewrite Nat.add_comm in H1. rewrite H1 in Hn2. inversion Hn2; subst.
      eapply FbLoop; eauto.
Qed.

Lemma fb_terminates : exists f r, forbidden_all clk shuffle f e sv a = Some r.
Proof.
  unfold forbidden_all. destruct (do_setup (s_compile sv) (e_world e) (x_additional a)) as [w [u|ex]] eqn:Es.
  2:{ exists 0%nat. eauto. }
  change (select_order shuffle (fb_policy (arg_or (x_policy a) (s_policy sv))) (w_model (e_world e)) u)
    with (order_of shuffle sv (fb_args sv a) m u). cbv zeta.
  assert (Hgen : forall f i t tmo e1 e2 c fb r, e_world e1 = e_world e2 -> fb_loop clk f e1 t LNone i c fb = Some r ->
            exists r', fb_loop clk f e2 t tmo i c fb = Some r').
  { clear. induction f as [|f IH]; intros i t tmo e1 e2 c fb r Hw H; [discriminate|]. cbn [fb_loop] in *.
    destruct (g_stack c); [eauto|]. rewrite Hw in H. destruct tmo as [|n|].
    - destruct (fb_step (e_world e2) i c fb); [eapply IH; eauto|eauto|eauto].
    - destruct (n <? _); [eauto|]. cbn [e_world tick]. destruct (fb_step (e_world e2) i c fb); [|eauto|eauto].
      eapply (IH i t (LNum n) e1 (tick e2)); eauto.
    - eauto. }
  destruct (list_eq_dec string_dec (order_of shuffle sv (fb_args sv a) m u) []) as [Eo|Hne].
  - exists 1%nat. rewrite Eo. set (t := Timer _ _ _). 
    eapply (Hgen 1%nat _ t _ (tick (set_world e w))); [reflexivity|]. cbn. reflexivity.
  - destruct (fb_search w u Es Hne) as (ys0 & r0 & E0 & n & Hn).
    destruct (Hn 0%nat (tick (set_world e w)) (Timer 0 (Some (clk (e_clk (set_world e w)))) 0) eq_refl) as (e2 & Hn2).
    exists (n + 0)%nat. eapply Hgen; [|exact Hn2]. reflexivity.
Qed.

(** Without a variable: [names[0]] of the empty list. *)
Lemma has_variable_order w u : do_setup (s_compile sv) (e_world e) (x_additional a) = (w, Ok u) ->
  has_variable m -> order_of shuffle sv (fb_args sv a) m u <> [].
Proof.
  intros Es (x & d & Hd) Eo. destruct Hv as (Hs & Hn & _ & Ho).
  destruct (order_facts shuffle _ _ _ _ _ sv (fb_args sv a) Hs Hn Ho Es) as (Hp & _).
  change (order_of shuffle sv (fb_args sv a) (w_model (e_world e)) u) with (order_of shuffle sv (fb_args sv a) m u) in Hp.
  rewrite Eo in Hp. apply Permutation_nil in Hp.
  apply pure_dget in Hd; [|assumption]. apply (fun H => proj2 (dget_Some _ _) (ex_intro _ _ H)) in Hd.
  change m with (w_model (e_world e)) in Hd. rewrite Hp in Hd. exact Hd.
Qed.

Lemma fb_sound f ys e' r : forbidden_all clk shuffle f e sv a = Some (ys, e', r) ->
  forall s, In s ys -> solves (evaluates_true (e_world e')) m cs s.
Proof.
  intros H s Hin. destruct (fb_run_spec _ _ _ _ H) as [w ex _ -> _ _ _|w u _ _ ->|w u n _ -> _ _ _ _|w u _ -> _ _ _|w u ys0 r0 Es Hne Hse -> Hw _ _];
    try contradiction. rewrite Hw. destruct Hv as (Hs & Hn & _ & Ho).
  destruct (loop_search shuffle e sv (fb_args sv a) w u Hs Hn Ho Es ys0 r0 Hse) as [(l & Hp) _].
  assert (Hy : In s ys0) by (destruct ys0; [contradiction|]; destruct Hin as [->|[]]; now left).
  apply (loop_enum shuffle e sv (fb_args sv a) w u Hs Hn Ho Es s). rewrite Hp. apply in_or_app. now left.
Qed.

Lemma fb_complete f ys e' : forbidden_all clk shuffle f e sv a = Some (ys, e', None) -> has_variable m ->
  e_interrupt e' <> Some ITimeout -> ys = [] /\ forall t, ~ solves (evaluates_true (e_world e')) m cs t.
Proof.
  intros H Hhv Hi. destruct (fb_run_spec _ _ _ _ H) as [w ex _ _ _ E _|w u Es Eo _|w u n _ _ _ _ E _|w u _ _ _ E _|w u ys0 r0 Es Hne Hse -> Hw _ Er].
  - discriminate.
  - exfalso. eapply has_variable_order; eauto.
  - contradiction.
  - discriminate.
  - destruct ys0 as [|s ys0]; [|discriminate]. split; [reflexivity|]. destruct r0 as [k|ex]; [|discriminate].
    destruct Hv as (Hs & Hn & _ & Ho).
    destruct (loop_search shuffle e sv (fb_args sv a) w u Hs Hn Ho Es [] (Ok k) Hse) as [_ He].
    intros t Ht. rewrite Hw in Ht.
    destruct (loop_complete shuffle e sv (fb_args sv a) w u Hs Hn Ho Es t Ht) as (s & Hin & _). rewrite <- He in Hin. exact Hin.
Qed.

Lemma fb_stats f ys e' r : forbidden_all clk shuffle f e sv a = Some (ys, e', r) -> timeout_of sv a = LNone ->
  get_stats e' = get_stats e.
Proof.
  unfold forbidden_all. intros H Ht. fold (timeout_of sv a) in H. rewrite Ht in H.
  destruct (do_setup (s_compile sv) (e_world e) (x_additional a)) as [w [u|ex]]; [|inversion H; reflexivity].
  cbv zeta in H. apply fb_loop_stats in H. rewrite H. reflexivity.
Qed.

(** Against [solve]. *)
Lemma fb_solve f clk2 f2 a2 ys e' r zs e2 r2 :
  forbidden_all clk shuffle f e sv a = Some (ys, e', r) -> timeout_of sv a = LNone ->
  has_variable m -> m_solvable m = true ->
  x_additional a2 = x_additional a -> unlimited sv a2 ->
  policy_of sv a2 = fb_policy (policy_of sv a) ->
  solve_all clk2 shuffle f2 e sv a2 = Some (zs, e2, r2) ->
  ys = firstn 1 zs /\ r = match zs with [] => r2 | _ => Some NameError end.
Proof.
  intros H Ht Hhv Hsol Ha [Hto Hli] Hpol Hz. destruct Hv as (Hs & Hn & Hd & Ho).
  assert (Ho2 : objects (e_world e) (all_cons (w_model (e_world e)) a2)) by (unfold all_cons in *; now rewrite Ha).
  assert (Eor : forall u, order_of shuffle sv a2 m u = order_of shuffle sv (fb_args sv a) m u).
  { intros u. unfold order_of. cbn [x_policy fb_args arg_or]. unfold policy_of in *. now rewrite Hpol. }
  pose proof (run_spec clk2 shuffle _ _ _ _ _ _ _ Hs Hn Ho2 Hz) as Hrun.
  destruct (fb_run_spec _ _ _ _ H) as [w ex Es -> _ -> _|w u Es Eo _|w u n _ _ E _ _ _|w u _ _ E _ _|w u ys0 r0 Es Hne Hse -> Hw _ ->].
  - destruct Hrun as [Hu|w' ex' Hu Es'|w' u' Hu Es'|w' u' fq ys0 r0 Hu Es']; try (exfalso; clear - Hu Hsol; unfold m in *; congruence); rewrite ?Ha in Es'; try (exfalso; clear - Es Es'; congruence).
    assert (ex' = ex) by congruence. subst. auto.
  - exfalso. eapply has_variable_order; eauto.
  - congruence.
  - congruence.
  - destruct Hrun as [Hu|w' ex' Hu Es'|w' u' Hu Es' Eo'|w' u' fq ys1 r1 Hu Es' Hne' Hse' _ Hp Hf]; try (exfalso; clear - Hu Hsol; unfold m in *; congruence); rewrite ?Ha in Es'; try (exfalso; clear - Es Es'; congruence).
    + assert (u' = u) by congruence. subst u'. exfalso. apply Hne. rewrite <- Eor. assumption.
    + assert (u' = u) by congruence. assert (Eww : w' = w) by congruence. rewrite Eww in *. subst u'. change (w_model (e_world e)) with m in Hse'. rewrite Eor in Hse'.
      rewrite Hse in Hse'. inversion Hse'; subst ys1 r1.
      destruct Hf as [Ey Er _ Ei _ _ _|n E|t E|E|E]; try (simpl in E; unfold timeout_of, limit_of in *; congruence).
      subst. split; [reflexivity|]. destruct ys0; reflexivity.
Qed.
End Run.
