(** Objectives over a single variable: [optimize] visits what [solve] visits. *)
From Coq Require Import Permutation.
From Verif Require Import Optimize SpecFormula SpecSafe SpecSolve SpecOptimize ExprFacts DictFacts ModelFacts
  CompileFacts CodeFacts SearchFacts LoopFacts EnumFacts SetupFacts SolveFacts MasterFacts SolverProps SolverMore
  TraceFacts OptimizeFacts OptimizeRun OptimizeProps OptimizeMore InterleaveFacts IsolationFacts.
Open Scope list_scope.
Open Scope Z_scope.

(** ** The compiled text depends on the parameters of the expression only *)

Lemma py_expr_params ps ps' e : (forall p, In p (params e) -> ps p = ps' p) -> py_expr ps e = py_expr ps' e.
Proof.
  induction e as [z|y|p y|e IH|e IH|e IH|o l r IHl IHr|es c IH|es c IH] using expr_ind'; intros H; try reflexivity.
  - simpl. rewrite H; [reflexivity|now left].
  - simpl. now rewrite IH.
  - assert (Hl : py_expr ps l = py_expr ps' l) by (apply IHl; intros p Hp; apply H; cbn; apply in_or_app; now left).
    assert (Hr : py_expr ps r = py_expr ps' r) by (apply IHr; intros p Hp; apply H; cbn; apply in_or_app; now right).
    destruct o; cbn [py_expr]; rewrite Hl, Hr; reflexivity.
  - cbn [py_expr]. f_equal. apply map_ext_in. intros e He. rewrite Forall_forall in IH. apply IH; [exact He|].
    intros p Hp. apply H. cbn [params]. apply in_flat_map. eauto.
  - cbn [py_expr]. f_equal. apply map_ext_in. intros e He. rewrite Forall_forall in IH. apply IH; [exact He|].
    intros p Hp. apply H. cbn [params]. apply in_flat_map. eauto.
Qed.

Lemma as_function_params ps ps' e : (forall p, In p (params e) -> ps p = ps' p) -> as_function ps e = as_function ps' e.
Proof. intros H. unfold as_function, compile, py_source. now rewrite (py_expr_params ps ps' e H). Qed.

(** ** Worlds that agree on the objects below given numbers *)

Section Agree.
Variables (n0 c0 : nat).

Definition agree (w w' : world) : Prop :=
  (forall p, (p < n0)%nat -> w_par w' p = w_par w p) /\ (forall id, (id < c0)%nat -> w_code w' id = w_code w id).
Definition low (c : constraint) : Prop :=
  (c_id c < c0)%nat /\ forall e p, c_body c = CExpr e -> In p (params e) -> (p < n0)%nat.

Lemma agree_compile1 cmp w w' c : agree w w' -> low c -> agree (compile1 cmp w c) (compile1 cmp w' c).
Proof.
  intros [Hp Hc] [Hid Hl]. unfold compile1. destruct cmp; [|split; assumption]. unfold ccompile.
  destruct (c_body c) as [b|e|xs] eqn:Eb; [split; assumption| |split; assumption]. split; cbn; [exact Hp|].
  intros id H. unfold upd. destruct (Nat.eqb id (c_id c)); [|now apply Hc]. f_equal. apply as_function_params.
  intros p Hin. apply Hp. now apply (Hl e).
Qed.

Lemma agree_ceval w w' c s : agree w w' -> low c -> ceval w' c s = ceval w c s.
Proof.
  intros [Hp Hc] [Hid Hl]. unfold ceval. destruct (c_body c) as [b|e|xs] eqn:Eb; try reflexivity. rewrite (Hc _ Hid).
  destruct (w_code w (c_id c)); [reflexivity|]. rewrite (evaluate_params (w_par w') (w_par w)); [reflexivity|].
  intros p Hin. apply Hp. now apply (Hl e).
Qed.

Lemma filterM_ext {A} (f g : A -> res bool) l : (forall v, f v = g v) -> filterM f l = filterM g l.
Proof. intros H. induction l as [|v l IH]; [reflexivity|]. cbn [filterM]. now rewrite H, IH. Qed.

Lemma agree_step cmp w w' u c : agree w w' -> low c ->
  snd (setup_step cmp w' u c) = snd (setup_step cmp w u c).
Proof.
  intros Ha Hl. pose proof (agree_compile1 cmp w w' c Ha Hl) as Ha1. unfold setup_step.
  change (if cmp then ccompile w c else w) with (compile1 cmp w c).
  change (if cmp then ccompile w' c else w') with (compile1 cmp w' c).
  assert (Hf : forall x d, filterM (fun v => ceval (compile1 cmp w' c) c [(x, v)]) d = filterM (fun v => ceval (compile1 cmp w c) c [(x, v)]) d).
  { intros x d. apply filterM_ext. intros v. now apply agree_ceval. }
  destruct (c_body c); [| |reflexivity]; (destruct (c_vars c) as [|x [|y l]]; try reflexivity;
    destruct (dget (u_doms u) x); try reflexivity; rewrite Hf; destruct (filterM _ _); reflexivity).
Qed.

Lemma agree_loop cmp cs : forall w w' u, agree w w' -> (forall c, In c cs -> low c) ->
  snd (setup_loop cmp w' u cs) = snd (setup_loop cmp w u cs).
Proof.
  induction cs as [|c cs IH]; intros w w' u Ha Hl; [reflexivity|]. cbn [setup_loop].
  pose proof (agree_step cmp w w' u c Ha (Hl c (or_introl eq_refl))) as E.
  pose proof (setup_step_world cmp w u c) as E1. pose proof (setup_step_world cmp w' u c) as E2.
  destruct (setup_step cmp w u c) as [v [u1|ex]], (setup_step cmp w' u c) as [v' [u1'|ex']]; cbn [fst snd] in *; try discriminate; try congruence.
  injection E as ->. subst v v'. apply IH; [apply agree_compile1; [exact Ha|apply Hl; now left]|]. intros c' Hc'. apply Hl. now right.
Qed.

Lemma agree_all cmp cs : forall w w', agree w w' -> (forall c, In c cs -> low c) -> agree (compile_all cmp w cs) (compile_all cmp w' cs).
Proof.
  induction cs as [|c cs IH]; intros w w' Ha Hl; [exact Ha|]. unfold compile_all in *. cbn [fold_left].
  apply IH; [apply agree_compile1; [exact Ha|apply Hl; now left]|]. intros c' Hc'. apply Hl. now right.
Qed.
End Agree.

Lemma setup_loop_app cmp cs cs' : forall w u, setup_loop cmp w u (cs ++ cs') =
  match setup_loop cmp w u cs with (w1, Ok u1) => setup_loop cmp w1 u1 cs' | r => r end.
Proof.
  induction cs as [|c cs IH]; intros w u; [reflexivity|]. cbn [app setup_loop]. destruct (setup_step cmp w u c) as [v [u1|ex]]; [apply IH|reflexivity].
Qed.

Lemma setup_loop_fst cmp cs : forall w u w' u', setup_loop cmp w u cs = (w', Ok u') -> w' = compile_all cmp w cs.
Proof.
  induction cs as [|c cs IH]; intros w u w' u' H; cbn [setup_loop] in H; [injection H as <- <-; reflexivity|].
  pose proof (setup_step_world cmp w u c) as E. destruct (setup_step cmp w u c) as [v [u1|ex]]; [|discriminate]. cbn in E. subst v.
  unfold compile_all. cbn [fold_left]. eapply IH. exact H.
Qed.

Lemma dset_id {A} (d : dict A) x a : dget d x = Some a -> dset d x a = d.
Proof.
  induction d as [|[y b] d IH]; cbn; [discriminate|]. destruct (String.eqb_spec x y) as [->|Hne].
  - intros E. now injection E as ->.
  - intros E. now rewrite (IH E).
Qed.

Lemma filterM_true {A} (f : A -> res bool) l : (forall v, In v l -> f v = Ok true) -> filterM f l = Ok l.
Proof.
  induction l as [|v l IH]; intros H; [reflexivity|]. cbn [filterM]. rewrite (H v (or_introl eq_refl)). cbn [bind].
  rewrite IH by (intros; apply H; now right). reflexivity.
Qed.

(** A constraint over at most one variable, that excludes none of its values, changes nothing. *)
Lemma setup_step_harmless cmp w u c e : c_body c = CExpr e ->
  dkeys (u_bounds u) = dkeys (u_doms u) ->
  (c_vars c = [] \/ exists x d, c_vars c = [x] /\ dget (u_doms u) x = Some d /\
     forall v, In v d -> ceval (compile1 cmp w c) c [(x, v)] = Ok true) ->
  setup_step cmp w u c = (compile1 cmp w c, Ok u).
Proof.
  intros Eb Hk H. unfold setup_step. change (if cmp then ccompile w c else w) with (compile1 cmp w c). rewrite Eb.
  destruct H as [E|(x & d & E & Hd & Hall)]; rewrite E; cbn [fold_left].
  - destruct u; reflexivity.
  - assert (Hx : In x (dkeys (u_doms u))) by (apply dget_Some; eauto).
    rewrite (proj2 (dmem_In _ _) Hx), Hd, (filterM_true _ d Hall), (dset_id (u_doms u) x d Hd).
    assert (Hb : dset (u_bounds u) x (dget_or (u_bounds u) x 0 + (Z.of_nat (length [x]) - 1)) = u_bounds u).
    { rewrite <- Hk in Hx. apply dget_Some in Hx. destruct Hx as (b & Hb). apply dset_id. unfold dget_or. rewrite Hb. f_equal. cbn. lia. }
    rewrite Hb. destruct u; reflexivity.
Qed.

(** ** The loop *)

Section Sim.
Variables (clk : nat -> Z) (shuffle : list name -> list name) (cons : nat -> world -> subst -> res world) (wP : world).
Variable I : world -> Prop.

Lemma sim_loop f : forall k e e1 g ys e' r, (forall sv a, g <> GInit sv a) ->
  (forall i, info_of g = Some i -> forall w, I w -> forall x c s, In c (dget_or (i_cons i) x []) -> ceval w c s = ceval wP c s) ->
  e_world e = wP -> same_but_world e e1 -> I (e_world e1) ->
  drain clk shuffle f passive k e g = Some (ys, e', r) ->
  (forall j s w, In s ys -> I w -> exists w', cons j w s = Ok w' /\ I w') ->
  exists e1', drain clk shuffle f cons k e1 g = Some (ys, e1', r) /\ same_but_world e' e1'.
Proof.
  induction f as [|f IH]; intros k e e1 g ys e' r Hg Hs Ew Hb Hs1 H Hc; [discriminate|].
  rewrite drain_S in H |- *.
  destruct (sbw_micro clk shuffle e e1 g Hb Hg) as (Eg & Ev & Hb').
  { intros l c n ->. apply core_step_agree. intros x c' s Hin. rewrite Ew. now apply (Hs (l_info l) eq_refl (e_world e1) Hs1 x). }
  pose proof (micro_world clk shuffle e g Hg) as Hw. pose proof (micro_world clk shuffle e1 g Hg) as Hw1.
  pose proof (fun sv a => micro_not_init clk shuffle e g sv a Hg) as Hg'. pose proof (info_micro clk shuffle e g Hg) as Hi.
  destruct (micro clk shuffle e g) as [[e2 g2] ev]. destruct (micro clk shuffle e1 g) as [[e3 g3] ev']. cbn [fst snd] in *. subst g3 ev'.
  assert (Hs2 : forall i, info_of g2 = Some i -> forall w, I w -> forall x c s, In c (dget_or (i_cons i) x []) -> ceval w c s = ceval wP c s).
  { intros i Ei w Hw2 x c s Hin. destruct Hi as [Hi|Hi]; rewrite Hi in Ei; [|discriminate]. now apply (Hs i Ei w Hw2 x). }
  destruct ev as [|s| |ex].
  - apply (IH k e2 e3 g2 ys e' r); auto; congruence.
  - unfold passive at 1 in H. rewrite set_world_same in H.
    destruct (drain clk shuffle f passive (S k) e2 g2) as [[[zs e4] r4]|] eqn:E; [|discriminate]. injection H as <- <- <-.
    destruct (Hc k s (e_world e3)) as (w' & Ew' & HI'); [now left|congruence|]. rewrite Ew'.
    destruct (IH (S k) e2 (set_world e3 w') g2 zs e4 r4) as (e1' & A & B); auto; try congruence.
    + unfold same_but_world in *. rewrite Hb'. reflexivity.
    + intros j t w Ht. apply Hc. now right.
    + rewrite A. eauto.
  - injection H as <- <- <-. eauto.
  - injection H as <- <- <-. eauto.
Qed.
End Sim.

(** ** Whole runs *)

Lemma add_solutions_ok n0 ps0 oms : forall w s, good n0 oms -> old n0 ps0 w ->
  (forall o mm, In (o, mm) oms -> exists v, evaluate ps0 s (o_expr o) = Ok v) -> exists w', add_solutions oms w s = Ok w'.
Proof.
  induction oms as [|[o mm] oms IH]; intros w s Hg Ho H; [exists w; reflexivity|]. cbn [add_solutions]. unfold add_solution.
  rewrite (old_value n0 ps0 o mm ((o, mm) :: oms) w s Hg (or_introl eq_refl) Ho).
  destruct (H o mm (or_introl eq_refl)) as (v & ->). cbn [bind]. destruct Hg as (G1 & G2 & G3 & G4 & G5).
  destruct (set_bound_spec w mm v o (G1 o mm (or_introl eq_refl))) as (S1 & _). apply IH.
  - cbn in G4, G5. apply NoDup_cons_iff in G4. apply NoDup_cons_iff in G5. destruct G5 as [_ G5]. apply NoDup_cons_iff in G5.
    split; [|split; [|split; [|split]]].
    + intros o' m' Hin. apply G1. now right.
    + intros o' m' p Hin. apply (G2 o' m' p). now right.
    + intros o' m' p Hin. apply (G3 o' m' p). now right.
    + apply G4.
    + apply G5.
  - intros p Hp. destruct S1 as (_ & _ & _ & S1 & _). rewrite S1; [now apply Ho|]. intros Hin.
    pose proof (G3 o mm p (or_introl eq_refl) Hin). lia.
  - intros o' m' Hin. apply (H o' m'). now right.
Qed.

Lemma pure_aux vs aux : (forall x i, In (x, i) aux -> exists p, i = VPar p) -> pure_variables (vs ++ aux) = pure_variables vs.
Proof.
  intros H. induction vs as [|[x [d|p]] vs IH]; cbn; [|now rewrite IH|exact IH].
  induction aux as [|[x i] aux IH]; [reflexivity|]. destruct (H x i (or_introl eq_refl)) as (p & ->). cbn. apply IH. intros y j Hin. apply (H y j). now right.
Qed.

Lemma dom_size_aux m aux cs b x : (forall x i, In (x, i) aux -> exists p, i = VPar p) ->
  dom_size (Model (m_vars m ++ aux) cs b) x = dom_size m x.
Proof.
  intros H. unfold dom_size. cbn [m_vars]. rewrite dget_app. destruct (dget (m_vars m) x); [reflexivity|].
  destruct (dget aux x) as [i|] eqn:E; [|reflexivity]. apply dget_In in E. destruct (H x i E) as (p & ->). reflexivity.
Qed.

Lemma sorted_by_ext k k' l : (forall x, k x = k' x) -> sorted_by k l = sorted_by k' l.
Proof.
  intros H. induction l as [|x l IH]; [reflexivity|]. cbn [sorted_by]. rewrite IH. generalize (sorted_by k' l). intros l0.
  induction l0 as [|y l0 IH0]; [reflexivity|]. cbn [insert_by]. now rewrite !H, IH0.
Qed.

Lemma select_order_ext shuffle p m m' u : (forall x, dom_size m x = dom_size m' x) -> select_order shuffle p m u = select_order shuffle p m' u.
Proof.
  intros H. unfold select_order, sorted_rev. destruct p; try reflexivity.
  - rewrite (sorted_by_ext _ (fun x => [group_prio u x; dget_or (u_bounds u) x 0; dom_size m' x])); [reflexivity|]. intros x. now rewrite H.
  - apply sorted_by_ext. intros x. now rewrite H.
  - rewrite (sorted_by_ext _ (fun x => [dom_size m' x])); [reflexivity|]. intros x. now rewrite H.
Qed.

Section Run.
Variables (clk : nat -> Z) (shuffle : list name -> list name) (f : nat) (e : env) (sv : solver) (os : list oarg) (a : args).
Hypothesis Hv : opt_valid shuffle e os a.
Hypothesis Hof : objective_faithful (s_compile sv) os.
Let w0 := e_world e.
Let m := w_model w0.
Let sub := all_cons m a.
Let cmp := s_compile sv.
Let ps0 := w_par w0.
Hypothesis Htot : objectives_total m ps0 os.
Hypothesis Hoo : ~ In OOther os.
Hypothesis Hone : forall o x y, In (OObj o) os -> occurs x (o_expr o) -> occurs y (o_expr o) -> x = y.

Let Hs : shuffles shuffle := proj1 (proj1 Hv).
Let Hn : well_named m := proj1 (proj2 (proj1 Hv)).
Let Ho : objects w0 sub := proj2 (proj2 (proj2 (proj1 Hv))).
Let Hnum : numbered m := proj1 (proj2 Hv).
Let Hk : known w0 sub := proj1 (proj2 (proj2 Hv)).

Section Made.
Variables (wA : world) (oms : list (objective * minmax)).
Hypothesis Emk : make_constraints os w0 = (wA, Ok oms).

Let oc := map (fun p : objective * minmax => mm_cons (snd p)) oms.

Lemma sub_low c : In c sub -> low (w_npar w0) (w_ncon w0) c.
Proof. intros Hc. destruct (Hk c Hc) as [H1 H2]. split; [exact H1|]. intros ex p Hb Hp. now apply (H2 ex Hb). Qed.

Lemma made_agree : agree (w_npar w0) (w_ncon w0) w0 wA.
Proof. destruct (made_facts shuffle e os a Hv wA oms Emk) as ((aux & (_ & _ & _ & _ & H1 & H2)) & _). split; assumption. Qed.

(** The constraints of the objectives change nothing in [_setup]. *)
Lemma oc_setup u : uinv (compile_all cmp wA sub) (pure_variables (m_vars m)) sub u -> forall pre post, oms = pre ++ post ->
  setup_loop cmp (compile_all cmp wA (sub ++ map (fun p => mm_cons (snd p)) pre)) u (map (fun p => mm_cons (snd p)) post) =
  (compile_all cmp wA (sub ++ oc), Ok u).
Proof.
  intros Hu pre post. revert pre. induction post as [|[o mm] post IH]; intros pre E.
  - cbn [map setup_loop]. unfold oc. rewrite E, app_nil_r. reflexivity.
  - cbn [map setup_loop snd]. set (wp := compile_all cmp wA (sub ++ map (fun p => mm_cons (snd p)) pre)).
    assert (Hom : In (o, mm) oms) by (rewrite E; apply in_or_app; right; now left).
    assert (Hos : In (OObj o) os) by (exact (oms_In shuffle e os a Hv wA oms Emk o mm Hom)).
    assert (Ew : compile1 cmp wp (mm_cons mm) = compile_all cmp wA (sub ++ map (fun p => mm_cons (snd p)) (pre ++ [(o, mm)]))).
    { rewrite map_app. cbn [map snd]. rewrite app_assoc. unfold wp. rewrite (compile_all_app cmp (sub ++ _) [mm_cons mm]). reflexivity. }
    assert (Hst : setup_step cmp wp u (mm_cons mm) = (compile1 cmp wp (mm_cons mm), Ok u)).
    { apply (setup_step_harmless cmp wp u (mm_cons mm) (mm_expr mm) (oc_expr shuffle e os a Hv wA oms Emk o mm Hom)).
      - rewrite (ui_keys _ _ _ _ Hu), (ui_bounds _ _ _ _ Hu). reflexivity.
      - pose proof (oc_vars shuffle e os a Hv wA oms Emk o mm) as Hvars.
        pose proof (c_vars_NoDup (mm_cons mm)) as Hnd.
        destruct (c_vars (mm_cons mm)) as [|x l] eqn:Ev; [now left|right].
        assert (Hx : occurs x (o_expr o)) by (apply (Hvars x Hom); now left).
        assert (El : l = []).
        { destruct l as [|y l]; [reflexivity|exfalso]. assert (Hy : occurs y (o_expr o)) by (apply (Hvars y Hom); right; now left).
          inversion Hnd as [|? ? Hni _]; subst. apply Hni. left. exact (Hone o y x Hos Hy Hx). }
        subst l. destruct (Htot o Hos) as [Ht1 Ht2]. destruct (Ht1 x Hx) as (d & Hd).
        destruct (ui_doms _ _ _ _ Hu x d) as (g & Hg & _); [now apply pure_dget|].
        exists x, (filter g d). split; [reflexivity|]. split; [exact Hg|]. intros v Hvin.
        assert (Hval : exists z, value_of ps0 o [(x, v)] z).
        { apply Ht2.
          - intros y z [Eyz|[]]. injection Eyz as <- <-. exists d. split; [exact Hd|]. now apply filter_In in Hvin.
          - intros y Hy. left. cbn. exact (Hone o x y Hos Hx Hy). }
        destruct Hval as (z & Hz).
        pose proof (Inv_objective shuffle e sv os a Hv wA oms Emk [] _ o mm [(x, v)] z (Inv_init shuffle e sv os a Hv wA oms Emk) Hom Hof Hz) as Hco.
        pose proof (Inv_init shuffle e sv os a Hv wA oms Emk) as (_ & _ & _ & Hst & _). specialize (Hst o mm Hom).
        rewrite Hst in Hco. cbn [Z.eqb negb orb] in Hco.
        rewrite <- Hco. rewrite (made_cons shuffle e os a Hv wA oms Emk). fold m. fold sub. fold cmp.
        rewrite E, map_app. cbn [map snd]. rewrite app_assoc.
        change (compile1 cmp wp (mm_cons mm)) with (compile1 cmp (compile_all cmp wA (sub ++ map (fun p => mm_cons (snd p)) pre)) (mm_cons mm)).
        rewrite <- (ceval_stable cmp wA (sub ++ map (fun p => mm_cons (snd p)) pre) (mm_cons mm)).
        + rewrite (compile_all_app cmp (sub ++ _) [mm_cons mm]). reflexivity.
        + intros c' Hc' Eid. apply (proj1 (made_objects shuffle e os a Hv wA oms Emk)); [| |exact Eid].
          * rewrite (made_cons shuffle e os a Hv wA oms Emk). apply in_or_app. right. rewrite E, map_app. apply in_or_app. right. right. exact Hc'.
          * rewrite (made_cons shuffle e os a Hv wA oms Emk). apply in_or_app. right. rewrite E, map_app. apply in_or_app. right. now left. }
    rewrite Hst, Ew. apply IH. rewrite E, <- app_assoc. reflexivity.
Qed.

(** [_setup] with and without the objectives. *)
Lemma both_setup :
  match do_setup cmp w0 (x_additional a) with
  | (_, Ok u) => do_setup cmp wA (x_additional (with_objectives a oms)) = (compile_all cmp wA (sub ++ oc), Ok u)
  | (_, Err ex) => exists w, do_setup cmp wA (x_additional (with_objectives a oms)) = (w, Err ex)
  end.
Proof.
  destruct (made_facts shuffle e os a Hv wA oms Emk) as ((aux & Hx) & _ & _). pose proof Hx as (Em & Haux & _).
  unfold do_setup.
  assert (Epure : pure_variables (m_vars (w_model wA)) = pure_variables (m_vars m)).
  { rewrite Em. cbn [m_vars]. apply pure_aux. intros x i Hin. destruct (Haux x i Hin) as (p & -> & _). eauto. }
  rewrite Epure. fold m. set (u0 := Setup _ _ _ _ _ _).
  assert (Ecs : m_cons (w_model wA) ++ x_additional (with_objectives a oms) = sub ++ oc) by (exact (made_cons shuffle e os a Hv wA oms Emk)).
  rewrite Ecs, (setup_loop_app cmp sub oc wA). change (m_cons m ++ x_additional a) with sub.
  pose proof (agree_loop (w_npar w0) (w_ncon w0) cmp sub w0 wA u0 made_agree sub_low) as El.
  destruct (setup_loop cmp w0 u0 sub) as [v [u|ex]] eqn:E1, (setup_loop cmp wA u0 sub) as [v' [u'|ex']] eqn:E2; cbn [snd] in El; try discriminate.
  2:{ injection El as ->. exists v'. reflexivity. }
  injection El as ->.
  pose proof (setup_loop_fst cmp sub wA u0 v' u E2) as ->.
  assert (Hu : uinv (compile_all cmp wA sub) (pure_variables (m_vars m)) sub u).
  { apply (setup_loop_spec (compile_all cmp wA sub) (pure_variables (m_vars m)) cmp sub [] wA u0 (compile_all cmp wA sub) u (uinv_init _ _) eq_refl); [|exact E2].
    intros c c' Hc Hc' Eid. now apply (proj1 Ho). }
  pose proof (oc_setup u Hu [] oms eq_refl) as Hoc. cbn [map] in Hoc. rewrite app_nil_r in Hoc. fold oc in Hoc. rewrite Hoc.
  destruct (check_groups (u_bounds u) (u_groups u)); [reflexivity|eauto].
Qed.

Lemma single_made ys e1 r : solve_all clk shuffle f e sv a = Some (ys, e1, r) ->
  exists e2, drain clk shuffle f (consumer_of oms) 0 (set_world e wA) (GInit sv (with_objectives a oms)) = Some (ys, e2, r) /\ get_stats e2 = get_stats e1.
Proof.
  intros H. assert (Hsound : forall s, In s ys -> assigns m s).
  { intros s Hin. now destruct (sound clk shuffle f e sv a ys e1 r (proj1 Hv) H s Hin). }
  unfold solve_all in H. destruct f as [|f']; [discriminate|]. rewrite drain_init in H |- *. cbv zeta in *.
  destruct (made_facts shuffle e os a Hv wA oms Emk) as ((aux & Hx) & _ & _ & M). pose proof Hx as (Em & Haux & _).
  cbn [e_world set_world]. fold w0 in H |- *. fold m in H |- *. replace (m_solvable (w_model wA)) with (m_solvable m) by (rewrite Em; reflexivity).
  destruct (m_solvable m); cbn [negb] in *.
  2:{ injection H as <- <- <-. eexists. split; reflexivity. }
  pose proof both_setup as Hb. fold cmp in H |- *.
  destruct (do_setup cmp w0 (x_additional a)) as [w [u|ex]] eqn:Es.
  2:{ injection H as <- <- <-. destruct Hb as (w' & ->). eexists. split; reflexivity. }
  rewrite Hb.
  assert (Eord : order_of shuffle sv (with_objectives a oms) (w_model wA) u = order_of shuffle sv a m u).
  { unfold order_of. cbn [with_objectives x_policy]. apply select_order_ext. intros x. rewrite Em.
    apply dom_size_aux. intros y i Hin. destruct (Haux y i Hin) as (p & -> & _). eauto. }
  rewrite Eord. destruct (order_of shuffle sv a m u) as [|x names] eqn:Eo.
  { injection H as <- <- <-. eexists. split; reflexivity. }
  destruct (do_setup_spec _ _ _ _ _ Ho Es) as (Ew & Hu & _). change (m_cons (w_model w0) ++ x_additional a) with sub in Ew, Hu.
  assert (Ecs : all_cons (w_model wA) (with_objectives a oms) = sub ++ oc) by (exact (made_cons shuffle e os a Hv wA oms Emk)).
  apply (sim_loop clk shuffle (consumer_of oms) w (fun w => exists zs, Inv e sv os a wA oms zs w)) with (e1 := start_env clk (set_world e wA) (compile_all cmp wA (sub ++ oc))) in H.
  - destruct H as (e2 & H1 & H2). exists e2. split; [exact H1|]. rewrite H2. reflexivity.
  - discriminate.
  - intros i Ei w' (zs & HI) y c s Hc. injection Ei as <-. cbn in Hc. apply (ui_cons _ _ _ _ Hu) in Hc. destruct Hc as (Hc & _).
    rewrite (Inv_stable shuffle e sv os a Hv wA oms Emk zs w' c s HI Hc). rewrite Ecs. fold cmp.
    rewrite Ew. rewrite compile_all_app.
    assert (Hag : agree (w_npar w0) (w_ncon w0) (compile_all cmp w0 sub) (compile_all cmp wA sub)) by (apply agree_all; [exact made_agree|exact sub_low]).
    rewrite <- (agree_ceval (w_npar w0) (w_ncon w0) (compile_all cmp w0 sub) (compile_all cmp wA sub) c s Hag (sub_low c Hc)).
    apply ceval_code; [apply compile_all_par|]. intros ex Hb'.
    destruct (compile_all_code cmp oc (compile_all cmp wA sub) c ex) as [E|(_ & c' & Hc' & Eid & _)]; [|exact Hb'|exact E|].
    + intros c' Hc' Eid. apply (proj1 (made_objects shuffle e os a Hv wA oms Emk)); [| |exact Eid]; rewrite Ecs; apply in_or_app; auto.
    + exfalso. apply (oc_In oms) in Hc'. destruct Hc' as (o & mm & Hom & ->). pose proof (md_ids _ _ _ M o mm Hom). destruct (Hk c Hc) as [Hid _]. unfold w0 in *. lia.
  - reflexivity.
  - reflexivity.
  - exists []. pose proof (Inv_init shuffle e sv os a Hv wA oms Emk) as HI. rewrite Ecs in HI. exact HI.
  - intros j s w' Hin (zs & HI).
    assert (Hok : exists w2, add_solutions oms w' s = Ok w2).
    { apply (add_solutions_ok (w_npar w0) ps0).
      - exact (made_good shuffle e os a Hv wA oms Emk).
      - now destruct HI as (_ & HI & _).
      - intros o mm Hom. pose proof (oms_In shuffle e os a Hv wA oms Emk o mm Hom) as Hos. destruct (Htot o Hos) as [Ht1 Ht2].
        destruct (Hsound s Hin) as (_ & Hkeys & Hvals). apply Ht2.
        + intros y v Hyv. assert (Hy : In y (map fst s)) by (apply in_map_iff; exists (y, v); auto).
          apply Hkeys in Hy. destruct Hy as (d & Hd). exists d. split; [exact Hd|]. now apply (Hvals y v d).
        + intros y Hy. apply Hkeys. now apply Ht1. }
    destruct Hok as (w2 & Hw2). exists w2. split; [exact Hw2|]. exists (zs ++ [s]). exact (Inv_step shuffle e sv os a Hv wA oms Emk 0 w' s w2 zs HI Hw2).
Qed.
End Made.

Lemma single_variable ys e1 r : solve_all clk shuffle f e sv a = Some (ys, e1, r) ->
  exists e2, optimize_all clk shuffle f e sv os a = Some (ys, e2, r) /\ get_stats e2 = get_stats e1.
Proof.
  intros H. unfold optimize_all. fold w0. destruct (make_constraints os w0) as [wA [oms|ex]] eqn:Emk.
  - exact (single_made wA oms Emk ys e1 r H).
  - exfalso. destruct (make_constraints_spec os w0 wA (Err ex) Hnum Emk) as (_ & _ & _ & _ & Hin). contradiction.
Qed.

Lemma single_optimal ys e1 : solve_all clk shuffle f e sv a = Some (ys, e1, None) ->
  exists e2, optimal_solution clk shuffle f e sv os a =
    Some (e2, Ok (match ys, e_interrupt e1 with _ :: _, None => true | _, _ => false end, last_solution ys)) /\ get_stats e2 = get_stats e1.
Proof.
  intros H. destruct (single_variable ys e1 None H) as (e2 & H2 & Hst). exists e2. split; [|exact Hst]. unfold optimal_solution. rewrite H2.
  assert (Ei : e_interrupt e2 = e_interrupt e1) by (unfold get_stats in Hst; congruence). rewrite Ei.
  destruct ys as [|s ys]; [reflexivity|]. cbn [last_solution]. destruct (last_solution ys); destruct (e_interrupt e1); reflexivity.
Qed.

Lemma single_last ys s e1 : solve_all clk shuffle f e sv a = Some (ys ++ [s], e1, None) -> e_interrupt e1 = None ->
  exists e2, optimal_solution clk shuffle f e sv os a = Some (e2, Ok (true, Some s)) /\ get_stats e2 = get_stats e1.
Proof.
  intros H Hi. destruct (single_optimal _ _ H) as (e2 & H2 & Hst). exists e2. split; [|exact Hst]. rewrite H2, Hi, last_solution_snoc.
  destruct ys; reflexivity.
Qed.
End Run.
