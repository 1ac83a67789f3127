(** KnapsackOptimizer when at most one value is not zero. *)
From Coq Require Import Permutation.
From Verif Require Import Knapsack SpecPuzzle Nonogram Queens SpecSafe SpecSolve SpecOptimize ExprFacts ExprProps DictFacts CodeFacts ModelFacts SetupFacts LoopFacts MasterFacts
  SolverProps SolverMore SolverExtra OptimizeFacts OptimizeRun OptimizeProps OptimizeMore OptimizeSingle NameFacts PuzzleFacts SudokuFacts NonogramFacts SpecFormula SpecKnapsack KnapsackFacts.
Open Scope list_scope.
Open Scope Z_scope.

Lemma zero_product x o : build (FBin UMul (FVar x) (FInt 0)) = Ok o -> o = OExpr (Const 0).
Proof. intros H. vm_compute in H. congruence. Qed.

Lemma weighted_occurs x xs cs o : build (weighted xs cs) = Ok o -> ooccurs x o ->
  exists i, nth_error xs i = Some x /\ nth i cs 0 <> 0.
Proof.
  unfold weighted. cbn [build].
  assert (G : forall xs cs acc o,
    (fix go (acc : operand) (l : list formula) : res operand :=
       match l with
       | [] => Ok acc
       | g :: l' => let! o := build g in let! a := py_op UAdd acc o in go a l'
       end) acc (map (fun p => FBin UMul (FVar (fst p)) (FInt (snd p))) (combine xs cs)) = Ok o ->
    ooccurs x o -> ooccurs x acc \/ exists i, nth_error xs i = Some x /\ nth i cs 0 <> 0).
  { clear. induction xs as [|y xs IH]; intros [|c cs] acc o H Hx; try (cbn in H; injection H as <-; auto; fail).
    cbn [combine map fst snd] in H.
    destruct (build (FBin UMul (FVar y) (FInt c))) as [t|ex] eqn:T; [|discriminate]. cbn [bind] in H.
    destruct (py_op UAdd acc t) as [acc'|ex] eqn:A; [|discriminate]. cbn [bind] in H.
    destruct (IH _ _ _ H Hx) as [Hacc|(i & I1 & I2)]; [|right; exists (S i); split; assumption].
    destruct (py_op_occurs x _ _ _ _ A Hacc) as [Ha|Ht]; [left; exact Ha|right]. exists 0%nat.
    destruct (Z.eq_dec c 0) as [->|Hc].
    - rewrite (zero_product _ _ T) in Ht. inversion Ht.
    - cbn. split; [|exact Hc]. f_equal. apply (build_occurs x _ _ T) in Ht. cbn in Ht. destruct Ht as [Ht|[]]. exact Ht. }
  intros H Hx. destruct (G xs cs (OInt 0) o H Hx) as [C|C]; [destruct C|exact C].
Qed.

Lemma optimal_fuel clk shuffle f1 f2 e sv os a x y :
  optimal_solution clk shuffle f1 e sv os a = Some x -> optimal_solution clk shuffle f2 e sv os a = Some y -> x = y.
Proof.
  unfold optimal_solution, optimize_all. destruct (make_constraints os (e_world e)) as [w [oms|ex]]; [|congruence].
  destruct (drain clk shuffle f1 _ _ _ _) as [r1|] eqn:E1; [|discriminate].
  destruct (drain clk shuffle f2 _ _ _ _) as [r2|] eqn:E2; [|discriminate].
  assert (r1 = r2) as -> by (eapply drain_det; eassumption). congruence.
Qed.

Lemma variables_of_NoDup m : well_named m -> NoDup (variables_of m).
Proof.
  intros (H & _). unfold variables_of. induction (m_vars m) as [|[x i] l IH]; [constructor|]. cbn in H |- *. inversion H as [|? ? H1 H2]; subst.
  destruct i as [d|p]; cbn; [constructor|]; auto. intros C. apply H1. apply in_flat_map in C. destruct C as ([y j] & Hy & C).
  apply in_map_iff. destruct j; cbn in C; [|contradiction]. destruct C as [<-|[]]. eexists. split; [|exact Hy]. reflexivity.
Qed.

Lemma last_all {A} (R : A -> A -> Prop) (last : list A -> option A) (ys : list A) :
  (forall t l, last (t :: l) = match last l with Some u => Some u | None => Some t end) -> last [] = None ->
  ForallOrdPairs R ys -> forall s, last ys = Some s -> In s ys /\ forall t, In t ys -> t = s \/ R t s.
Proof.
  intros L0 L1 H. induction H as [|a l Ha H IH]; intros s L; [congruence|]. rewrite L0 in L.
  destruct (last l) as [u|] eqn:E.
  - injection L as <-. destruct (IH u eq_refl) as [I1 I2]. split; [now right|]. intros t [<-|T]; [|auto].
    right. rewrite Forall_forall in Ha. now apply Ha.
  - injection L as <-. split; [now left|]. intros t [<-|T]; [now left|]. destruct l as [|b l]; [destruct T|].
    rewrite L0 in E. destruct (last l); discriminate.
Qed.

Section Call.
Variables (values caps : list Z) (ws : list (list Z)).
Hypothesis Hne : values <> [].
Variables (clk : nat -> Z) (shuffle : list name -> list name) (e : env) (sv : solver) (o : expr).
Hypothesis Hb : built (fun _ => 0) (e_world e) (VK values) (CK values caps ws).
Hypothesis Hs : shuffles shuffle.
Hypothesis Ho : build (weighted (xs_ values) values) = Ok (OExpr o).
Hypothesis Hto : s_timeout sv <> LInfinity.
Hypothesis Hli : s_limit sv <> LInfinity.
Hypothesis Hone : lonely values.
Let xs := xs_ values.
Let m := w_model (e_world e).
Let cs := all_cons m no_args.

Lemma one_variable x y : occurs x o -> occurs y o -> x = y.
Proof.
  intros Hx Hy. destruct (weighted_occurs x _ _ _ Ho Hx) as (i & I1 & I2). destruct (weighted_occurs y _ _ _ Ho Hy) as (j & J1 & J2).
  rewrite (Hone i j I2 J2) in I1. congruence.
Qed.

(** The call finds the last solution of [solve]. *)
Lemma call_single fuel e' sol : knapsack_call clk shuffle fuel e sv (obj values caps ws) = Some (e', Ok sol) ->
  exists F ys e1, solve_all clk shuffle F e sv no_args = Some (ys, e1, None) /\ e_interrupt e' = e_interrupt e1 /\
    ks_optimal sol = (match ys, e_interrupt e1 with _ :: _, None => true | _, _ => false end) /\
    ks_solution sol = option_map (fun s => map (val s) xs) (last_solution ys) /\
    ks_weights sol = option_map (fun x => map (fun j => total x (column j ws)) (seq 0 (length caps))) (ks_solution sol).
Proof.
  intros H. pose proof (k_valid values caps ws shuffle e o Hb Hs Ho) as V. pose proof V as ((V1 & V2 & V3 & V4) & _).
  destruct (run_terminates clk shuffle e sv no_args passive V1 V2 V4) as (F & ((ys & e1) & r) & R).
  change (solve_all clk shuffle F e sv no_args = Some (ys, e1, r)) in R.
  set (os := [OObj (Objective o true)]) in *.
  pose proof (k_obj values sv o Ho) as Of. pose proof (k_total values caps ws e o Hb Ho) as Ot. fold os in Of, Ot.
  assert (Oo : ~ In OOther os) by (intros [E|[]]; discriminate).
  assert (O1 : forall ob x y, In (OObj ob) os -> occurs x (o_expr ob) -> occurs y (o_expr ob) -> x = y).
  { intros ob x y [E|[]]. injection E as <-. apply one_variable. }
  destruct (single_variable clk shuffle F e sv os no_args V Of Ot Oo O1 ys e1 r R) as (e2 & R2 & _).
  destruct (k_ends values caps ws clk shuffle e sv o Hb Hs Ho Hto Hli F ys e2 r R2) as (-> & _).
  destruct (single_optimal clk shuffle F e sv os no_args V Of Ot Oo O1 ys e1 R) as (e3 & R3 & St).
  exists F, ys, e1. split; [exact R|].
  unfold knapsack_call in H. cbn [obj k_variables k_values k_weights k_capacities] in H. rewrite Ho in H. fold os in H.
  destruct (optimal_solution clk shuffle fuel e sv os no_args) as [z|] eqn:E; [|discriminate].
  rewrite (optimal_fuel _ _ _ _ _ _ _ _ _ _ E R3) in H.
  assert (Ei : e_interrupt e3 = e_interrupt e1) by (unfold get_stats in St; congruence).
  destruct (last_solution ys) as [s|] eqn:L.
  - assert (Hin : In s ys).
    { clear -L. revert s L. induction ys as [|t ys IH]; intros s L; [discriminate|]. cbn in L.
      destruct (last_solution ys) as [u|]; [injection L as <-; right; now apply IH|injection L as <-; now left]. }
    destruct (solutions_hold clk shuffle F e sv no_args ys e1 None (proj1 V) (k_faithful values caps ws e sv Hb) (k_noerror values caps ws e Hb) R) as (Sd & _).
    destruct (k_assigns values caps ws e Hb s (proj1 (Sd s Hin))) as [_ Hd].
    rewrite (mapM_Ok (get_item s) (val s)) in H by (intros x Hx; unfold get_item; now rewrite (proj1 (Hd x Hx))).
    injection H as <- <-. cbn [ks_optimal ks_solution ks_weights option_map]. split; [exact Ei|]. split; [reflexivity|]. split; [reflexivity|].
    f_equal. apply map_ext. intros j. now rewrite zsum_prod_total.
  - injection H as <- <-. cbn. auto.
Qed.

(** It is the last packing, in an order of the items. *)
Lemma call_last fuel e' sol x : knapsack_call clk shuffle fuel e sv (obj values caps ws) = Some (e', Ok sol) ->
  ks_optimal sol = true -> ks_solution sol = Some x ->
  exists order, Permutation order (seq 0 (length values)) /\
    forall x', packing (length values) caps ws x' -> x' = x \/ later order x' x.
Proof.
  intros H Hopt Hx. destruct (call_single fuel e' sol H) as (F & ys & e1 & R & _ & Eo & Es & _).
  rewrite Hopt in Eo. rewrite Hx in Es. destruct (e_interrupt e1) eqn:Ei; [destruct ys; discriminate|].
  destruct (last_solution ys) as [s|] eqn:L; [|discriminate]. injection Es as ->.
  pose proof (k_valid values caps ws shuffle e o Hb Hs Ho) as V. pose proof V as ((V1 & V2 & V3 & V4) & _).
  destruct (ordered _ _ _ _ _ _ _ _ _ (proj1 V) R) as (order & Op & _ & _ & _ & Ok1 & Ol).
  assert (Px : Permutation order xs).
  { rewrite Op. apply NoDup_Permutation.
    - apply variables_of_NoDup. exact V2.
    - apply xs_NoDup.
    - intros y. rewrite variables_of_In. split; [intros (d & D); apply (k_var values caps ws e Hb) in D; apply D|].
      intros Y. exists [0; 1]. apply (k_var values caps ws e Hb). auto. }
  change (Permutation order (map i_ (seq 0 (length values)))) in Px.
  destruct (Permutation_map_inv i_ _ Px) as (items & -> & Pi).
  exists items. split; [symmetry; exact Pi|]. intros x' Hx'.
  destruct (last_all (lex_before (map i_ items) (declared m)) last_solution ys) with (s := s) as [Sin Sall]; auto.
  destruct (k_complete values caps ws e Hb x' Hx') as (Hsol & Hsv & Em).
  pose proof (proj1 (proj2 (proj2 (proj2 (proj1 V))))) as Hid. fold m cs in Hid.
  assert (Hw : e_world e1 = compile_all (s_compile sv) (e_world e) cs).
  { destruct (run_cases _ _ _ _ _ _ _ _ _ (proj1 V) R) as [(-> & _)|(_ & _ & _ & _ & _ & _ & _ & _ & _ & Hw & _)]; [destruct Sin|exact Hw]. }
  destruct (stats_exhaustive _ _ _ _ _ _ _ _ _ (proj1 V) R) as (_ & Ex).
  destruct (Ex Hsol (k_hasvar values caps ws Hne e Hb) eq_refl Ei (combine xs x')) as (s' & S1 & S2).
  { rewrite Hw. apply (solves_holds (e_world e) (s_compile sv) cs m _ Hid (k_faithful values caps ws e sv Hb) (k_noerror values caps ws e Hb)). exact Hsv. }
  assert (Ex' : map (val s') xs = x').
  { rewrite <- Em. apply map_ext. intros y. unfold val, dget_or. now rewrite S2. }
  assert (Nx : forall t i, (i < length values)%nat -> nth i (map (val t) xs) 0 = val t (i_ i)).
  { intros t i Hi. unfold xs, xs_. rewrite map_map. rewrite (nth_indep _ 0 (val t (i_ 0))) by (now rewrite map_length, seq_length).
    rewrite (map_nth (fun i => val t (i_ i)) (seq 0 (length values)) 0%nat i), seq_nth by exact Hi. reflexivity. }
  assert (Ni : forall i, In i items -> (i < length values)%nat).
  { intros i Hi. apply (Permutation_in i (Permutation_sym Pi)) in Hi. apply in_seq in Hi. lia. }
  destruct (Sall s' S1) as [->|(p & y & q & a & b & E1 & E2 & E3 & E4 & E5)]; [left; now symmetry|right].
  assert (Sp : exists p' i q', items = p' ++ i :: q' /\ map i_ p' = p /\ i_ i = y).
  { apply map_eq_app in E1. destruct E1 as (p' & l' & -> & <- & E1). destruct l' as [|i q']; [discriminate|]. cbn in E1.
    injection E1 as <- E1. exists p', i, q'. auto. }
  destruct Sp as (p' & i & q' & Ei' & <- & <-). exists p', i, q'. split; [exact Ei'|].
  rewrite <- Ex'. split.
  - intros j Hj. assert (Hj' : In j items) by (rewrite Ei'; apply in_or_app; now left).
    rewrite !Nx by (now apply Ni). unfold val, dget_or. rewrite (E2 (i_ j)); [reflexivity|now apply in_map].
  - assert (Hi' : In i items) by (rewrite Ei'; apply in_or_app; right; now left).
    rewrite !Nx by (now apply Ni). unfold val, dget_or. rewrite E3, E4.
    assert (D : declared m (i_ i) = [0; 1]).
    { apply declared_variable; [exact V2|]. apply (k_var values caps ws e Hb). split; [|reflexivity]. apply xs_In. exists i. split; [now apply Ni|reflexivity]. }
    rewrite D in E5. destruct E5 as (l1 & l2 & l3 & E5). destruct l1 as [|z1 [|z2 l1]]; cbn in E5.
    + injection E5 as <- E5. destruct l2 as [|z l2]; cbn in E5; [injection E5 as <- _; auto|]. injection E5 as _ E5. destruct l2; discriminate.
    + injection E5 as _ _ E5. destruct l2; discriminate.
    + injection E5 as _ _ E5. destruct l1; discriminate.
Qed.
End Call.

(** ** Programs *)

Lemma init_shape (values caps : list Z) (rows : list (list Z)) (again : bool) w : instance values caps rows ->
  let ws := if again then rows else [] in
  knapsack_init (map Some values) (map Some caps) (Weights (map (map Some) rows) again) w =
  op_bind (op_for (fun i => op_bind (add_bool_variable (Some (name1 "i_" i))) (fun _ => op_ret (name1 "i_" i))) (seq 0 (length values))) (fun xs =>
    op_bind (op_for (fun p => add_formula (FBin ULe (weighted xs (map (fun row => nth (fst p) row 0) ws)) (FInt (snd p)))) (enumerate caps)) (fun _ =>
    op_ret (Some (Knapsack values caps ws xs)))) w.
Proof.
  intros (Hne & Hlen & Hrows). unfold knapsack_init. destruct (map Some values) as [|v0 l0] eqn:Ev; [exfalso; apply Hne; exact (map_eq_nil _ _ Ev)|].
  rewrite <- Ev. cbn [wa_rows wa_again].
  unfold op_bind at 1, op_res. rewrite check_ints_some. unfold op_bind at 1. rewrite check_ints_some. unfold op_bind at 1.
  rewrite check_rows_some; [|cbn; lia|exact Hrows]. cbn [app]. unfold op_bind at 1. rewrite (proj2 (Nat.ltb_ge (length rows) (length values))) by lia.
  reflexivity.
Qed.

Lemma init_values (values values' caps : list Z) (rows : list (list Z)) (again : bool) :
  instance values caps rows -> instance values' caps rows ->
  let p vs := knapsack_init (map Some vs) (map Some caps) (Weights (map (map Some) rows) again) in
  forall k e k' e', construct (p values) = Ok (k, e) -> construct (p values') = Ok (k', e') -> e = e'.
Proof.
  intros I1 I2 p k e k' e'. unfold construct, p. rewrite (init_shape values _ _ _ _ I1), (init_shape values' _ _ _ _ I2).
  assert (length values = length values') as -> by (destruct I1 as (_ & <- & _), I2 as (_ & <- & _); reflexivity).
  match goal with |- context [op_bind ?a _ init_world] => set (vars := a) end. set (ws := if again then rows else []).
  pose (rest := fun xs => op_for (fun p => add_formula (FBin ULe (weighted xs (map (fun row => nth (fst p) row 0) ws)) (FInt (snd p)))) (enumerate caps)).
  change (match op_bind vars (fun xs => op_bind (rest xs) (fun _ => op_ret (Some (Knapsack values caps ws xs)))) init_world with (w, Ok a) => Ok (a, new_env w) | (_, Err ex) => Err ex end = Ok (k, e) ->
    match op_bind vars (fun xs => op_bind (rest xs) (fun _ => op_ret (Some (Knapsack values' caps ws xs)))) init_world with (w, Ok a) => Ok (a, new_env w) | (_, Err ex) => Err ex end = Ok (k', e') -> e = e').
  clearbody rest vars. unfold op_bind, op_ret. destruct (vars init_world) as [w [xs|ex]]; [|discriminate]. destruct (rest xs w) as [w' [u|ex]]; [|discriminate]. congruence.
Qed.

Section Run.
Variables (clk : nat -> Z) (shuffle : list name -> list name) (o : options) (caps : list Z) (rows : list (list Z)) (again : bool).
Hypothesis Hs : shuffles shuffle.
Let ws := if again then rows else [].
Let run values fuel := knapsack_run clk shuffle fuel (map Some values) (map Some caps) (Weights (map (map Some) rows) again) o.

Lemma knapsack_ignores values values' fuel fuel' sol sol' i i' :
  instance values caps rows -> instance values' caps rows -> lonely values -> lonely values' ->
  run values fuel = Some (Ok sol, i) -> run values' fuel' = Some (Ok sol', i') ->
  ks_solution sol = ks_solution sol' /\ ks_weights sol = ks_weights sol' /\ ks_optimal sol = ks_optimal sol' /\ i = i'.
Proof.
  intros I1 I2 L1 L2. unfold run, knapsack_run.
  destruct (run_construct values caps rows again I1) as (e & Ec & Hb). destruct (run_construct values' caps rows again I2) as (e' & Ec' & Hb').
  pose proof (init_values values values' caps rows again I1 I2 _ _ _ _ Ec Ec') as Ee. subst e'. rewrite Ec, Ec'.
  pose proof (proj1 I1) as N1. pose proof (proj1 I2) as N2.
  destruct (build_objective values N1) as (ex & Ho). destruct (build_objective values' N2) as (ex' & Ho'). destruct (options_lims o) as [Ht Hl].
  fold ws in Ec, Ec', Hb, Hb'. fold ws.
  destruct (knapsack_call clk shuffle fuel e (options_solver GROUPS o) (obj values caps ws)) as [[e1 r1]|] eqn:C1; [|discriminate].
  destruct (knapsack_call clk shuffle fuel' e (options_solver GROUPS o) (obj values' caps ws)) as [[e2 r2]|] eqn:C2; [|discriminate].
  intros E1 E2. injection E1 as -> <-. injection E2 as -> <-.
  destruct (call_single values caps ws clk shuffle e _ ex Hb Hs Ho Ht Hl L1 fuel e1 sol C1) as (F & ys & f1 & R & A1 & A2 & A3 & A4).
  destruct (call_single values' caps ws clk shuffle e _ ex' Hb' Hs Ho' Ht Hl L2 fuel' e2 sol' C2) as (F' & ys' & f2 & R' & B1 & B2 & B3 & B4).
  unfold solve_all in R, R'. pose proof (drain_det _ _ _ _ _ _ _ _ _ _ R R') as E. injection E as -> ->.
  assert (Ex : xs_ values = xs_ values') by (unfold xs_; destruct I1 as (_ & <- & _), I2 as (_ & <- & _); reflexivity).
  rewrite Ex in A3. assert (Es : ks_solution sol = ks_solution sol') by congruence.
  split; [exact Es|]. split; [congruence|]. split; congruence.
Qed.

Lemma knapsack_last values fuel sol i x :
  instance values caps rows -> lonely values -> run values fuel = Some (Ok sol, i) ->
  ks_optimal sol = true -> ks_solution sol = Some x ->
  exists order, Permutation order (seq 0 (length values)) /\
    forall x', packing (length values) caps ws x' -> x' = x \/ later order x' x.
Proof.
  intros I1 L1. unfold run, knapsack_run.
  destruct (run_construct values caps rows again I1) as (e & Ec & Hb). rewrite Ec. pose proof (proj1 I1) as N1.
  destruct (build_objective values N1) as (ex & Ho). destruct (options_lims o) as [Ht Hl]. fold ws in Hb |- *.
  destruct (knapsack_call clk shuffle fuel e (options_solver GROUPS o) (obj values caps ws)) as [[e1 r1]|] eqn:C1; [|discriminate].
  intros E1. injection E1 as -> <-. intros Hopt Hx.
  exact (call_last values caps ws N1 clk shuffle e _ ex Hb Hs Ho Ht Hl L1 fuel e1 sol x C1 Hopt Hx).
Qed.
End Run.
