(** KnapsackOptimizer with added variables and constraints. *)
From Coq Require Import Lia.
From Verif Require Import Nonogram Queens NameFacts SudokuFacts NonogramFacts KnapsackUser SpecKnapsackUser SpecKnapsack SpecPuzzleUser SpecPuzzle SpecSafe SpecSolve SpecOptimize
  ExprFacts ExprProps DictFacts CodeFacts ModelFacts SafeFacts SolverProps SolverMore OptimizeProps OptimizeMore
  PuzzleFacts PuzzleRel PuzzleUserFacts PuzzleUserRel KnapsackFacts ParamFacts SpecOptimize SpecKnapsack.
Open Scope list_scope.
Open Scope Z_scope.

Section U.
Variables (values caps : list Z) (ws : list (list Z)) (us : list ustmt) (cmp : bool).
Hypothesis Hne : values <> [].
Let n := length values.
Let xs := xs_ values.
Let D := item_var n.
Let D' := and_added D us.
Let V := VK values ++ flat_map uvars us.
Let C := CK values caps ws ++ flat_map ubody us.
Hypothesis Hus : us_ok D cmp us.
Hypothesis Hpar : without_parameters us.

Lemma ku_HD x d v : In (x, d) (VK values) -> In v d -> D x v.
Proof.
  intros H Hv. apply VK_dom in H. destruct H as [Hx ->]. apply xs_In in Hx. destruct Hx as (i & Hi & ->).
  split; [exists i; auto|]. destruct Hv as [<-|[<-|[]]]; auto.
Qed.
Lemma ku_names x : In x (names_of (VK values)) <-> exists v, D x v.
Proof.
  rewrite VK_names, xs_In. split.
  - intros (i & Hi & ->). exists 0. split; [exists i; auto|auto].
  - intros (v & (i & Hi & ->) & _). exists i. auto.
Qed.
Lemma ku_dom x d v : In (x, d) V -> In v d -> D' x v.
Proof. apply (user_dom D us (VK values) ku_HD). Qed.
Lemma ku_inh x : In x (names_of V) -> exists v, D' x v.
Proof. apply (user_inhabited D us (VK values) ku_names). Qed.
Lemma ku_xs x : In x xs -> In (x, [0; 1]) V.
Proof. intros H. apply in_or_app. left. apply VK_dom. auto. Qed.
Lemma ku_name x : In x xs -> In x (names_of V).
Proof. intros H. unfold V. rewrite names_app. apply in_or_app. left. now rewrite VK_names. Qed.
Lemma ku_safe : cmp = true -> forall p, In p C -> p_safe p.
Proof.
  intros Ecmp p Hp. apply in_app_or in Hp. destruct Hp as [Hp|Hp]; [exact (CK_safe values caps ws p Hp)|]. apply in_flat_map in Hp. destruct Hp as (u & Hin & Hp).
  apply in_split in Hin. destruct Hin as (us1 & us2 & E). pose proof (Hus _ _ _ E) as Hok.
  destruct u as [x d|f|ys]; cbn in Hp, Hok; [contradiction| |]; destruct Hp as [<-|[]]; [|exact Logic.I]. now apply Hok.
Qed.
Lemma ku_params f ex : In (PForm f) C -> build f = Ok (OExpr ex) -> params ex = [].
Proof.
  intros Hf Hb. apply in_app_or in Hf. destruct Hf as [Hf|Hf].
  - apply str_params. exact (stro_build f (OExpr ex) (CK_str values caps ws f Hf) Hb).
  - apply (build_params f ex); [|exact Hb]. apply in_flat_map in Hf. destruct Hf as (u & Hin & Hf).
    destruct u as [x d|g|ys]; cbn in Hf; [contradiction| |]; destruct Hf as [E|[]]; [|discriminate]. injection E as <-. now apply Hpar.
Qed.
Lemma ku_closed p x : In p (CK values caps ws) -> In x (p_names p) -> In x (names_of (VK values)).
Proof.
  intros Hp Hx. destruct (CK_form values caps ws p Hp) as (q & ->). rewrite VK_names. cbn [p_names f_cap] in Hx. unfold f_cap in Hx. cbn [fvars] in Hx.
  apply in_app_or in Hx. destruct Hx as [Hx|[]]. exact (weighted_fvars (xs_ values) (column (fst q) ws) x Hx).
Qed.

Section Call.
Variables (clk : nat -> Z) (shuffle : list name -> list name) (e : env) (sv : solver) (o : expr).
Hypothesis Hb : rbuilt D' cmp P0 (e_world e) V C.
Hypothesis Hs : shuffles shuffle.
Hypothesis Hcmp : s_compile sv = cmp.
Hypothesis Ho : build (weighted xs values) = Ok (OExpr o).
Hypothesis Hto : s_timeout sv <> LInfinity.
Hypothesis Hli : s_limit sv <> LInfinity.
Let m := w_model (e_world e).
Let cs := all_cons m no_args.
Let ob := Objective o true.
Let os := [OObj ob].

Lemma ku_valid : opt_valid shuffle e os no_args.
Proof.
  split; [exact (rbuilt_valid D' cmp P0 e V C shuffle Hb Hs)|]. split; [|split].
  - intros k x Hx Hk. exfalso. rewrite (r_vars _ _ _ _ _ _ Hb) in Hx.
    change (In x (dkeys (map (fun p : name * list Z => (fst p, VVar (snd p))) V))) in Hx. rewrite keys_vs in Hx.
    apply (r_good _ _ _ _ _ _ Hb) in Hx. destruct Hk as [-> | ->]; discriminate Hx.
  - intros c Hc. unfold all_cons in Hc. cbn [x_additional no_args] in Hc. rewrite app_nil_r in Hc. split; [exact (r_fresh _ _ _ _ _ _ Hb c Hc)|].
    intros ex Hbd. destruct (r_expr _ _ _ _ _ _ Hb c ex Hc Hbd) as (f0 & Hp & E). intros p Hin.
    rewrite (ku_params f0 ex Hp E) in Hin. contradiction.
  - intros o' [E|[]] p Hp. injection E as <-. cbn [o_expr ob] in Hp. rewrite (o_params values o Ho) in Hp. contradiction.
Qed.

Lemma ku_safe' : s_compile sv = true -> forall p, In p C -> p_safe p. Proof. rewrite Hcmp. exact ku_safe. Qed.
Lemma ku_par : w_par (e_world e) = P0. Proof. exact (r_par _ _ _ _ _ _ Hb). Qed.
Lemma ku_faithful : m_solvable m = true -> faithful (e_world e) (s_compile sv) cs.
Proof. exact (r_faithful D' cmp P0 e sv V C Hb Hcmp ku_safe'). Qed.
Lemma ku_noerror : m_solvable m = true -> no_error (w_par (e_world e)) m cs.
Proof. exact (r_noerror D' cmp P0 e V C Hb ku_dom ku_inh). Qed.
Lemma ku_obj : objective_faithful (s_compile sv) os. Proof. exact (o_faithful values o Ho _). Qed.
Lemma ku_var x d : is_variable m x d <-> In (x, d) V.
Proof. exact (r_is_variable_vs _ _ _ _ _ _ _ _ Hb). Qed.
Lemma ku_var_name x : In x (names_of V) <-> exists d, is_variable m x d.
Proof.
  unfold names_of. rewrite in_map_iff. split.
  - intros ([y d] & <- & H). exists d. now apply ku_var.
  - intros (d & H). apply ku_var in H. exists (x, d). auto.
Qed.
Lemma ku_hasvar : has_variable m.
Proof.
  exists (i_ 0), [0; 1]. apply ku_var, ku_xs. apply xs_In. exists 0%nat. split; [exact (values_0 values Hne)|reflexivity].
Qed.
Lemma ku_unique x d d' : In (x, d) V -> In (x, d') V -> d = d'.
Proof.
  intros H H'. pose proof (r_names _ _ _ _ _ _ Hb) as Hnd. pose proof (dget_NoDup V x d Hnd H) as E. rewrite (dget_NoDup V x d' Hnd H') in E. congruence.
Qed.
Lemma ku_total : objectives_total m (w_par (e_world e)) os.
Proof.
  intros o' [E|[]]. injection E as <-. split.
  - intros x Hx. exists [0; 1]. apply ku_var, ku_xs. exact (o_vars values o Ho x Hx).
  - intros s _ Hk. rewrite ku_par. eexists. exact (o_value values o Ho s Hk).
Qed.

Lemma ku_assigns s : assigns m s -> (forall x, In x (names_of V) <-> In x (map fst s)) /\
  forall x d, In (x, d) V -> dget s x = Some (val s x) /\ In (val s x) d.
Proof.
  intros (Hnd & Hk & Hv). assert (Hkeys : forall x, In x (names_of V) <-> In x (map fst s)) by (intros x; rewrite Hk; apply ku_var_name).
  split; [exact Hkeys|]. intros x d Hx. assert (Hg : dget s x = Some (val s x)).
  { apply dget_val. apply Hkeys. unfold names_of. apply in_map_iff. exists (x, d). auto. }
  split; [exact Hg|]. apply (Hv x); [now apply dget_In|now apply ku_var].
Qed.

Lemma ku_sound s : m_solvable m = true -> solves (holds (w_par (e_world e))) m cs s -> packing_also n caps ws us (map (val s) xs).
Proof.
  intros Hsol [Ha Hc]. destruct (ku_assigns s Ha) as [Hk Hd]. rewrite ku_par in Hc.
  assert (Hx : forall x, In x xs -> dget s x = Some (val s x) /\ (val s x = 0 \/ val s x = 1)).
  { intros x Hx. destruct (Hd x [0; 1] (ku_xs x Hx)) as [H1 [H2|[H2|[]]]]; auto. }
  assert (Hw : forall p, In p C -> within D' (p_names p) (val s)).
  { intros p Hp x Hx'. apply (r_known _ _ _ _ _ _ Hb p x Hp) in Hx'. unfold names_of in Hx'. apply in_map_iff in Hx'. destruct Hx' as ([y d] & E & Hin).
    cbn in E. subst y. apply (ku_dom x d); [exact Hin|]. now apply Hd. }
  assert (Hsat : forall p, In p C -> sat P0 (val s) p).
  { intros p Hp. destruct (r_into _ _ _ _ _ _ Hb p Hp) as [(c & Hcin & Hr)|[Ht|[E _]]]; [|apply Ht; now apply Hw|fold m in E; congruence].
    fold m in Hcin. assert (Hcs : In c cs) by (unfold cs, all_cons; cbn [x_additional no_args]; now rewrite app_nil_r).
    pose proof (r_concerns D' cmp P0 e V C Hb c Hsol Hcs) as Hcc.
    apply (rholds_sat D' P0 s (val s) c p Hr (r_pdef _ _ _ _ _ _ Hb p Hp) (Hw p Hp)).
    + intros x Hx'. apply dget_val. apply Hk. exact (r_closed _ _ _ _ _ _ Hb c x Hcin Hx').
    + now apply Hc. }
  split; [split; [rewrite map_length; exact (xs_length values)|split]|].
  - intros v Hv. apply in_map_iff in Hv. destruct Hv as (x & <- & Hxi). now apply Hx.
  - apply (CK_sat values caps ws (val s)). intros p Hp. apply Hsat. apply in_or_app. now left.
  - exists (val s). split.
    + intros j Hj. unfold xs, xs_. rewrite map_map. symmetry. transitivity ((fun i => val s (i_ i)) (nth j (seq 0 n) 0%nat)).
      * rewrite <- (map_nth (fun i => val s (i_ i)) (seq 0 n) 0%nat j). apply nth_indep. now rewrite map_length, seq_length.
      * rewrite seq_nth by exact Hj. reflexivity.
    + intros u Hu. destruct u as [x d|f|ys]; cbn [u_holds].
      * apply (Hd x d). apply in_or_app. right. apply in_flat_map. exists (UVar x d). split; [exact Hu|now left].
      * apply (Hsat (PForm f)). apply in_or_app. right. apply in_flat_map. exists (UForm f). split; [exact Hu|now left].
      * apply (Hsat (PDiff ys)). apply in_or_app. right. apply in_flat_map. exists (UDiff ys). split; [exact Hu|now left].
Qed.

Lemma ku_complete x : packing_also n caps ws us x -> m_solvable m = true /\
  exists t, solves (holds (w_par (e_world e))) m cs t /\ map (val t) xs = x.
Proof.
  intros ((Hl & H01 & Hw) & a & Hax & Hau).
  assert (Hm : map a xs = x).
  { apply (nth_ext _ _ 0 0); [rewrite map_length; unfold xs; rewrite xs_length; symmetry; exact Hl|]. intros j Hj. rewrite map_length in Hj. unfold xs in Hj. rewrite xs_length in Hj.
    rewrite <- (Hax j Hj). unfold xs, xs_. rewrite map_map. transitivity ((fun i => a (i_ i)) (nth j (seq 0 n) 0%nat)).
    - rewrite <- (map_nth (fun i => a (i_ i)) (seq 0 n) 0%nat j). apply nth_indep. now rewrite map_length, seq_length.
    - rewrite seq_nth by exact Hj. reflexivity. }
  assert (Hd : forall y d, In (y, d) V -> In (a y) d).
  { intros y d Hy. apply in_app_or in Hy. destruct Hy as [Hy|Hy].
    - apply VK_dom in Hy. destruct Hy as [Hy ->]. assert (Hin : In (a y) x) by (rewrite <- Hm; now apply in_map). destruct (H01 _ Hin) as [-> | ->]; cbn; auto.
    - apply in_flat_map in Hy. destruct Hy as (u & Hu & Hy). destruct u as [z d'| |]; [|contradiction|contradiction]. destruct Hy as [E|[]]. injection E as -> ->. exact (Hau _ Hu). }
  assert (Hsat : forall p, In p C -> sat P0 a p).
  { intros p Hp. apply in_app_or in Hp. destruct Hp as [Hp|Hp].
    - revert p Hp. apply (CK_sat values caps ws a). fold xs. rewrite Hm. exact Hw.
    - apply in_flat_map in Hp. destruct Hp as (u & Hu & Hp). pose proof (Hau u Hu) as Hh.
      destruct u as [z d'|f|ys]; cbn in Hp; [contradiction| |]; destruct Hp as [<-|[]]; exact Hh. }
  assert (Hwi : forall p, In p C -> within D' (p_names p) a).
  { intros p Hp y Hy. apply (r_known _ _ _ _ _ _ Hb p y Hp) in Hy. unfold names_of in Hy. apply in_map_iff in Hy. destruct Hy as ([z d] & E & Hin).
    cbn in E. subst z. apply (ku_dom y d); auto. }
  assert (Hsol : m_solvable m = true).
  { destruct (m_solvable m) eqn:E; [reflexivity|]. destruct (r_solv _ _ _ _ _ _ Hb E) as (p & Hp & Hno). exfalso. exact (Hno a (Hwi p Hp) (Hsat p Hp)). }
  split; [exact Hsol|]. set (t := map (fun y => (y, a y)) (names_of V)).
  assert (Hkeys : map fst t = names_of V) by (unfold t; rewrite map_map; apply map_id).
  assert (Hget : forall y, In y (names_of V) -> dget t y = Some (a y)) by (intros y Hy; now apply dget_map_fun).
  exists t. split.
  - split.
    + split; [rewrite Hkeys; exact (r_names _ _ _ _ _ _ Hb)|]. split.
      * intros y. rewrite Hkeys. apply ku_var_name.
      * intros y v d Hin Hy. apply ku_var in Hy. unfold t in Hin. apply in_map_iff in Hin. destruct Hin as (z & E & _). injection E as -> <-. now apply Hd.
    + intros c Hc Hcc. rewrite ku_par. unfold cs, all_cons in Hc. cbn [x_additional no_args] in Hc. rewrite app_nil_r in Hc.
      destruct (r_from _ _ _ _ _ _ Hb c Hc (r_some _ _ _ _ _ _ Hb Hsol c Hc)) as (p & Hp & Hr).
      apply (rholds_sat D' P0 t a c p Hr (r_pdef _ _ _ _ _ _ Hb p Hp) (Hwi p Hp)); [|now apply Hsat].
      intros y Hy. apply Hget. exact (r_closed _ _ _ _ _ _ Hb c y Hc Hy).
  - rewrite <- Hm. apply map_ext_in. intros y Hy. unfold val, dget_or. now rewrite (Hget y (ku_name y Hy)).
Qed.

Lemma ku_terminates : exists fuel out, knapsack_call clk shuffle fuel e sv (obj values caps ws) = Some out.
Proof.
  destruct (optimize_terminates clk shuffle e sv os no_args ku_valid) as (fuel & [[ys e'] r] & E). exists fuel.
  unfold knapsack_call. cbn [obj k_variables k_values]. fold xs. rewrite Ho. unfold optimal_solution. fold ob os. rewrite E.
  destruct r as [ex|]; [eexists; reflexivity|]. destruct (last_solution ys) as [s|]; [|eexists; reflexivity].
  destruct (mapM _ _); eexists; reflexivity.
Qed.

Lemma ku_ends fuel ys e' r : optimize_all clk shuffle fuel e sv os no_args = Some (ys, e', r) ->
  r = None /\ (e_interrupt e' = Some ILimit -> exists k, s_limit sv = LNum k) /\ (e_interrupt e' = Some ITimeout -> exists t, s_timeout sv = LNum t).
Proof.
  intros H. assert (Hoo : ~ In OOther os) by (intros [E|[]]; discriminate). destruct (m_solvable m) eqn:Hsol.
  - destruct (opt_ends clk shuffle fuel e sv os no_args ys e' r ku_valid H (ku_faithful Hsol) (ku_noerror Hsol) ku_obj Hoo (r_groups D' cmp P0 e V C Hb Hsol) ku_total Hto Hli) as (E & H1 & H2).
    split; [exact E|]. split; [|exact H2]. intros Ei. destruct (H1 Ei) as (k & E1 & _). exists k. exact E1.
  - destruct (opt_unsolvable clk shuffle fuel e sv os no_args ys e' r ku_valid H Hsol Hoo) as (_ & E & Ei). split; [exact E|]. rewrite Ei. split; discriminate.
Qed.

Lemma ku_found fuel e1 b s : optimal_solution clk shuffle fuel e sv os no_args = Some (e1, Ok (b, Some s)) ->
  m_solvable m = true /\ solves (holds (w_par (e_world e))) m cs s.
Proof.
  intros E. destruct (optimal_run _ _ _ _ _ _ _ _ _ E) as (ys & r0 & Hrun & Hr). destruct (ku_ends fuel ys e1 r0 Hrun) as (-> & _).
  injection Hr as _ El. destruct (opt_nonempty clk shuffle fuel e sv os no_args e1 ku_valid ys None Hrun) as [Hsol _]; [intros ->; discriminate|].
  split; [exact Hsol|]. exact (optimal_feasible_holds clk shuffle fuel e sv os no_args e1 ku_valid (ku_faithful Hsol) (ku_noerror Hsol) _ s E).
Qed.

Lemma ku_items s : assigns m s -> mapM (get_item s) xs = Ok (map (val s) xs).
Proof.
  intros Ha. destruct (ku_assigns s Ha) as [_ Hd]. apply mapM_Ok. intros x Hx. unfold get_item. now rewrite (proj1 (Hd x _ (ku_xs x Hx))).
Qed.

Lemma ku_value t x : assigns m t -> map (val t) xs = x -> value_of (w_par (e_world e)) ob t (total x values).
Proof.
  intros Ha <-. rewrite ku_par. apply (o_value values o Ho). intros y Hy. apply (ku_assigns t Ha). apply ku_name. exact (o_vars values o Ho y Hy).
Qed.

Lemma ku_call fuel e' r : knapsack_call clk shuffle fuel e sv (obj values caps ws) = Some (e', r) ->
  exists sol, r = Ok sol /\
    match ks_solution sol with
    | Some x => packing_also n caps ws us x /\ ks_value sol = Some (total x values) /\ ks_weights sol = Some (map (fun j => total x (column j ws)) (seq 0 (length caps)))
    | None => ks_value sol = None /\ ks_weights sol = None /\ (e_interrupt e' = None -> forall x, ~ packing_also n caps ws us x)
    end /\
    (ks_optimal sol = true <-> ks_solution sol <> None /\ e_interrupt e' = None) /\
    (e_interrupt e' = Some ILimit -> exists k, s_limit sv = LNum k) /\ (e_interrupt e' = Some ITimeout -> exists t, s_timeout sv = LNum t).
Proof.
  unfold knapsack_call. cbn [obj k_variables k_values k_weights k_capacities]. fold xs. rewrite Ho. fold ob os. intros H.
  destruct (optimal_solution clk shuffle fuel e sv os no_args) as [[e1 r1]|] eqn:E; [|discriminate].
  destruct (optimal_run _ _ _ _ _ _ _ _ _ E) as (ys & r0 & Hrun & Hr). destruct (ku_ends fuel ys e1 r0 Hrun) as (-> & Hi).
  subst r1. pose proof E as Eflag. apply optimal_flag in Eflag.
  destruct (last_solution ys) as [s|] eqn:El.
  - destruct (ku_found fuel e1 _ s E) as [Hsol Hsv].
    pose proof (ku_sound s Hsol Hsv) as Hp. rewrite (ku_items s (proj1 Hsv)) in H.
    injection H as <- <-. eexists. split; [reflexivity|]. cbn [ks_solution ks_value ks_weights ks_optimal]. split; [split; [exact Hp|split]|split].
    + now rewrite zsum_prod_total.
    + f_equal. apply map_ext. intros j. now rewrite zsum_prod_total.
    + rewrite Eflag. split; intros [_ A]; split; try exact A; discriminate.
    + exact Hi.
  - injection H as <- <-. eexists. split; [reflexivity|]. cbn [ks_solution ks_value ks_weights ks_optimal]. split; [split; [reflexivity|split; [reflexivity|]]|split].
    + intros Ei x Hx. destruct (ku_complete x Hx) as (Hsol & t & Hsv & Ex).
      apply (optimal_none clk shuffle fuel e sv os no_args e1 ku_valid (ku_faithful Hsol) (ku_noerror Hsol) ku_obj _ _ E Ei Hsol ku_hasvar Hsv).
      intros o' [E'|[]]. injection E' as <-. eexists. exact (ku_value t x (proj1 Hsv) Ex).
    + rewrite Eflag. tauto.
    + exact Hi.
Qed.

Lemma ku_along : (forall v, In v values -> 0 <= v) -> improves_along m (w_par (e_world e)) ob.
Proof.
  intros Hv s x d v v' a b Hd Hx Hbf Ha Hb'. rewrite ku_par in Ha, Hb'. apply (o_value_inv values o Ho) in Ha, Hb'. subst a b. unfold better. cbn [o_max ob].
  apply ku_var in Hx.
  assert (Hle : total (map (val ((x, v) :: s)) xs) values <= total (map (val ((x, v') :: s)) xs) values); [|fold xs; lia].
  apply total_mono; [|exact Hv]. intros y Hy. unfold val, dget_or. cbn [dget]. destruct (String.eqb_spec y x) as [->|]; [|lia].
  rewrite (ku_unique x d [0; 1] Hx (ku_xs x Hy)) in Hbf.
  destruct Hbf as (l1 & l2 & l3 & E). destruct l1 as [|z1 [|z2 l1]]; cbn in E.
  - injection E as <- E. destruct l2 as [|z l2]; cbn in E; [injection E as <- _; lia|]. injection E as _ E. destruct l2; discriminate.
  - injection E as _ _ E. destruct l2; discriminate.
  - injection E as _ _ E. destruct l1; discriminate.
Qed.

Lemma ku_optimal fuel e' sol : (forall v, In v values -> 0 <= v) ->
  (length values = 1%nat /\ added us = [] \/ (forall v, In v values -> v = 0) \/ exists i j, i <> j /\ nth i values 0 <> 0 /\ nth j values 0 <> 0) ->
  knapsack_call clk shuffle fuel e sv (obj values caps ws) = Some (e', Ok sol) -> ks_optimal sol = true ->
  exists v, ks_value sol = Some v /\ forall x, packing_also n caps ws us x -> total x values <= v.
Proof.
  intros Hpos Hcase H Hopt. destruct (ku_call fuel e' (Ok sol) H) as (sol' & E1 & Hsol & Hfl & _). injection E1 as <-.
  destruct (ks_solution sol) as [x0|] eqn:Es; [|exfalso; apply Hfl in Hopt; now destruct Hopt].
  destruct Hsol as (Hp0 & Hval & _). exists (total x0 values). split; [exact Hval|]. intros x Hx.
  destruct Hcase as [Hcase|[Hz|Hcase]]; [|rewrite !total_zero by exact Hz; lia|].
  all: unfold knapsack_call in H; cbn [obj k_variables k_values k_weights k_capacities] in H; fold xs in H; rewrite Ho in H; fold ob os in H;
    destruct (optimal_solution clk shuffle fuel e sv os no_args) as [[e1 [[flag [s|]]|ex]]|] eqn:E; try discriminate H; [|injection H as _ <-; discriminate Es];
    destruct (ku_found fuel e1 _ s E) as [Hso Hsv]; rewrite (ku_items s (proj1 Hsv)) in H;
    injection H as <- <-; cbn [ks_solution ks_optimal] in Es, Hopt; injection Es as <-; subst flag;
    destruct (ku_assigns s (proj1 Hsv)) as [Hk Hd]; destruct (ku_complete x Hx) as (_ & t & Hst & Ex); pose proof (ku_value t x (proj1 Hst) Ex) as Hvx;
    destruct (optimal_best clk shuffle fuel e sv os no_args e1 ku_valid (ku_faithful Hso) (ku_noerror Hso) ku_obj ob s eq_refl E (ku_along Hpos)) as (_ & v & Hv & Hbest).
  2,4: rewrite ku_par in Hv; apply (o_value_inv values o Ho) in Hv; fold xs in Hv; specialize (Hbest _ _ Hst Hvx); unfold better in Hbest; cbn [o_max ob] in Hbest; lia.
  - right. right. destruct Hcase as [Hlen Hadd]. assert (Hx1 : xs = [i_ 0]) by (unfold xs, xs_; rewrite Hlen; reflexivity).
    assert (HV : forall y, In y (names_of V) -> y = i_ 0).
    { intros y Hy. unfold V in Hy. rewrite names_app in Hy. apply in_app_or in Hy. destruct Hy as [Hy|Hy].
      - rewrite VK_names in Hy. fold xs in Hy. rewrite Hx1 in Hy. destruct Hy as [<-|[]]. reflexivity.
      - apply added_names in Hy. rewrite Hadd in Hy. contradiction. }
    destruct Hsv as [(Hnd & _ & _) _]. destruct s as [|[y v] [|[z w] l]].
    + exfalso. assert (Hin : In (i_ 0) (names_of V)) by (apply ku_name; rewrite Hx1; now left). apply Hk in Hin. contradiction.
    + exists y, v, []. split; [|reflexivity]. intros z Hz. apply (o_vars values o Ho) in Hz. fold xs in Hz.
      assert (Hy : In y (names_of V)) by (apply Hk; now left). rewrite (HV y Hy). rewrite Hx1 in Hz. now destruct Hz as [<-|[]].
    + exfalso. assert (Hy : In y (names_of V)) by (apply Hk; now left). assert (Hz : In z (names_of V)) by (apply Hk; right; now left).
      apply HV in Hy, Hz. subst y z. inversion Hnd as [|? ? Hni]. apply Hni. now left.
  - right. left. destruct Hcase as (i & j & Hij & Hi & Hj). exists (i_ i), (i_ j).
    assert (Hr : forall k, nth k values 0 <> 0 -> (k < n)%nat) by (intros k Hk'; destruct (Nat.lt_ge_cases k n) as [|C']; [assumption|]; unfold n in C'; now rewrite nth_overflow in Hk').
    split; [intros C'; apply Hij; exact (name1_inj _ _ _ C')|]. split; apply (o_occurs values o Ho); auto.
Qed.
End Call.
End U.

Section Run.
Variables (clk : nat -> Z) (shuffle : list name -> list name) (o : options) (values caps : list Z) (rows : list (list Z)) (again : bool) (us : list ustmt).
Hypothesis Hinst : instance values caps rows.
Hypothesis Hs : shuffles shuffle.
Hypothesis Hus : us_ok (item_var (length values)) (o_compile o) us.
Hypothesis Hpar : without_parameters us.
Let ws := if again then rows else [].
Let run fuel := knapsack_user_run clk shuffle fuel (map Some values) (map Some caps) (Weights (map (map Some) rows) again) o us.
Let sv := options_solver GROUPS o.

Lemma ku_construct : exists e, construct (with_user (knapsack_init (map Some values) (map Some caps) (Weights (map (map Some) rows) again)) us) = Ok (obj values caps ws, e) /\
  rbuilt (and_added (item_var (length values)) us) (o_compile o) P0 (e_world e) (VK values ++ flat_map uvars us) (CK values caps ws ++ flat_map ubody us).
Proof.
  destruct Hinst as (Hne & _). pose proof (init_adds values caps ws Hne rows again Hinst eq_refl) as Ha.
  destruct (adds_built _ _ _ _ _ _ Ha init_world [] built_init) as (w1 & E1 & Hb1). cbn [app] in Hb1.
  pose proof (rbuilt_of (and_added (item_var (length values)) us) (o_compile o) _ _ _ _ Hb1 (ku_closed values caps ws)) as Hr1.
  destruct (user_radds (item_var (length values)) (o_compile o) us (VK values) (ku_names values) Hus w1 _ Hr1) as (w2 & E2 & Hr2).
  exists (new_env w2). split; [|exact Hr2]. unfold construct, with_user, op_bind. rewrite E1, E2. reflexivity.
Qed.

Lemma ku_run_terminates : exists fuel out, run fuel = Some out.
Proof.
  destruct ku_construct as (e & Ec & Hb). destruct Hinst as (Hne & _). destruct (build_objective values Hne) as (ex & Ho).
  destruct (ku_terminates values caps ws us (o_compile o) Hpar clk shuffle e sv ex Hb Hs Ho) as (fuel & [e' r] & E).
  exists fuel, (r, e_interrupt e'). unfold run, knapsack_user_run. rewrite Ec. fold sv. now rewrite E.
Qed.

Lemma ku_run_reports fuel r i : run fuel = Some (r, i) -> exists sol, r = Ok sol /\ reports_also values caps ws us (o_timeout o) (o_limit o) sol i.
Proof.
  destruct ku_construct as (e & Ec & Hb). destruct Hinst as (Hne & _). destruct (build_objective values Hne) as (ex & Ho). destruct (options_lims o) as [Ht Hl].
  intros H. unfold run, knapsack_user_run in H. rewrite Ec in H. fold sv in H.
  destruct (knapsack_call clk shuffle fuel e sv (obj values caps ws)) as [[e' r']|] eqn:E; [|discriminate]. injection H as <- <-.
  destruct (ku_call values caps ws us (o_compile o) Hne Hus Hpar clk shuffle e sv ex Hb Hs eq_refl Ho Ht Hl fuel e' r' E) as (sol & E1 & H1 & H2 & H3 & H4).
  exists sol. split; [exact E1|]. split; [exact H1|]. split; [exact H2|]. split.
  - intros Hi. destruct (H3 Hi) as (k & Hk). exists k. now apply options_limit.
  - intros Hi. destruct (H4 Hi) as (k & Hk). exists k. now apply options_timeout.
Qed.

Lemma ku_run_optimal fuel sol i : (forall v, In v values -> 0 <= v) ->
  (length values = 1%nat /\ added us = [] \/ (forall v, In v values -> v = 0) \/ exists i j, i <> j /\ nth i values 0 <> 0 /\ nth j values 0 <> 0) ->
  run fuel = Some (Ok sol, i) -> ks_optimal sol = true ->
  exists v, ks_value sol = Some v /\ forall x, packing_also (length values) caps ws us x -> total x values <= v.
Proof.
  intros Hpos Hcase. destruct ku_construct as (e & Ec & Hb). destruct Hinst as (Hne & _). destruct (build_objective values Hne) as (ex & Ho). destruct (options_lims o) as [Ht Hl].
  intros H. unfold run, knapsack_user_run in H. rewrite Ec in H. fold sv in H.
  destruct (knapsack_call clk shuffle fuel e sv (obj values caps ws)) as [[e' r']|] eqn:E; [|discriminate]. injection H as -> <-.
  exact (ku_optimal values caps ws us (o_compile o) Hne Hus Hpar clk shuffle e sv ex Hb Hs eq_refl Ho Ht Hl fuel e' sol Hpos Hcase E).
Qed.
End Run.
