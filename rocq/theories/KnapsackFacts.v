(** KnapsackOptimizer. *)
From Verif Require Import Knapsack SpecPuzzle Nonogram Queens SpecSafe SpecSolve SpecOptimize ExprFacts ExprProps DictFacts CodeFacts ModelFacts SafeFacts CompileFacts SetupFacts LoopFacts MasterFacts
  SolverProps SolverMore OptimizeFacts OptimizeRun OptimizeProps OptimizeMore NameFacts PuzzleFacts SudokuFacts NonogramFacts SpecFormula SpecKnapsack.
Open Scope list_scope.
Open Scope Z_scope.

(** ** Sums *)

Lemma fold_add l : forall z, fold_left Z.add l z = z + fold_left Z.add l 0.
Proof. induction l as [|v l IH]; intros z; cbn; [lia|]. rewrite IH, (IH v). lia. Qed.

Lemma zsum_prod_total ss : forall cs, zsum_prod ss cs = total ss cs.
Proof.
  unfold zsum_prod, zsum. induction ss as [|s ss IH]; intros [|c cs]; cbn; try reflexivity. rewrite fold_add, IH. reflexivity.
Qed.

Lemma weighted_meaning P a xs : forall cs, meaning P a (weighted xs cs) = Some (total (map a xs) cs).
Proof.
  unfold weighted. induction xs as [|x xs IH]; intros [|c cs]; try reflexivity. cbn [combine map]. specialize (IH cs). cbn [meaning] in *.
  rewrite IH. cbn [meaning arith fst snd total map]. reflexivity.
Qed.

Lemma weighted_fvars xs cs x : In x (fvars (weighted xs cs)) -> In x xs.
Proof.
  unfold weighted. cbn [fvars]. rewrite in_flat_map. intros (g & Hg & Hx). apply in_map_iff in Hg. destruct Hg as ([y c] & <- & Hin).
  apply in_combine_l in Hin. cbn in Hx. destruct Hx as [<-|[]]. exact Hin.
Qed.

Lemma weighted_class xs cs : (forall x, In x xs -> name_ok x = true) ->
  div_ok (weighted xs cs) = true /\ f_arith (weighted xs cs) = true /\ f_str (weighted xs cs) = true.
Proof.
  intros H. unfold weighted. cbn [div_ok f_arith f_str]. repeat split; apply forallb_forall; intros g Hg; apply in_map_iff in Hg;
    destruct Hg as ([y c] & <- & Hin); try reflexivity. apply in_combine_l in Hin. cbn. now rewrite (H y Hin).
Qed.

Lemma total_mono (a b : name -> Z) xs : forall cs, (forall x, In x xs -> a x <= b x) -> (forall c, In c cs -> 0 <= c) ->
  total (map a xs) cs <= total (map b xs) cs.
Proof.
  induction xs as [|x xs IH]; intros [|c cs] H1 H2; cbn; try lia.
  assert (a x * c <= b x * c) by (apply Z.mul_le_mono_nonneg_r; [apply H2; now left|apply H1; now left]).
  specialize (IH cs (fun y Hy => H1 y (or_intror Hy)) (fun d Hd => H2 d (or_intror Hd))). lia.
Qed.

Lemma total_zero x : forall cs, (forall c, In c cs -> c = 0) -> total x cs = 0.
Proof.
  induction x as [|v x IH]; intros [|c cs] H; cbn; try reflexivity. rewrite (H c (or_introl eq_refl)), IH; [lia|]. intros d Hd. apply H. now right.
Qed.

Lemma total_change (a : name -> Z) xs y d : NoDup xs -> forall cs i, nth_error xs i = Some y ->
  total (map (fun x => if String.eqb x y then d else a x) xs) cs = total (map a xs) cs + (d - a y) * nth i cs 0.
Proof.
  intros Hnd. assert (Hsame : forall l cs, ~ In y l -> total (map (fun x => if String.eqb x y then d else a x) l) cs = total (map a l) cs).
  { induction l as [|z l IH]; intros cs H; [reflexivity|]. destruct cs as [|c cs]; [reflexivity|]. cbn. destruct (String.eqb_spec z y) as [->|_]; [exfalso; apply H; now left|].
    rewrite IH; [reflexivity|]. intros H'. apply H. now right. }
  induction xs as [|x xs IH]; intros cs i E; [destruct i; discriminate|]. inversion Hnd; subst.
  destruct i as [|i]; cbn in E.
  - injection E as ->. destruct cs as [|c cs]; cbn; [lia|]. rewrite String.eqb_refl, Hsame by assumption. lia.
  - destruct cs as [|c cs]; cbn; [lia|]. destruct (String.eqb_spec x y) as [->|_]; [exfalso; apply H1; eapply nth_error_In; eauto|].
    rewrite (IH H2 cs i E). lia.
Qed.

(** ** Parameters *)

Lemma str_params e : str_safe e = true -> params e = [].
Proof.
  assert (Hl : forall es, Forall (fun e => str_safe e = true -> params e = []) es -> forallb str_safe es = true -> flat_map params es = []).
  { induction 1 as [|e0 es He _ IH]; intros H; [reflexivity|]. cbn in *. apply andb_true_iff in H. destruct H as [H1 H2]. now rewrite He, IH. }
  induction e as [z|y|p y|e IH|e IH|e IH|o l r IHl IHr|es c IH|es c IH] using expr_ind'; cbn; intros H; try reflexivity; try discriminate; auto.
  rewrite !andb_true_iff in H. destruct H as [[_ H1] H2]. now rewrite IHl, IHr.
Qed.

(** ** A built model is a setting for optimisation *)

Lemma built_faithful P w vs ps cmp : built P w vs ps -> (forall p, In p ps -> p_safe p) -> faithful w cmp (all_cons (w_model w) no_args).
Proof.
  intros Hb Hs c ex Hc Hbd. unfold all_cons in Hc. cbn [x_additional no_args] in Hc. rewrite app_nil_r in Hc.
  destruct cmp; [|now apply (b_code _ _ _ _ Hb)].
  destruct (b_expr _ _ _ _ Hb c ex Hc Hbd) as (f0 & Hp & E). exact (f_safe_build f0 (OExpr ex) (Hs _ Hp) E).
Qed.

Lemma built_noerror P w vs ps : built P w vs ps -> no_error (w_par w) (w_model w) (all_cons (w_model w) no_args).
Proof.
  intros Hb c ex s Hc Hbd Hcc Hd Hall. unfold all_cons in Hc. cbn [x_additional no_args] in Hc. rewrite app_nil_r in Hc. rewrite (b_par _ _ _ _ Hb).
  destruct (b_expr _ _ _ _ Hb c ex Hc Hbd) as (f0 & Hp & E).
  destruct (b_pdef _ _ _ _ Hb _ Hp (val s)) as (v & Hv). exists v. apply (eval_form P (val s) s f0 ex v E); auto.
  intros x Hx. apply dget_val. apply Hall. apply mentions_vars. unfold c_vars. now rewrite Hbd.
Qed.

Lemma built_opt_valid P e vs ps shuffle os : built P (e_world e) vs ps -> shuffles shuffle ->
  (forall x, In x (names_of vs) -> String.get 0 x <> Some "_"%char) ->
  (forall f, In (PForm f) ps -> f_str f = true) ->
  (forall o, In (OObj o) os -> params (o_expr o) = []) ->
  opt_valid shuffle e os no_args.
Proof.
  intros Hb Hs Hn Hf Ho. split; [exact (built_valid P e vs ps shuffle Hb Hs)|]. split; [|split].
  - intros k x Hx Hk. exfalso. rewrite (b_vars _ _ _ _ Hb) in Hx.
    change (In x (dkeys (map (fun p : name * list Z => (fst p, VVar (snd p))) vs))) in Hx. rewrite keys_vs in Hx.
    apply (Hn x Hx). destruct Hk as [-> | ->]; reflexivity.
  - intros c Hc. unfold all_cons in Hc. cbn [x_additional no_args] in Hc. rewrite app_nil_r in Hc. split; [exact (b_fresh _ _ _ _ Hb c Hc)|].
    intros ex Hbd. destruct (b_expr _ _ _ _ Hb c ex Hc Hbd) as (f0 & Hp & E). intros p Hin.
    rewrite (str_params ex) in Hin; [contradiction|]. exact (stro_build f0 (OExpr ex) (Hf _ Hp) E).
  - intros o Hin p Hp. rewrite (Ho o Hin) in Hp. contradiction.
Qed.

(** ** The constructor *)

Lemma check_ints_some l : check_ints (map Some l) = Ok l.
Proof. unfold check_ints. induction l as [|v l IH]; [reflexivity|]. cbn. now rewrite IH. Qed.

Lemma check_rows_some nv nc : forall rows ws, (length ws + length rows <= nv)%nat -> (forall row, In row rows -> length row = nc) ->
  check_rows nv nc ws (map (map Some) rows) = Ok (ws ++ rows).
Proof.
  induction rows as [|row rows IH]; intros ws Hl Hr; [now rewrite app_nil_r|]. cbn [check_rows map length] in *.
  rewrite (proj2 (Nat.leb_gt nv (length ws))) by lia. rewrite map_length, (Hr row (or_introl eq_refl)), Nat.eqb_refl. cbn [negb].
  rewrite check_ints_some. cbn [bind]. rewrite IH; [now rewrite <- app_assoc| |].
  - rewrite app_length. cbn. lia.
  - intros row' H. apply Hr. now right.
Qed.

Section K.
Variables (values caps : list Z) (ws : list (list Z)).
Hypothesis Hne : values <> [].
Let P0 := fun _ : nat => 0.
Let n := length values.
Definition i_ := name1 "i_".
Definition xs_ := map i_ (seq 0 n).
Definition VK : dict (list Z) := flat_map (fun i => [(i_ i, [0; 1])]) (seq 0 n).
Definition f_cap (p : nat * Z) : formula := FBin ULe (weighted xs_ (column (fst p) ws)) (FInt (snd p)).
Definition CK : list pbody := flat_map (fun p => [PForm (f_cap p)]) (enumerate caps).

Lemma i_good i : good_name (i_ i) = true. Proof. now apply name1_good. Qed.
Lemma xs_In x : In x xs_ <-> exists i, (i < n)%nat /\ x = i_ i.
Proof.
  unfold xs_. rewrite in_map_iff. split.
  - intros (i & <- & Hi). apply in_seq in Hi. exists i. split; [lia|reflexivity].
  - intros (i & Hi & ->). exists i. split; [reflexivity|apply in_seq; lia].
Qed.
Lemma xs_ok x : In x xs_ -> name_ok x = true.
Proof. intros H. apply xs_In in H. destruct H as (i & _ & ->). now apply name1_ok. Qed.
Lemma xs_NoDup : NoDup xs_.
Proof.
  unfold xs_. apply FinFun.Injective_map_NoDup; [|apply seq_NoDup]. intros i j E. exact (name1_inj _ _ _ E).
Qed.
Lemma VK_names : names_of VK = xs_.
Proof. unfold VK, xs_, names_of. induction (seq 0 n) as [|i l IH]; [reflexivity|]. cbn [flat_map app map fst]. now rewrite IH. Qed.
Lemma VK_dom x d : In (x, d) VK <-> In x xs_ /\ d = [0; 1].
Proof.
  unfold VK, xs_. rewrite in_flat_map, in_map_iff. split.
  - intros (i & Hi & [E|[]]). injection E as <- <-. split; [exists i; auto|reflexivity].
  - intros [(i & <- & Hi) ->]. exists i. split; [exact Hi|now left].
Qed.

Lemma vars_adds : adds P0 [] (op_for (fun i => op_bind (add_bool_variable (Some (name1 "i_" i))) (fun _ => op_ret (name1 "i_" i))) (seq 0 n)) xs_ VK [].
Proof.
  apply (adds_ext P0 [] (op_for (fun i => op_bind (add_bool_variable (Some (name1 "i_" i))) (fun _ => op_ret (name1 "i_" i))) (seq 0 n)) _ _ VK VK (flat_map (fun _ => []) (seq 0 n)) []);
    [|reflexivity|reflexivity|apply flat_nil].
  apply (adds_for P0 _ i_ (fun i => [(i_ i, [0; 1])]) (fun _ => [])). intros l1 i l2 E. destruct (seq_split_notin _ _ _ _ E) as [Hni Hi]. cbn [app].
  apply (adds_bind P0 _ _ _ (Var (i_ i)) (i_ i) [(i_ i, [0; 1])] [] [] []); [|apply adds_ret].
  apply adds_var; [apply i_good| |].
  - intros H. apply names_flat in H. destruct H as (j & Hj & [Ej|[]]). apply name1_inj in Ej. now subst.
  - repeat constructor; cbn; intuition discriminate.
Qed.

Lemma caps_adds : adds P0 VK (op_for (fun p => add_formula (FBin ULe (weighted xs_ (map (fun row => nth (fst p) row 0) ws)) (FInt (snd p)))) (enumerate caps))
  (map (fun _ => tt) (enumerate caps)) [] CK.
Proof.
  replace (@nil (name * list Z)) with (flat_map (fun _ : nat * Z => @nil (name * list Z)) (enumerate caps)) by apply flat_nil.
  apply (adds_for P0 _ (fun _ => tt) (fun _ => []) (fun p => [PForm (f_cap p)])). intros l1 p l2 E.
  destruct (weighted_class xs_ (column (fst p) ws) xs_ok) as (W1 & W2 & W3).
  change (adds P0 (VK ++ flat_map (fun _ : nat * Z => []) l1) (add_formula (f_cap p)) tt [] [PForm (f_cap p)]).
  apply adds_form.
  - apply not_consts_int.
  - intros x Hx. rewrite names_app, in_app_iff. left. rewrite VK_names. unfold f_cap in Hx. cbn [fvars] in Hx. rewrite app_nil_r in Hx. now apply weighted_fvars in Hx.
  - intros a. unfold f_cap. cbn [meaning]. fold (weighted xs_ (column (fst p) ws)).
    assert (Em := weighted_meaning P0 a xs_ (column (fst p) ws)). unfold weighted in Em. cbn [meaning] in Em. cbn [weighted meaning]. rewrite Em. cbn [arith].
    eexists. reflexivity.
  - unfold f_cap. cbn [div_ok]. rewrite W1. reflexivity.
  - reflexivity.
Qed.

Definition obj : option knapsack := Some (Knapsack values caps ws xs_).

Lemma init_adds rows (again : bool) : instance values caps rows -> ws = (if again then rows else []) ->
  adds P0 [] (knapsack_init (map Some values) (map Some caps) (Weights (map (map Some) rows) again)) obj VK CK.
Proof.
  intros (_ & Hlen & Hrows) Ews. unfold knapsack_init. destruct (map Some values) as [|v0 l0] eqn:Ev; [exfalso; apply Hne; exact (map_eq_nil _ _ Ev)|].
  rewrite <- Ev. cbn [wa_rows wa_again].
  apply (adds_ext P0 [] (op_bind (op_for (fun i => op_bind (add_bool_variable (Some (name1 "i_" i))) (fun _ => op_ret (name1 "i_" i))) (seq 0 n)) (fun xs =>
    op_bind (op_for (fun p => add_formula (FBin ULe (weighted xs (map (fun row => nth (fst p) row 0) ws)) (FInt (snd p)))) (enumerate caps)) (fun _ =>
    op_ret (Some (Knapsack values caps ws xs))))) _ _ (VK ++ [] ++ []) VK ([] ++ CK ++ []) CK).
  - apply (adds_bind P0 [] _ _ xs_); [exact vars_adds|]. apply (adds_bind P0 _ _ _ (map (fun _ => tt) (enumerate caps))); [exact caps_adds|apply adds_ret].
  - intros w. unfold op_bind at 3, op_res. rewrite check_ints_some. unfold op_bind at 3. rewrite check_ints_some. unfold op_bind at 3.
    rewrite check_rows_some; [|cbn; lia|exact Hrows]. cbn [app]. unfold op_bind at 3. rewrite (proj2 (Nat.ltb_ge (length rows) (length values))) by lia.
    rewrite <- Ews. reflexivity.
  - cbn [app]. now rewrite app_nil_r.
  - cbn [app]. now rewrite app_nil_r.
Qed.

Lemma CK_sat a : (forall p, In p CK -> sat P0 a p) <-> forall j, (j < length caps)%nat -> total (map a xs_) (column j ws) <= nth j caps 0.
Proof.
  assert (Hs : forall q, sat P0 a (PForm (f_cap q)) <-> total (map a xs_) (column (fst q) ws) <= snd q).
  { intros q. unfold sat, f_cap.
    assert (E : meaning P0 a (FBin ULe (weighted xs_ (column (fst q) ws)) (FInt (snd q))) = Some (if total (map a xs_) (column (fst q) ws) <=? snd q then 1 else 0)).
    { change (match meaning P0 a (weighted xs_ (column (fst q) ws)) with Some v => arith ULe v (snd q) | None => None end = Some (if total (map a xs_) (column (fst q) ws) <=? snd q then 1 else 0)).
      rewrite weighted_meaning. reflexivity. }
    rewrite E. split.
    - intros (v & Hv & Hz). injection Hv as <-. destruct (Z.leb_spec (total (map a xs_) (column (fst q) ws)) (snd q)); [assumption|contradiction].
    - intros H. exists 1. rewrite (proj2 (Z.leb_le _ _) H). split; [reflexivity|discriminate]. }
  unfold CK. rewrite (enumerate_seq caps 0), flat_map_map. split.
  - intros H j Hj. apply (Hs (j, nth j caps 0)). apply H. apply in_flat_map. exists j. split; [apply in_seq; lia|now left].
  - intros H p Hp. apply in_flat_map in Hp. destruct Hp as (j & Hj & [<-|[]]). apply Hs. apply in_seq in Hj. apply (H j). lia.
Qed.

Lemma CK_form p : In p CK -> exists q, p = PForm (f_cap q).
Proof. unfold CK. rewrite in_flat_map. intros (q & _ & [<-|[]]). eauto. Qed.
Lemma CK_safe p : In p CK -> p_safe p.
Proof.
  intros H. destruct (CK_form p H) as (q & ->). destruct (weighted_class xs_ (column (fst q) ws) xs_ok) as (W1 & W2 & W3).
  unfold p_safe, f_cap. cbn [f_safe f_arith]. rewrite W2. reflexivity.
Qed.
Lemma CK_str f : In (PForm f) CK -> f_str f = true.
Proof.
  intros H. destruct (CK_form _ H) as (q & E). injection E as ->. destruct (weighted_class xs_ (column (fst q) ws) xs_ok) as (W1 & W2 & W3).
  unfold f_cap. cbn [f_str]. rewrite W3. reflexivity.
Qed.

(** ** The objective *)

Lemma xs_length : length xs_ = n. Proof. unfold xs_. now rewrite map_length, seq_length. Qed.
Lemma values_0 : (0 < n)%nat. Proof. unfold n. destruct (length values) eqn:E; [|lia]. apply length_zero_iff_nil in E. contradiction. Qed.

Lemma build_objective : exists o, build (weighted xs_ values) = Ok (OExpr o).
Proof.
  pose proof (weighted_meaning P0 (fun _ => 0) xs_ values) as Hm.
  destruct (weighted_class xs_ values xs_ok) as (W1 & W2 & W3).
  destruct (build_total P0 (fun _ => 0) (map (fun y => (y, 0)) (fvars (weighted xs_ values))) (weighted xs_ values) (total (map (fun _ => 0) xs_) values)) as ([z|o] & Ho).
  - intros x Hx. now apply (dget_map_fun (fun _ => 0)).
  - exact Hm.
  - exact W1.
  - exfalso. assert (E : is_int (OInt z) = false); [|discriminate E]. apply (build_surely_expr (weighted xs_ values)); [|exact Ho].
    cbn [weighted surely_expr]. pose proof values_0. pose proof xs_length as Hl.
    assert (Hg : forall (xs : list name) (vs : list Z), (0 < length xs)%nat -> (0 < length vs)%nat ->
      existsb surely_expr (map (fun p => FBin UMul (FVar (fst p)) (FInt (snd p))) (combine xs vs)) = true).
    { intros [|x xs] [|v vs]; cbn; intros; try lia. }
    apply Hg; [lia|exact H].
  - exists o. exact Ho.
Qed.

Section O.
Variable o : expr.
Hypothesis Ho : build (weighted xs_ values) = Ok (OExpr o).
Let ob := Objective o true.

Lemma o_params : params o = [].
Proof. destruct (weighted_class xs_ values xs_ok) as (_ & _ & W3). apply str_params. exact (stro_build _ (OExpr o) W3 Ho). Qed.

Lemma o_faithful cmp : objective_faithful cmp [OObj ob].
Proof.
  intros _ o' [E|[]]. injection E as <-. destruct (weighted_class xs_ values xs_ok) as (_ & W2 & _).
  destruct (f_arith_build _ (OExpr o) W2 Ho) as [[H1 _] H2]. split; assumption.
Qed.

Lemma o_vars x : occurs x o -> In x xs_.
Proof. intros H. apply vars_occurs in H. apply (weighted_fvars xs_ values). exact (build_vars _ (OExpr o) x Ho H). Qed.

Lemma o_value s : (forall x, occurs x o -> In x (map fst s)) -> evaluate P0 s o = Ok (total (map (val s) xs_) values).
Proof.
  intros H. apply (eval_form P0 (val s) s (weighted xs_ values) o _ Ho); [|apply weighted_meaning].
  intros x Hx. apply vars_occurs in Hx. apply dget_val. now apply H.
Qed.

Lemma o_value_inv s v : value_of P0 ob s v -> v = total (map (val s) xs_) values.
Proof.
  unfold value_of. cbn [o_expr ob]. intros H. rewrite o_value in H; [now injection H as ->|]. intros x Hx. exact (evaluate_occurs _ _ _ _ _ H Hx).
Qed.

Lemma o_occurs i : (i < n)%nat -> nth i values 0 <> 0 -> occurs (i_ i) o.
Proof.
  intros Hi Hnz. destruct (in_dec string_dec (i_ i) (vars o)) as [H|H]; [now apply vars_occurs|exfalso].
  set (a := fun _ : name => 0). set (b := fun x : name => if String.eqb x (i_ i) then 1 else a x).
  assert (E : evaluate P0 (map (fun y => (y, a y)) xs_) o = evaluate P0 (map (fun y => (y, b y)) xs_) o).
  { apply evaluate_agree. intros x Hx. rewrite !dget_map_fun by (now apply o_vars). unfold b. destruct (String.eqb_spec x (i_ i)) as [->|]; [|reflexivity].
    exfalso. apply H. now apply vars_occurs. }
  assert (Hev : forall c : name -> Z, evaluate P0 (map (fun y => (y, c y)) xs_) o = Ok (total (map c xs_) values)).
  { intros c. apply (eval_form P0 c _ (weighted xs_ values) o _ Ho); [|apply weighted_meaning].
    intros x Hx. apply dget_map_fun. apply o_vars. now apply vars_occurs. }
  rewrite (Hev a), (Hev b) in E.
  assert (E' : total (map a xs_) values = total (map b xs_) values) by congruence.
  assert (Hn : nth_error xs_ i = Some (i_ i)).
  { unfold xs_. rewrite nth_error_map, (nth_error_nth' (seq 0 n) 0%nat) by (rewrite seq_length; exact Hi). rewrite seq_nth by exact Hi. reflexivity. }
  pose proof (total_change a xs_ (i_ i) 1 xs_NoDup values i Hn) as E2.
  change (total (map b xs_) values = total (map a xs_) values + (1 - 0) * nth i values 0) in E2. lia.
Qed.
End O.

(** ** A call *)

Section Call.
Variables (clk : nat -> Z) (shuffle : list name -> list name) (e : env) (sv : solver) (o : expr).
Hypothesis Hb : built P0 (e_world e) VK CK.
Hypothesis Hs : shuffles shuffle.
Hypothesis Ho : build (weighted xs_ values) = Ok (OExpr o).
Hypothesis Hto : s_timeout sv <> LInfinity.
Hypothesis Hli : s_limit sv <> LInfinity.
Let m := w_model (e_world e).
Let cs := all_cons m no_args.
Let ob := Objective o true.
Let os := [OObj ob].

Lemma k_valid : opt_valid shuffle e os no_args.
Proof.
  apply (built_opt_valid P0 e VK CK shuffle os Hb Hs).
  - rewrite VK_names. intros x Hx. apply xs_In in Hx. destruct Hx as (i & _ & ->). discriminate.
  - exact CK_str.
  - intros o' [E|[]]. injection E as <-. exact (o_params o Ho).
Qed.

Lemma k_par : w_par (e_world e) = P0. Proof. exact (b_par _ _ _ _ Hb). Qed.
Lemma k_faithful : faithful (e_world e) (s_compile sv) cs. Proof. exact (built_faithful _ _ _ _ _ Hb CK_safe). Qed.
Lemma k_noerror : no_error (w_par (e_world e)) m cs. Proof. exact (built_noerror _ _ _ _ Hb). Qed.
Lemma k_obj : objective_faithful (s_compile sv) os. Proof. exact (o_faithful o Ho _). Qed.
Lemma k_var x d : is_variable m x d <-> In x xs_ /\ d = [0; 1].
Proof. rewrite <- VK_dom. exact (is_variable_vs _ _ _ _ _ _ Hb). Qed.
Lemma k_hasvar : has_variable m.
Proof. exists (i_ 0), [0; 1]. apply k_var. split; [apply xs_In; exists 0%nat; split; [apply values_0|reflexivity]|reflexivity]. Qed.
Lemma k_total : objectives_total m (w_par (e_world e)) os.
Proof.
  intros o' [E|[]]. injection E as <-. split.
  - intros x Hx. exists [0; 1]. apply k_var. split; [exact (o_vars o Ho x Hx)|reflexivity].
  - intros s _ Hk. rewrite k_par. eexists. exact (o_value o Ho s Hk).
Qed.

Lemma k_assigns s : assigns m s -> (forall x, In x xs_ <-> In x (map fst s)) /\ forall x, In x xs_ -> dget s x = Some (val s x) /\ (val s x = 0 \/ val s x = 1).
Proof.
  intros (Hnd & Hk & Hv). assert (Hkeys : forall x, In x xs_ <-> In x (map fst s)).
  { intros x. rewrite Hk. split; [intros H; exists [0; 1]; now apply k_var|intros (d & H); apply k_var in H; apply H]. }
  split; [exact Hkeys|]. intros x Hx. assert (Hg : dget s x = Some (val s x)) by (apply dget_val; now apply Hkeys). split; [exact Hg|].
  assert (Hin : In (val s x) [0; 1]). { apply (Hv x); [now apply dget_In|]. now apply k_var. } destruct Hin as [E|[E|[]]]; auto.
Qed.

Lemma k_sound s : m_solvable m = true -> solves (holds (w_par (e_world e))) m cs s -> packing n caps ws (map (val s) xs_).
Proof.
  intros Hsol [Ha Hc]. destruct (k_assigns s Ha) as [Hk Hd]. rewrite k_par in Hc. split; [now rewrite map_length, xs_length|]. split.
  - intros v Hv. apply in_map_iff in Hv. destruct Hv as (x & <- & Hx). now apply Hd.
  - apply CK_sat. intros p Hp. destruct (b_into _ _ _ _ Hb p Hp) as [(c & Hcin & Hr)|[Ht|[E _]]]; [|apply Ht|fold m in E; congruence].
    fold m in Hcin. assert (Hcs : In c cs) by (unfold cs, all_cons; cbn [x_additional no_args]; now rewrite app_nil_r).
    pose proof (b_concerns P0 e VK CK Hb c Hsol Hcs) as Hcc.
    apply (holds_sat P0 s (val s) c p Hr (b_pdef _ _ _ _ Hb p Hp)).
    + intros x Hx. apply Hd. apply mentions_vars in Hx. apply (proj2 Hcc) in Hx. destruct Hx as (d & Hx). apply k_var in Hx. apply Hx.
    + now apply Hc.
Qed.

Lemma k_complete x : packing n caps ws x -> m_solvable m = true /\
  solves (holds (w_par (e_world e))) m cs (combine xs_ x) /\ map (val (combine xs_ x)) xs_ = x.
Proof.
  intros (Hl & H01 & Hw). set (t := combine xs_ x). assert (El : length xs_ = length x) by (rewrite xs_length; congruence).
  assert (Hn : names_of t = xs_) by now apply names_combine.
  assert (Hnd : NoDup (names_of t)) by (rewrite Hn; exact xs_NoDup).
  assert (Hm : map (val t) xs_ = x). { apply map_combine; [exact El|]. intros y v Hin. now apply val_In. }
  assert (Hsat : forall p, In p CK -> sat P0 (val t) p) by (apply CK_sat; rewrite Hm; exact Hw).
  assert (Hsol : m_solvable m = true).
  { destruct (m_solvable m) eqn:E; [reflexivity|]. destruct (b_solv _ _ _ _ Hb E) as (p & Hp & Hno). exfalso. exact (Hno (val t) (Hsat p Hp)). }
  split; [exact Hsol|]. split; [|exact Hm]. split.
  - split; [exact Hnd|]. split.
    + intros y. change (map fst t) with (names_of t). rewrite Hn. split; [intros H; exists [0; 1]; now apply k_var|intros (d & H); apply k_var in H; apply H].
    + intros y v d Hin Hd. apply k_var in Hd. destruct Hd as [_ ->]. apply in_combine_r in Hin. destruct (H01 v Hin) as [-> | ->]; cbn; auto.
  - intros c Hc Hcc. rewrite k_par. unfold cs, all_cons in Hc. cbn [x_additional no_args] in Hc. rewrite app_nil_r in Hc.
    destruct (b_from _ _ _ _ Hb c Hc (b_some _ _ _ _ Hb Hsol c Hc)) as (p & Hp & Hr).
    apply (holds_sat P0 t (val t) c p Hr (b_pdef _ _ _ _ Hb p Hp)); [|now apply Hsat].
    intros y Hy. apply dget_val. change (In y (names_of t)). rewrite Hn. apply (b_closed _ _ _ _ Hb c y Hc) in Hy. now rewrite VK_names in Hy.
Qed.

Lemma k_terminates : exists fuel out, knapsack_call clk shuffle fuel e sv obj = Some out.
Proof.
  destruct (optimize_terminates clk shuffle e sv os no_args k_valid) as (fuel & [[ys e'] r] & E). exists fuel.
  unfold knapsack_call. cbn [obj k_variables k_values]. rewrite Ho. unfold optimal_solution. fold ob os. rewrite E.
  destruct r as [ex|]; [eexists; reflexivity|]. destruct (last_solution ys) as [s|]; [|eexists; reflexivity].
  destruct (mapM _ _); eexists; reflexivity.
Qed.

Lemma k_ends fuel ys e' r : optimize_all clk shuffle fuel e sv os no_args = Some (ys, e', r) ->
  r = None /\ (e_interrupt e' = Some ILimit -> exists k, s_limit sv = LNum k) /\ (e_interrupt e' = Some ITimeout -> exists t, s_timeout sv = LNum t).
Proof.
  intros H. assert (Hoo : ~ In OOther os) by (intros [E|[]]; discriminate). destruct (m_solvable m) eqn:Hsol.
  - destruct (opt_ends clk shuffle fuel e sv os no_args ys e' r k_valid H k_faithful k_noerror k_obj Hoo (b_groups P0 e VK CK Hb Hsol) k_total Hto Hli) as (E & H1 & H2).
    split; [exact E|]. split; [|exact H2]. intros Ei. destruct (H1 Ei) as (k & E1 & _). exists k. exact E1.
  - destruct (opt_unsolvable clk shuffle fuel e sv os no_args ys e' r k_valid H Hsol Hoo) as (_ & E & Ei). split; [exact E|]. rewrite Ei. split; discriminate.
Qed.

Lemma call_spec fuel e' r : knapsack_call clk shuffle fuel e sv obj = Some (e', r) ->
  exists sol, r = Ok sol /\
    match ks_solution sol with
    | Some x => packing n caps ws x /\ ks_value sol = Some (total x values) /\ ks_weights sol = Some (map (fun j => total x (column j ws)) (seq 0 (length caps)))
    | None => ks_value sol = None /\ ks_weights sol = None /\ (e_interrupt e' = None -> forall x, ~ packing n caps ws x)
    end /\
    (ks_optimal sol = true <-> ks_solution sol <> None /\ e_interrupt e' = None) /\
    (e_interrupt e' = Some ILimit -> exists k, s_limit sv = LNum k) /\ (e_interrupt e' = Some ITimeout -> exists t, s_timeout sv = LNum t).
Proof.
  unfold knapsack_call. cbn [obj k_variables k_values k_weights k_capacities]. rewrite Ho. fold ob os. intros H.
  destruct (optimal_solution clk shuffle fuel e sv os no_args) as [[e1 r1]|] eqn:E; [|discriminate].
  destruct (optimal_run _ _ _ _ _ _ _ _ _ E) as (ys & r0 & Hrun & Hr). destruct (k_ends fuel ys e1 r0 Hrun) as (-> & Hi).
  subst r1. pose proof E as Eflag. apply optimal_flag in Eflag.
  destruct (last_solution ys) as [s|] eqn:El.
  - pose proof (optimal_feasible_holds clk shuffle fuel e sv os no_args e1 k_valid k_faithful k_noerror _ s E) as Hsv.
    destruct (opt_nonempty clk shuffle fuel e sv os no_args e1 k_valid ys None Hrun) as [Hsol _]; [intros ->; discriminate|].
    pose proof (k_sound s Hsol Hsv) as Hp. destruct (k_assigns s (proj1 Hsv)) as [_ Hd].
    rewrite (mapM_Ok (get_item s) (val s)) in H by (intros x Hx; unfold get_item; now rewrite (proj1 (Hd x Hx))).
    injection H as <- <-. eexists. split; [reflexivity|]. cbn [ks_solution ks_value ks_weights ks_optimal]. split; [split; [exact Hp|split]|split].
    + now rewrite zsum_prod_total.
    + f_equal. apply map_ext. intros j. now rewrite zsum_prod_total.
    + rewrite Eflag. split; intros [_ A]; split; try exact A; discriminate.
    + exact Hi.
  - injection H as <- <-. eexists. split; [reflexivity|]. cbn [ks_solution ks_value ks_weights ks_optimal]. split; [split; [reflexivity|split; [reflexivity|]]|split].
    + intros Ei x Hx. destruct (k_complete x Hx) as (Hsol & Hsv & _).
      apply (optimal_none clk shuffle fuel e sv os no_args e1 k_valid k_faithful k_noerror k_obj _ _ E Ei Hsol k_hasvar Hsv).
      intros o' [E'|[]]. injection E' as <-. rewrite k_par. eexists. apply (o_value o Ho). intros y Hy.
      apply (k_assigns _ (proj1 Hsv)). exact (o_vars o Ho y Hy).
    + rewrite Eflag. tauto.
    + exact Hi.
Qed.

Lemma k_along : (forall v, In v values -> 0 <= v) -> improves_along m (w_par (e_world e)) ob.
Proof.
  intros Hv s x d v v' a b Hd Hx Hbf Ha Hb'. rewrite k_par in Ha, Hb'. apply (o_value_inv o Ho) in Ha, Hb'. subst a b. unfold better. cbn [o_max ob].
  apply k_var in Hx. destruct Hx as [_ ->]. assert (Hvv : v = 0 /\ v' = 1).
  { destruct Hbf as (l1 & l2 & l3 & E). destruct l1 as [|z1 [|z2 l1]]; cbn in E.
    - injection E as <- E. destruct l2 as [|z l2]; cbn in E; [injection E as <- _; auto|]. injection E as _ E. destruct l2; discriminate.
    - injection E as _ _ E. destruct l2; discriminate.
    - injection E as _ _ E. destruct l1; discriminate. }
  destruct Hvv as [-> ->]. assert (Hle : total (map (val ((x, 0) :: s)) xs_) values <= total (map (val ((x, 1) :: s)) xs_) values); [|lia].
  apply total_mono; [|exact Hv]. intros y _. unfold val, dget_or. cbn. destruct (String.eqb y x); lia.
Qed.

Lemma call_optimal fuel e' sol : (forall v, In v values -> 0 <= v) ->
  (length values = 1%nat \/ (forall v, In v values -> v = 0) \/ exists i j, i <> j /\ nth i values 0 <> 0 /\ nth j values 0 <> 0) ->
  knapsack_call clk shuffle fuel e sv obj = Some (e', Ok sol) -> ks_optimal sol = true ->
  exists v, ks_value sol = Some v /\ forall x, packing n caps ws x -> total x values <= v.
Proof.
  intros Hpos Hcase H Hopt. destruct (call_spec fuel e' (Ok sol) H) as (sol' & E1 & Hsol & Hfl & _). injection E1 as <-.
  destruct (ks_solution sol) as [x0|] eqn:Es; [|exfalso; apply Hfl in Hopt; now destruct Hopt].
  destruct Hsol as (Hp0 & Hval & _). exists (total x0 values). split; [exact Hval|]. intros x Hx.
  destruct Hcase as [Hcase|[Hz|Hcase]]; [|rewrite !total_zero by exact Hz; lia|].
  all: unfold knapsack_call in H; cbn [obj k_variables k_values k_weights k_capacities] in H; rewrite Ho in H; fold ob os in H;
    destruct (optimal_solution clk shuffle fuel e sv os no_args) as [[e1 [[flag [s|]]|ex]]|] eqn:E; try discriminate H; [|injection H as _ <-; discriminate Es];
    destruct (mapM (get_item s) xs_) as [sel|ex] eqn:Em; [|discriminate H]; injection H as <- <-; cbn [ks_solution ks_optimal] in Es, Hopt; injection Es as <-; subst flag;
    pose proof (optimal_feasible_holds clk shuffle fuel e sv os no_args e1 k_valid k_faithful k_noerror _ s E) as Hsv;
    destruct (k_assigns s (proj1 Hsv)) as [Hk Hd];
    rewrite (mapM_Ok (get_item s) (val s)) in Em by (intros y Hy; unfold get_item; now rewrite (proj1 (Hd y Hy))); injection Em as <-;
    destruct (optimal_best clk shuffle fuel e sv os no_args e1 k_valid k_faithful k_noerror k_obj ob s eq_refl E (k_along Hpos)) as (_ & v & Hv & Hbest).
  - right. right. assert (Hx1 : xs_ = [i_ 0]) by (unfold xs_, n; rewrite Hcase; reflexivity).
    destruct Hsv as [(Hnd & _ & _) _]. destruct s as [|[y v] [|[z w] l]].
    + exfalso. assert (Hin : In (i_ 0) xs_) by (rewrite Hx1; now left). apply Hk in Hin. contradiction.
    + exists y, v, []. split; [|reflexivity]. intros z Hz. apply (o_vars o Ho) in Hz. assert (Hy : In y xs_) by (apply Hk; now left).
      rewrite Hx1 in Hz, Hy. destruct Hz as [<-|[]], Hy as [<-|[]]. reflexivity.
    + exfalso. assert (Hy : In y xs_) by (apply Hk; now left). assert (Hz : In z xs_) by (apply Hk; right; now left).
      rewrite Hx1 in Hz, Hy. destruct Hz as [<-|[]], Hy as [<-|[]]. inversion Hnd as [|? ? Hni]. apply Hni. now left.
  - destruct (k_complete x Hx) as (_ & Hsx & Ex). apply (o_value_inv o Ho) in Hv as Ev || (rewrite k_par in Hv; apply (o_value_inv o Ho) in Hv as Ev).
    assert (Hvx : value_of (w_par (e_world e)) ob (combine xs_ x) (total x values)).
    { rewrite k_par. unfold value_of. cbn [o_expr ob]. rewrite (o_value o Ho); [now rewrite Ex|]. intros y Hy. apply (k_assigns _ (proj1 Hsx)). exact (o_vars o Ho y Hy). }
    specialize (Hbest _ _ Hsx Hvx). unfold better in Hbest. cbn [o_max ob] in Hbest. lia.
  - right. left. destruct Hcase as (i & j & Hij & Hi & Hj). exists (i_ i), (i_ j).
    assert (Hr : forall k, nth k values 0 <> 0 -> (k < n)%nat) by (intros k Hk'; destruct (Nat.lt_ge_cases k n) as [|C]; [assumption|]; unfold n in C; now rewrite nth_overflow in Hk').
    split; [intros C; apply Hij; exact (name1_inj _ _ _ C)|]. split; apply (o_occurs o Ho); auto.
  - destruct (k_complete x Hx) as (_ & Hsx & Ex). apply (o_value_inv o Ho) in Hv as Ev || (rewrite k_par in Hv; apply (o_value_inv o Ho) in Hv as Ev).
    assert (Hvx : value_of (w_par (e_world e)) ob (combine xs_ x) (total x values)).
    { rewrite k_par. unfold value_of. cbn [o_expr ob]. rewrite (o_value o Ho); [now rewrite Ex|]. intros y Hy. apply (k_assigns _ (proj1 Hsx)). exact (o_vars o Ho y Hy). }
    specialize (Hbest _ _ Hsx Hvx). unfold better in Hbest. cbn [o_max ob] in Hbest. lia.
Qed.
End Call.
End K.

(** ** Programs *)

Lemma options_lims o : s_timeout (options_solver GROUPS o) <> LInfinity /\ s_limit (options_solver GROUPS o) <> LInfinity.
Proof. apply new_solver_lims. Qed.
Lemma options_limit o k : s_limit (options_solver GROUPS o) = LNum k -> o_limit o = LNum k.
Proof. cbn. destruct (o_limit o); cbn; congruence. Qed.
Lemma options_timeout o k : s_timeout (options_solver GROUPS o) = LNum k -> o_timeout o = LNum k.
Proof. cbn. destruct (o_timeout o); cbn; congruence. Qed.

Section Run.
Variables (clk : nat -> Z) (shuffle : list name -> list name) (o : options) (values caps : list Z) (rows : list (list Z)) (again : bool).
Hypothesis Hinst : instance values caps rows.
Hypothesis Hs : shuffles shuffle.
Let ws := if again then rows else [].
Let run fuel := knapsack_run clk shuffle fuel (map Some values) (map Some caps) (Weights (map (map Some) rows) again) o.

Lemma run_construct : exists e, construct (knapsack_init (map Some values) (map Some caps) (Weights (map (map Some) rows) again)) = Ok (obj values caps ws, e) /\
  built (fun _ => 0) (e_world e) (VK values) (CK values caps ws).
Proof. apply adds_construct. destruct Hinst as (Hne & _). now apply init_adds. Qed.

Lemma knapsack_terminates : exists fuel out, run fuel = Some out.
Proof.
  destruct run_construct as (e & Ec & Hb). destruct Hinst as (Hne & _). destruct (build_objective values Hne) as (ex & Ho).
  destruct (k_terminates values caps ws clk shuffle e (options_solver GROUPS o) ex Hb Hs Ho) as (fuel & [e' r] & E).
  exists fuel, (r, e_interrupt e'). unfold run, knapsack_run. now rewrite Ec, E.
Qed.

Lemma knapsack_reports fuel r i : run fuel = Some (r, i) -> exists sol, r = Ok sol /\ reports values caps ws (o_timeout o) (o_limit o) sol i.
Proof.
  destruct run_construct as (e & Ec & Hb). destruct Hinst as (Hne & _). destruct (build_objective values Hne) as (ex & Ho). destruct (options_lims o) as [Ht Hl].
  intros H. unfold run, knapsack_run in H. rewrite Ec in H.
  destruct (knapsack_call clk shuffle fuel e (options_solver GROUPS o) (obj values caps ws)) as [[e' r']|] eqn:E; [|discriminate]. injection H as <- <-.
  destruct (call_spec values caps ws Hne clk shuffle e (options_solver GROUPS o) ex Hb Hs Ho Ht Hl fuel e' r' E) as (sol & E1 & H1 & H2 & H3 & H4).
  exists sol. split; [exact E1|]. split; [exact H1|]. split; [exact H2|]. split.
  - intros Hi. destruct (H3 Hi) as (k & Hk). exists k. now apply options_limit.
  - intros Hi. destruct (H4 Hi) as (k & Hk). exists k. now apply options_timeout.
Qed.

Lemma knapsack_optimal fuel sol i : (forall v, In v values -> 0 <= v) ->
  (length values = 1%nat \/ (forall v, In v values -> v = 0) \/ exists i j, i <> j /\ nth i values 0 <> 0 /\ nth j values 0 <> 0) ->
  run fuel = Some (Ok sol, i) -> ks_optimal sol = true ->
  exists v, ks_value sol = Some v /\ forall x, packing (length values) caps ws x -> total x values <= v.
Proof.
  intros Hpos Hcase. destruct run_construct as (e & Ec & Hb). destruct Hinst as (Hne & _). destruct (build_objective values Hne) as (ex & Ho). destruct (options_lims o) as [Ht Hl].
  intros H. unfold run, knapsack_run in H. rewrite Ec in H.
  destruct (knapsack_call clk shuffle fuel e (options_solver GROUPS o) (obj values caps ws)) as [[e' r']|] eqn:E; [|discriminate]. injection H as -> <-.
  exact (call_optimal values caps ws Hne clk shuffle e (options_solver GROUPS o) ex Hb Hs Ho Ht Hl fuel e' sol Hpos Hcase E).
Qed.
End Run.

(** ** Arguments accepted and rejected *)

Lemma check_ints_inv l r : check_ints l = r -> (exists l', l = map Some l' /\ r = Ok l') \/ (In None l /\ r = Err TypeError).
Proof.
  revert r. induction l as [|[z|] l IH]; intros r E; cbn in E.
  - left. exists []. auto.
  - unfold check_ints in IH. destruct (IH _ eq_refl) as [(l' & -> & E')|[Hin E']]; rewrite E' in E; cbn in E.
    + left. exists (z :: l'). split; [reflexivity|congruence].
    + right. split; [now right|congruence].
  - right. split; [now left|congruence].
Qed.

Lemma check_rows_inv nv nc : forall rows ws r, (length ws <= nv)%nat -> check_rows nv nc ws rows = r ->
  (exists rows', rows = map (map Some) rows' /\ r = Ok (ws ++ rows') /\ (length ws + length rows' <= nv)%nat /\ forall row, In row rows' -> length row = nc) \/
  r = Err TypeError \/ r = Err ValueError.
Proof.
  induction rows as [|row rows IH]; intros ws r Hl E; cbn [check_rows] in E.
  - left. exists []. rewrite app_nil_r. repeat split; auto; [cbn; lia|intros row []].
  - destruct (Nat.leb_spec nv (length ws)) as [H|H]; [auto|]. destruct (Nat.eqb_spec (length row) nc) as [Hr|]; cbn [negb] in E; [|auto].
    destruct (check_ints_inv row _ eq_refl) as [(row' & -> & E')|[_ E']]; rewrite E' in E; cbn [bind] in E; [|auto].
    destruct (IH (ws ++ [row']) r) as [(rows' & -> & -> & H1 & H2)|H1]; [rewrite app_length; cbn; lia|exact E| |auto].
    left. exists (row' :: rows'). split; [reflexivity|]. split; [now rewrite <- app_assoc|]. rewrite app_length in H1. cbn in H1. split; [cbn; lia|].
    intros r0 [<-|Hin]; [now rewrite map_length in Hr|auto].
Qed.

Lemma knapsack_rejects values caps w : values <> [] ->
  (exists values' caps' rows, values = map Some values' /\ caps = map Some caps' /\ wa_rows w = map (map Some) rows /\ instance values' caps' rows /\
     exists k e, construct (knapsack_init values caps w) = Ok (k, e)) \/
  ((forall values' caps' rows, values = map Some values' -> caps = map Some caps' -> wa_rows w = map (map Some) rows -> ~ instance values' caps' rows) /\
   exists ex, (ex = TypeError \/ ex = ValueError) /\ construct (knapsack_init values caps w) = Err ex).
Proof.
  intros Hne. destruct w as [rs again]. cbn [wa_rows].
  assert (Hinj : forall l l' : list Z, map Some l = map Some l' -> l = l').
  { induction l as [|a l IH]; intros [|b l'] E; try discriminate; [reflexivity|]. cbn in E. injection E as -> E. f_equal. auto. }
  assert (Hinj2 : forall l l' : list (list Z), map (map Some) l = map (map Some) l' -> l = l').
  { induction l as [|a l IH]; intros [|b l'] E; try discriminate; [reflexivity|]. cbn [map] in E. injection E as E1 E. f_equal; auto. }
  assert (Hnone : forall l : list Z, ~ In None (map Some l)). { intros l H. apply in_map_iff in H. destruct H as (z & E & _). discriminate. }
  assert (Hunf : forall ex, op_bind (op_res (check_ints values)) (fun vs => op_bind (op_res (check_ints caps)) (fun cs =>
      op_bind (op_res (check_rows (length vs) (length cs) [] rs)) (fun ws => op_res (if (length ws <? length vs)%nat then Err ValueError else Ok tt)))) init_world = (init_world, Err ex) ->
    construct (knapsack_init values caps (Weights rs again)) = Err ex).
  { intros ex H. unfold construct, knapsack_init. destruct values as [|v0 vl]; [contradiction|]. unfold op_bind at 1, op_res at 1. unfold op_bind at 1, op_res at 1 in H.
    destruct (check_ints (v0 :: vl)) as [vs|]; [|injection H as ->; reflexivity]. unfold op_bind at 1, op_res at 1. unfold op_bind at 1, op_res at 1 in H.
    destruct (check_ints caps) as [cs|]; [|injection H as ->; reflexivity]. unfold op_bind at 1, op_res at 1. unfold op_bind at 1, op_res at 1 in H. cbn [wa_rows].
    destruct (check_rows _ _ _ rs) as [ws|]; [|injection H as ->; reflexivity]. unfold op_bind at 1, op_res at 1. unfold op_res at 1 in H.
    destruct (_ <? _)%nat; [injection H as <-; reflexivity|discriminate]. }
  destruct (check_ints_inv values _ eq_refl) as [(vs & -> & E1)|[Hin E1]]; rewrite E1 in Hunf.
  2: { right. split; [intros ? ? ? -> _ _; destruct (Hnone _ Hin)|exists TypeError; split; [auto|now apply Hunf]]. }
  destruct (check_ints_inv caps _ eq_refl) as [(cs & -> & E2)|[Hin E2]]; rewrite E2 in Hunf.
  2: { right. split; [intros ? ? ? _ -> _; destruct (Hnone _ Hin)|exists TypeError; split; [auto|now apply Hunf]]. }
  change (forall ex, op_bind (op_res (check_rows (length vs) (length cs) [] rs)) (fun ws => op_res (if (length ws <? length vs)%nat then Err ValueError else Ok tt)) init_world = (init_world, Err ex) ->
    construct (knapsack_init (map Some vs) (map Some cs) (Weights rs again)) = Err ex) in Hunf.
  destruct (check_rows_inv (length vs) (length cs) rs [] _ (Nat.le_0_l _) eq_refl) as [(rows & Er & E3 & Hle & Hrow)|E3].
  - rewrite E3 in Hunf. cbn [app] in Hunf. destruct (Nat.ltb_spec (length rows) (length vs)) as [Hlt|Hge].
    + right. split.
      * intros v' c' r' Ev Ec Er' (H1 & H2 & H3). apply Hinj in Ev. subst v'. rewrite Er in Er'. apply Hinj2 in Er'. subst r'. lia.
      * exists ValueError. split; [auto|]. apply Hunf. unfold op_bind, op_res. now rewrite (proj2 (Nat.ltb_lt _ _) Hlt).
    + assert (Hi : instance vs cs rows). { split; [intros ->; now apply Hne|]. cbn in Hle. split; [lia|exact Hrow]. }
      left. exists vs, cs, rows. split; [reflexivity|]. split; [reflexivity|]. split; [exact Er|]. split; [exact Hi|].
      destruct (run_construct vs cs rows again Hi) as (e & E & _). rewrite Er. eauto.
  - right. split.
    + intros v' c' r' Ev Ec Er' (H1 & H2 & H3). apply Hinj in Ev. apply Hinj in Ec. subst v' c'.
      rewrite Er' in E3. rewrite check_rows_some in E3; [destruct E3; discriminate|cbn; lia|assumption].
    + destruct E3 as [E3|E3]; rewrite E3 in Hunf; [exists TypeError|exists ValueError]; (split; [auto|now apply Hunf]).
Qed.

Lemma knapsack_empty clk shuffle fuel caps w o : knapsack_run clk shuffle fuel [] caps w o = Some (Err AttributeError, None).
Proof. reflexivity. Qed.
