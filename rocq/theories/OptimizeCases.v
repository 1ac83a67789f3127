(** Concrete programs used by Properties_Optimize.v. *)
From Coq Require Import Permutation.
From Verif Require Import Optimize SpecFormula SpecSafe SpecSolve SpecOptimize ExprFacts DictFacts ModelFacts CompileFacts
  SetupFacts SolveFacts MasterFacts HistoryFacts TotalFacts SolverProps SolverMore SolverCases OptimizeProps OptimizeMore.
Open Scope string_scope.
Open Scope list_scope.
Open Scope Z_scope.

(** *** x, y in 0..2, x + y <= 3, maximise 2x + y. *)
Definition c_sum : expr := Bin OLe (Bin OAdd (Var "x") (Var "y")) (Const 3).
Definition h_opt : list api :=
  [AddInt [0; 1; 2] (Some "x"); AddInt [0; 1; 2] (Some "y"); AddConstraint (AExpr c_sum)].
Definition b_opt (id : nat) : cbody := CExpr c_sum.
Definition e_opt : env := new_env (run_history h_opt init_world).
Definition o_max2 : objective := Objective (Bin OAdd (Bin OMul (Const 2) (Var "x")) (Var "y")) true.
Definition os_opt : list oarg := [OObj o_max2].
Definition all_opt := optimize_all clk0 noshuffle 200 e_opt default_solver os_opt no_args.

Lemma opt_case_valid os : (forall o, In (OObj o) os -> params (o_expr o) = []) -> opt_valid noshuffle e_opt os no_args.
Proof.
  intros H. apply (opt_valid_reachable b_opt h_opt); try reflexivity.
  - cbn -[str_nat]. repeat split.
  - cbn -[str_nat]. repeat split. intros p [].
  - intros c [].
  - intros c [].
  - intros o Ho p Hp. rewrite (H o Ho) in Hp. destruct Hp.
  - apply noshuffle_ok.
Qed.

Lemma opt_case_cons c : In c (all_cons (w_model (e_world e_opt)) no_args) -> c = Constraint 0 (CExpr c_sum).
Proof. intros [<-|[]]. reflexivity. Qed.

Lemma opt_case_no_error : no_error (w_par (e_world e_opt)) (w_model (e_world e_opt)) (all_cons (w_model (e_world e_opt)) no_args).
Proof. apply no_error_total. intros c e Hc Hb. rewrite (opt_case_cons c Hc) in Hb. inversion Hb. reflexivity. Qed.

Lemma opt_case_faithful b : faithful (e_world e_opt) b (all_cons (w_model (e_world e_opt)) no_args).
Proof. intros c e Hc Hb. rewrite (opt_case_cons c Hc) in *. inversion Hb; subst. destruct b; reflexivity. Qed.

Lemma opt_case_groups : groups_ok (w_model (e_world e_opt)) (all_cons (w_model (e_world e_opt)) no_args).
Proof. intros c xs Hc Hb. rewrite (opt_case_cons c Hc) in Hb. discriminate. Qed.

Lemma opt_case_variable x d : is_variable (w_model (e_world e_opt)) x d <-> (x = "x" \/ x = "y") /\ d = [0; 1; 2].
Proof.
  unfold is_variable. cbn. split.
  - intros [E|[E|[]]]; inversion E; auto.
  - intros [[->| ->] ->]; auto.
Qed.

Lemma opt_case_has : has_variable (w_model (e_world e_opt)).
Proof. exists "x", [0; 1; 2]. apply opt_case_variable. auto. Qed.

Lemma opt_case_obj : objective_faithful true os_opt.
Proof. intros _ o [E|[]]. inversion E. split; [reflexivity|vm_compute; lia]. Qed.

Lemma before012 v v' : before [0; 1; 2] v v' -> v < v'.
Proof.
  intros (l1 & l2 & l3 & E).
  assert (Hin : forall x, In x (l1 ++ v :: l2 ++ v' :: l3) -> x = 0 \/ x = 1 \/ x = 2).
  { rewrite <- E. intros x [<-|[<-|[<-|[]]]]; auto. }
  destruct l1 as [|a1 [|a2 [|a3 [|a4 l1]]]]; cbn in E; inversion E; subst; clear E; try discriminate.
  - destruct l2 as [|b1 [|b2 [|b3 l2]]]; cbn in *; try lia; try (injection H1; intros; subst; lia); discriminate.
  - destruct l2 as [|b1 [|b2 l2]]; cbn in *; try (injection H2; intros; subst; lia); discriminate.
  - destruct l2; discriminate.
Qed.

Lemma opt_case_value ps s v : value_of ps o_max2 s v <->
  exists a b, dget s "x" = Some a /\ dget s "y" = Some b /\ v = 2 * a + b.
Proof.
  unfold value_of. cbn. destruct (dget s "x") as [p|], (dget s "y") as [q|]; cbn; split.
  - intros E. injection E as <-. exists p, q. auto.
  - intros (p' & q' & E1 & E2 & ->). injection E1 as <-. injection E2 as <-. reflexivity.
  - discriminate.
  - intros (p' & q' & E1 & E2 & ->). discriminate.
  - discriminate.
  - intros (p' & q' & E1 & E2 & ->). discriminate.
  - discriminate.
  - intros (p' & q' & E1 & E2 & ->). discriminate.
Qed.

Lemma opt_case_strict ps : improves_strictly (w_model (e_world e_opt)) ps o_max2.
Proof.
  intros s x d v v' a b _ Hx Hb Ha Hb'. apply opt_case_variable in Hx. destruct Hx as [Hx ->]. apply before012 in Hb.
  apply opt_case_value in Ha. apply opt_case_value in Hb'. destruct Ha as (p & q & E1 & E2 & ->), Hb' as (p' & q' & E3 & E4 & ->).
  unfold better. cbn [o_max o_max2]. destruct Hx as [->| ->]; cbn -[Z.mul Z.add Z.lt] in *.
  - injection E1 as <-. injection E3 as <-. rewrite E2 in E4. injection E4 as <-. lia.
  - injection E2 as <-. injection E4 as <-. rewrite E1 in E3. injection E3 as <-. lia.
Qed.

Lemma opt_case_along ps : improves_along (w_model (e_world e_opt)) ps o_max2.
Proof.
  intros s x d v v' a b H1 H2 H3 H4 H5 H6. pose proof (opt_case_strict ps s x d v v' a b H1 H2 H3 H4 H5) as H.
  unfold better in *. cbn in *. lia.
Qed.

Lemma opt_case_two : exists x y, x <> y /\ occurs x (o_expr o_max2) /\ occurs y (o_expr o_max2).
Proof. exists "x", "y". split; [discriminate|]. split; apply vars_occurs; cbn; auto. Qed.

Lemma opt_case_total ps : objectives_total (w_model (e_world e_opt)) ps os_opt.
Proof.
  intros o [E|[]]. injection E as <-. split.
  - intros x Hx. apply vars_occurs in Hx. exists [0; 1; 2]. apply opt_case_variable. cbn in Hx. intuition.
  - intros s _ Hin.
    assert (Hx : In "x" (map fst s)) by (apply Hin, vars_occurs; cbn; auto).
    assert (Hy : In "y" (map fst s)) by (apply Hin, vars_occurs; cbn; auto).
    apply dget_Some in Hx. apply dget_Some in Hy. destruct Hx as (p & Ep), Hy as (q & Eq).
    exists (2 * p + q). apply opt_case_value. eauto.
Qed.

Lemma opt_case_run : optimize_all clk0 noshuffle 200 e_opt default_solver os_opt no_args = Some ([[("y", 0); ("x", 0)]; [("y", 0); ("x", 1)]; [("y", 0); ("x", 2)]; [("y", 1); ("x", 2)]],
                                     env_of e_opt all_opt, None).
Proof. unfold all_opt. apply view_run. vm_compute. reflexivity. Qed.

Lemma opt_case_end : e_interrupt (env_of e_opt all_opt) = None.
Proof. vm_compute. reflexivity. Qed.

Lemma optimal_intro clk shuffle f e sv os a ys e' s :
  optimize_all clk shuffle f e sv os a = Some (ys, e', None) -> e_interrupt e' = None -> last_solution ys = Some s ->
  optimal_solution clk shuffle f e sv os a = Some (e', Ok (true, Some s)).
Proof. intros H Hi Hl. unfold optimal_solution. now rewrite H, Hl, Hi. Qed.

Lemma opt_case_optimal : optimal_solution clk0 noshuffle 200 e_opt default_solver os_opt no_args =
  Some (env_of e_opt all_opt, Ok (true, Some [("y", 1); ("x", 2)])).
Proof. apply (optimal_intro _ _ _ _ _ _ _ _ _ _ opt_case_run opt_case_end). reflexivity. Qed.

(** *** Minimize(x), x in [0, 1, 2]. *)
Definition h_min : list api := [AddInt [0; 1; 2] (Some "x")].
Definition e_min : env := new_env (run_history h_min init_world).
Definition o_minx : objective := Objective (Var "x") false.
Definition run_min := optimize_all clk0 noshuffle 100 e_min default_solver [OObj o_minx] no_args.

Lemma plain_valid h os :
  (forall B, genuine B init_world h) -> informed init_world h -> (forall o, In (OObj o) os -> params (o_expr o) = []) ->
  opt_valid noshuffle (new_env (run_history h init_world)) os no_args.
Proof.
  intros Hg Hi H. apply (opt_valid_reachable (fun _ => CConst true) h); auto.
  - intros c [].
  - intros c [].
  - intros o Ho p Hp. rewrite (H o Ho) in Hp. destruct Hp.
  - apply noshuffle_ok.
Qed.

Lemma min_run : optimize_all clk0 noshuffle 100 e_min default_solver [OObj o_minx] no_args = Some ([[("x", 0)]; [("x", 1)]; [("x", 2)]], env_of e_min run_min, None).
Proof. unfold run_min. apply view_run. vm_compute. reflexivity. Qed.
Lemma min_end : e_interrupt (env_of e_min run_min) = None.
Proof. vm_compute. reflexivity. Qed.

Lemma min_solution v : In v [0; 1; 2] -> solves (holds (w_par (e_world e_min))) (w_model (e_world e_min)) (all_cons (w_model (e_world e_min)) no_args) [("x", v)].
Proof.
  intros Hin. split; [|intros c []]. split; [repeat constructor; intros []|]. split.
  - intros x. cbn. split; [intros [<-|[]]; exists [0; 1; 2]; now left|]. intros (d & [E|[]]). inversion E. now left.
  - intros x u d [E|[]] [E'|[]]. inversion E; subst. inversion E'; subst. exact Hin.
Qed.

Lemma min_valid : opt_valid noshuffle e_min [OObj o_minx] no_args.
Proof.
  apply plain_valid; [intros B; cbn; auto|cbn; auto|]. intros o [E|[]]. inversion E. reflexivity.
Qed.

Lemma not_optimal_witness : exists clk shuffle f e sv o a e' s,
  opt_valid shuffle e [OObj o] a /\
  optimal_solution clk shuffle f e sv [OObj o] a = Some (e', Ok (true, Some s)) /\
  exists t p q, solves (holds (w_par (e_world e))) (w_model (e_world e)) (all_cons (w_model (e_world e)) a) t /\
    value_of (w_par (e_world e)) o s p /\ value_of (w_par (e_world e)) o t q /\ better o q p.
Proof.
  exists clk0, noshuffle, 100%nat, e_min, default_solver, o_minx, no_args, (env_of e_min run_min), [("x", 2)].
  split; [exact min_valid|]. split; [apply (optimal_intro _ _ _ _ _ _ _ _ _ _ min_run min_end); reflexivity|].
  exists [("x", 0)], 2, 0. split; [apply min_solution; cbn; auto|]. split; [reflexivity|]. split; [reflexivity|].
  unfold better. cbn. lia.
Qed.

Lemma not_improving_witness : exists clk shuffle f e sv o a e' ys,
  opt_valid shuffle e [OObj o] a /\
  optimize_all clk shuffle f e sv [OObj o] a = Some (ys, e', None) /\
  exists i s t p q, nth_error ys i = Some s /\ nth_error ys (S i) = Some t /\
    value_of (w_par (e_world e)) o s p /\ value_of (w_par (e_world e)) o t q /\ better o p q.
Proof.
  exists clk0, noshuffle, 100%nat, e_min, default_solver, o_minx, no_args, (env_of e_min run_min).
  eexists. split; [exact min_valid|]. split; [exact min_run|].
  exists 0%nat, [("x", 0)], [("x", 1)], 0, 1. repeat split.
Qed.

(** *** Minimize(x + y), x in [0], y in [0, 1]. *)
Definition h_min2 : list api := [AddInt [0] (Some "x"); AddInt [0; 1] (Some "y")].
Definition e_min2 : env := new_env (run_history h_min2 init_world).
Definition o_minxy : objective := Objective (Bin OAdd (Var "x") (Var "y")) false.
Definition sv_ord : solver := new_solver ORDERED LNone LNone true.
Definition run_min2 := optimize_all clk0 noshuffle 100 e_min2 sv_ord [OObj o_minxy] no_args.

Lemma min2_run : optimize_all clk0 noshuffle 100 e_min2 sv_ord [OObj o_minxy] no_args = Some ([[("x", 0); ("y", 0)]; [("x", 0); ("y", 1)]], env_of e_min2 run_min2, None).
Proof. unfold run_min2. apply view_run. vm_compute. reflexivity. Qed.
Lemma min2_end : e_interrupt (env_of e_min2 run_min2) = None.
Proof. vm_compute. reflexivity. Qed.
Lemma min2_valid : opt_valid noshuffle e_min2 [OObj o_minxy] no_args.
Proof.
  apply plain_valid; [intros B; cbn; auto|cbn; auto|]. intros o [E|[]]. inversion E. reflexivity.
Qed.

Lemma not_optimal_witness2 : exists clk shuffle f e sv o a e' s,
  opt_valid shuffle e [OObj o] a /\ (exists x y, x <> y /\ occurs x (o_expr o) /\ occurs y (o_expr o)) /\
  optimal_solution clk shuffle f e sv [OObj o] a = Some (e', Ok (true, Some s)) /\
  exists t p q, solves (holds (w_par (e_world e))) (w_model (e_world e)) (all_cons (w_model (e_world e)) a) t /\
    value_of (w_par (e_world e)) o s p /\ value_of (w_par (e_world e)) o t q /\ better o q p.
Proof.
  exists clk0, noshuffle, 100%nat, e_min2, sv_ord, o_minxy, no_args, (env_of e_min2 run_min2), [("x", 0); ("y", 1)].
  split; [exact min2_valid|]. split.
  { exists "x", "y". split; [discriminate|]. split; apply vars_occurs; cbn; auto. }
  split; [apply (optimal_intro _ _ _ _ _ _ _ _ _ _ min2_run min2_end); reflexivity|].
  exists [("x", 0); ("y", 0)], 1, 0. split.
  { split; [|intros c []]. split; [repeat constructor; cbn; intuition discriminate|]. split.
    - intros x. cbn. split.
      + intros [<-|[<-|[]]]; [exists [0]|exists [0; 1]]; cbn; auto.
      + intros (d & [E|[E|[]]]); inversion E; auto.
    - intros x u d [E|[E|[]]] [E'|[E'|[]]]; inversion E; subst; inversion E'; subst; cbn; auto. }
  split; [reflexivity|]. split; [reflexivity|]. unfold better. cbn. lia.
Qed.

Lemma occurs_vars_case x : x = "x" \/ x = "y" -> occurs x (o_expr o_max2).
Proof. intros [->| ->]; apply vars_occurs; cbn; auto. Qed.
