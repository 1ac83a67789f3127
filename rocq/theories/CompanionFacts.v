(** What the code does where a property is false of it: lemmas behind Properties_Exact.v. *)
From Coq Require Import Permutation.
From Verif Require Import Solver Puzzle Cryptarithm SpecFormula SpecSafe SpecSolve SpecExact ExprFacts DictFacts ModelFacts
  SearchFacts LoopFacts EnumFacts SetupFacts SolveFacts MasterFacts HistoryFacts SolverProps SolverMore SolverExtra SolverCases.
Open Scope list_scope.
Open Scope Z_scope.

(** ** C07: equals *)
Lemma elem_eq_exact a b : elem_eq_truth a b = true <-> not_distinct a b.
Proof.
  unfold not_distinct, elem_eq_truth. destruct a; destruct b; cbn; split; intros H; try reflexivity; try (intros; discriminate).
  - intros v w E1 E2. injection E1 as <-. injection E2 as <-. destruct (z =? z0) eqn:E; [now apply Z.eqb_eq|discriminate].
  - rewrite (H z z0 eq_refl eq_refl). rewrite Z.eqb_refl. reflexivity.
Qed.

Lemma forallb_combine (xs ys : list expr) :
  Nat.eqb (length xs) (length ys) && forallb (fun '(x, y) => elem_eq_truth x y) (combine xs ys) = true <-> Forall2 not_distinct xs ys.
Proof.
  revert ys. induction xs as [|x xs IH]; intros [|y ys]; simpl.
  - split; [constructor|reflexivity].
  - split; [discriminate|]. intros H. inversion H.
  - split; [discriminate|]. intros H. inversion H.
  - split.
    + intros H. apply Bool.andb_true_iff in H. destruct H as [Hl H]. apply Bool.andb_true_iff in H. destruct H as [H1 H2]. constructor.
      * now apply elem_eq_exact.
      * apply IH. now rewrite Hl.
    + intros H. inversion H as [|? ? ? ? H1 H2]; subst. apply elem_eq_exact in H1. apply IH in H2. apply Bool.andb_true_iff in H2.
      destruct H2 as [-> H2]. rewrite H1, H2. reflexivity.
Qed.

Lemma equals_unary a b :
  (equals (Neg a) (Neg b) = true <-> not_distinct a b) /\ (equals (Abs a) (Abs b) = true <-> not_distinct a b) /\
  (equals (Not a) (Not b) = true <-> not_distinct a b).
Proof.
  assert (H : elem_eq_truth a b && true = true <-> not_distinct a b) by (rewrite Bool.andb_true_r; apply elem_eq_exact).
  repeat split; apply H.
Qed.

Lemma equals_binary o o' l r l' r' :
  equals (Bin o l r) (Bin o' l' r') = true <-> o = o' /\ not_distinct l l' /\ not_distinct r r'.
Proof.
  assert (Ho : same_class (Bin o l r) (Bin o' l' r') = true <-> o = o').
  { destruct o; destruct o'; simpl; split; intros H; try reflexivity; discriminate. }
  unfold equals. rewrite Bool.andb_true_iff, Ho. cbn [elements]. rewrite forallb_combine. split; intros [H1 H2]; (split; [exact H1|]).
  - inversion H2 as [|? ? ? ? H3 H4]; subst. inversion H4; subst. split; assumption.
  - destruct H2. repeat constructor; assumption.
Qed.

Lemma equals_collection es es' c c' :
  (equals (Sum es c) (Sum es' c') = true <-> Forall2 not_distinct es es') /\
  (equals (Prod es c) (Prod es' c') = true <-> Forall2 not_distinct es es').
Proof. split; apply forallb_combine. Qed.

(** ** C14: set_solvable *)
Lemma set_solvable_nothing h h' : without_set_solvable h h' -> forall w, run_history h w = run_history h' w.
Proof. intros H. induction H; intros w; simpl; auto. Qed.

(** ** C15: constraints over parameters only *)
Lemma frozen h1 h2 ex v : (forall x, ~ occurs x ex) -> evaluate (w_par (run_history h1 init_world)) [] ex = Ok v -> v <> 0 ->
  run_history (h1 ++ AddConstraint (AExpr ex) :: h2) init_world = run_history (h1 ++ NewConstraint (CExpr ex) :: h2) init_world.
Proof.
  intros Hv He Hne. rewrite !run_history_app. cbn [run_history run_api]. f_equal.
  assert (Hnil : vars ex = []).
  { destruct (vars ex) as [|x l] eqn:E; [reflexivity|]. exfalso. apply (Hv x). apply vars_occurs. rewrite E. now left. }
  set (w := run_history h1 init_world) in *. cbn. unfold add_constraint_obj, c_vars, ceval. cbn. rewrite Hnil.
  unfold upd at 1. rewrite Nat.eqb_refl. rewrite He. cbn. unfold truthy. rewrite (proj2 (Z.eqb_neq v 0) Hne). reflexivity.
Qed.

(** ** C23: limits below 1 *)
Section Limit.
Variables (clk : nat -> Z) (shuffle : list name -> list name).

Definition same_but (l l' : local) (n n' : Z) : Prop :=
  l_info l = l_info l' /\ l_timer l = l_timer l' /\ l_timeout l = l_timeout l' /\ l_limit l = Solver.LNum n /\ l_limit l' = Solver.LNum n'.

Inductive alike : gen -> gen -> Prop :=
| alike_loop l l' c k n n' : same_but l l' n n' -> n <= 1 -> n' <= 1 -> 0 <= k -> alike (GLoop l c k) (GLoop l' c k)
| alike_yield l l' c k n n' : same_but l l' n n' -> n <= 1 -> n' <= 1 -> 1 <= k -> alike (GYield l c k) (GYield l' c k)
| alike_done : alike GDone GDone.

Lemma micro_alike e g g' : alike g g' ->
  exists e1 g1 g1' ev, micro clk shuffle e g = (e1, g1, ev) /\ micro clk shuffle e g' = (e1, g1', ev) /\ alike g1 g1'.
Proof.
  intros [l l' c k n n' (H1 & H2 & H3 & H4 & H5) Hn Hn' Hk|l l' c k n n' (H1 & H2 & H3 & H4 & H5) Hn Hn' Hk|].
  - cbn [micro]. destruct (g_stack c) as [|p st]; [repeat eexists; constructor|].
    assert (Et : check_timeout clk e l' = check_timeout clk e l).
    { unfold check_timeout. now rewrite H2, H3. }
    rewrite Et. destruct (check_timeout clk e l) as [e1 [ev|]]; [repeat eexists; constructor|].
    rewrite <- H1. destruct (core_step (e_world e1) (l_info l) c) as [c'|s c'|ex].
    + repeat eexists. apply (alike_loop l l' c' k n n'); auto. repeat split; assumption.
    + rewrite <- H2. destruct (do_stop clk e1 (l_timer l)) as [e2 [u|ex]]; repeat eexists; try constructor.
      apply (alike_yield l l' c' (k + 1) n n'); auto; [repeat split; assumption|lia].
    + repeat eexists; constructor.
  - cbn [micro]. rewrite H4, H5, <- H2. rewrite (proj2 (Z.leb_le n k)), (proj2 (Z.leb_le n' k)) by lia.
    repeat eexists; constructor.
  - cbn. repeat eexists; constructor.
Qed.

Lemma drain_alike f cons : forall k e g g', alike g g' -> drain clk shuffle f cons k e g = drain clk shuffle f cons k e g'.
Proof.
  induction f as [|f IH]; intros k e g g' Ha; [reflexivity|]. simpl.
  destruct (micro_alike e g g' Ha) as (e1 & g1 & g1' & ev & -> & -> & Ha'). destruct ev; auto.
  destruct (cons k (e_world e1) s) as [w|ex]; [|reflexivity]. now rewrite (IH _ _ _ _ Ha').
Qed.

Lemma low_limit f cons e sv a a1 n n1 :
  x_additional a = x_additional a1 -> policy_of sv a = policy_of sv a1 -> timeout_of sv a = timeout_of sv a1 ->
  limit_of sv a = Solver.LNum n -> limit_of sv a1 = Solver.LNum n1 -> n <= 1 -> n1 <= 1 ->
  drain clk shuffle f cons 0 e (GInit sv a) = drain clk shuffle f cons 0 e (GInit sv a1).
Proof.
  intros H1 H2 H3 H4 H5 Hn Hn1. destruct f as [|f]; [reflexivity|]. simpl. unfold begin.
  unfold policy_of in H2. unfold timeout_of in H3. unfold limit_of in H4, H5. rewrite <- H1, <- H2, <- H3, H4, H5.
  destruct (negb _); [reflexivity|].
  destruct (do_setup _ _ _) as [w [u|ex]]; [|reflexivity]. destruct (select_order _ _ _ _) as [|x o]; [reflexivity|].
  destruct (do_start _ _ _) as [e1 [t|ex]]; [|reflexivity].
  apply drain_alike. apply (alike_loop _ _ _ _ n n1); auto; [repeat split|lia].
Qed.
End Limit.

Lemma low_limit_run clk shuffle f e sv a a1 n :
  x_additional a = x_additional a1 -> policy_of sv a = policy_of sv a1 -> timeout_of sv a = timeout_of sv a1 ->
  limit_of sv a = Solver.LNum n -> limit_of sv a1 = Solver.LNum 1 -> n <= 1 ->
  solve_all clk shuffle f e sv a = solve_all clk shuffle f e sv a1.
Proof. intros H1 H2 H3 H4 H5 Hn. apply (low_limit _ _ _ _ _ _ _ _ n 1); auto. lia. Qed.

(** ** C29: yielding nothing *)
Lemma yields_iff clk shuffle f e sv a ys e' r :
  let m := w_model (e_world e) in let cs := all_cons m a in
  valid shuffle e a -> m_solvable m = true -> unlimited sv a -> no_raise (ceval (e_world e')) m cs -> groups_ok m cs ->
  solve_all clk shuffle f e sv a = Some (ys, e', r) ->
  (ys <> [] <-> has_variable m /\ exists t, solves (evaluates_true (e_world e')) m cs t).
Proof.
  intros m cs Hv Hs Hu Hr Hg H. split.
  - intros Hy. destruct ys as [|s ys]; [contradiction|]. split.
    + destruct (run_cases clk shuffle f e sv a _ e' r Hv H) as [(E & _)|(_ & Hh & _)]; [discriminate|exact Hh].
    + exists s. apply (sound clk shuffle f e sv a _ e' r Hv H). now left.
  - intros (Hh & t & Ht). destruct (complete clk shuffle f e sv a ys e' r Hv H Hu Hs Hh Hr Hg) as (_ & _ & Hc).
    destruct (Hc t Ht) as (s & Hin & _). intros ->. contradiction.
Qed.

(** ** C52 *)
Lemma avoid_nothing clk shuffle fuel order source o b b' :
  cry_run clk shuffle fuel order source b o = cry_run clk shuffle fuel order source b' o.
Proof. destruct b; destruct b'; reflexivity. Qed.

(** ** C59: the constraints that are respected *)
Lemma respected clk shuffle f e sv a ys e' r s c :
  let m := w_model (e_world e) in
  valid shuffle e a -> solve_all clk shuffle f e sv a = Some (ys, e', r) -> In s ys ->
  In c (all_cons m a) -> (forall x, mentions c x -> exists d, is_variable m x d) -> (exists x, mentions c x) ->
  evaluates_true (e_world e') s c.
Proof.
  intros m Hv H Hs Hc Hm Hx. apply (proj2 (sound clk shuffle f e sv a ys e' r Hv H s Hs) c Hc). split; assumption.
Qed.

(** ** C60: when the limit interrupts *)
Lemma limit_iff clk shuffle f1 f2 e sv a a0 ys1 ys2 e1 e2 r1 r2 n :
  x_additional a = x_additional a0 -> x_policy a = x_policy a0 -> valid shuffle e a ->
  solve_all clk shuffle f1 e sv a = Some (ys1, e1, r1) ->
  solve_all clk shuffle f2 e sv a0 = Some (ys2, e2, r2) ->
  unlimited sv a0 -> timeout_of sv a = LNone -> limit_of sv a = Solver.LNum n ->
  (e_interrupt e1 = Some ILimit <-> Z.max 1 n <= len ys2) /\ (e_interrupt e1 <> Some ITimeout).
Proof.
  intros Ha Hp Hv H1 H2 Hu Ht Hl.
  pose proof (interrupts clk shuffle f1 e sv a ys1 e1 r1 Hv H1) as Hin.
  destruct (truncation clk shuffle f1 f2 e sv a a0 ys1 ys2 e1 e2 r1 r2 Ha Hp Hv H1 H2 Hu)
    as ((zs & Ez) & [(E & Er & Ei & Hn)|[(Er & Ei & m & Em & Hm)|[(Er & Ei & _ & t & j & Et & _)|(Er & Ei & [(Et & _)|(Et & _)])]]]); try congruence.
  - rewrite Ei. split; [|discriminate]. split; [discriminate|]. intros Hmax. exfalso. destruct (Hn n Hl) as [E0|E0].
    + rewrite <- E, E0 in Hmax. unfold len in Hmax. simpl in Hmax. lia.
    + rewrite <- E in Hmax. lia.
  - rewrite Ei. split; [|discriminate]. split; [|reflexivity]. intros _. rewrite Hl in Em. injection Em as <-.
    rewrite Ei in Hin. destruct Hin as (_ & m & Em' & Hne & _). 
    assert (1 <= len ys1). { destruct ys1; [contradiction|]. unfold len. simpl. lia. }
    assert (len ys1 <= len ys2). { rewrite Ez. unfold len. rewrite app_length. lia. }
    lia.
Qed.

Lemma small_concerns :
  Forall (fun c => (exists x, mentions c x) /\ forall x, mentions c x -> exists d, is_variable (w_model (e_world e_small)) x d)
    (all_cons (w_model (e_world e_small)) no_args).
Proof.
  assert (Hx : exists d, is_variable (w_model (e_world e_small)) "x"%string d) by (eexists; left; reflexivity).
  assert (Hy : exists d, is_variable (w_model (e_world e_small)) "y"%string d) by (eexists; right; left; reflexivity).
  change (all_cons (w_model (e_world e_small)) no_args) with
    [Constraint 0 (CAllDiff ["x"; "y"]); Constraint 1 (CExpr (Bin OLt (Var "x") (Var "y")));
     Constraint 2 (CExpr (Bin OGt (Var "y") (Const 1)))]%string.
  apply Forall_cons; [|apply Forall_cons; [|apply Forall_cons; [|apply Forall_nil]]]; (split; [exists "y"%string|intros x Hm]); unfold mentions in *; simpl in *.
  - auto.
  - destruct Hm as [<-|[<-|[]]]; assumption.
  - apply occ_binr, occ_var.
  - inversion Hm; subst; match goal with H : occurs _ (Var _) |- _ => inversion H; subst end; assumption.
  - apply occ_binl, occ_var.
  - inversion Hm; subst; match goal with H : occurs _ _ |- _ => inversion H; subst; clear H end; try assumption;
    match goal with H : occurs _ _ |- _ => inversion H; subst end; assumption.
Qed.
