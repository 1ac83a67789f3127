(** The statements of Properties_Forbidden.v, and the programs of its examples. *)
From Coq Require Import Permutation.
From Verif Require Import Solver Forbidden SpecFormula SpecSafe SpecSolve ExprFacts DictFacts ModelFacts SetupFacts SolveFacts
  MasterFacts HistoryFacts SolverProps SolverCases ForbiddenFacts.
Open Scope string_scope.
Open Scope list_scope.
Open Scope Z_scope.

Lemma forbidden_first : forall clk clk2 shuffle f f2 e sv a a2 ys e' r zs e2 r2,
  let m := w_model (e_world e) in
  valid shuffle e a -> has_variable m -> m_solvable m = true ->
  timeout_of sv a = LNone -> unlimited sv a2 -> x_additional a2 = x_additional a ->
  policy_of sv a2 = match policy_of sv a with GROUPS => GROUPS | RANDOM => RANDOM | REVERSED => REVERSED | _ => ORDERED end ->
  forbidden_all clk shuffle f e sv a = Some (ys, e', r) ->
  solve_all clk2 shuffle f2 e sv a2 = Some (zs, e2, r2) ->
  (zs = [] -> ys = [] /\ r = r2) /\
  (forall s zs', zs = s :: zs' -> ys = [s] /\ r = Some NameError).
Proof.
  intros clk clk2 shuffle f f2 e sv a a2 ys e' r zs e2 r2 m Hv Hhv Hsol Hto Hun Hadd Hpol H Hz.
  destruct (fb_solve clk shuffle e sv a Hv f clk2 f2 a2 ys e' r zs e2 r2 H Hto Hhv Hsol Hadd Hun) as [-> ->]; [|assumption|].
  - rewrite Hpol. destruct (policy_of sv a); reflexivity.
  - split; [intros ->; auto|]. intros s zs' ->. auto.
Qed.

Lemma forbidden_small : valid noshuffle e_small no_args /\ has_variable (w_model (e_world e_small)) /\
  m_solvable (w_model (e_world e_small)) = true /\ timeout_of default_solver no_args = LNone /\
  view (forbidden_all clk0 noshuffle 100 e_small default_solver no_args) = Some ([[("y", 2); ("x", 1)]], Some NameError) /\
  view (small_run default_solver no_args) =
    Some ([[("y", 2); ("x", 1)]; [("y", 3); ("x", 1)]; [("y", 3); ("x", 2)]], None).
Proof.
  split; [exact small_valid|]. split; [exists "x", [1; 2; 3]; apply small_variable; auto|].
  split; [reflexivity|]. split; [reflexivity|]. vm_compute. split; reflexivity.
Qed.

Lemma forbidden_refuted : exists clk shuffle f e sv a ys e' zs e2,
  valid shuffle e a /\ unlimited sv a /\
  forbidden_all clk shuffle f e sv a = Some (ys, e', Some NameError) /\
  solve_all clk shuffle f e sv a = Some (zs, e2, None) /\ length ys = 1%nat /\ length zs = 3%nat.
Proof.
  exists clk0, noshuffle, 100%nat, e_small, default_solver, no_args, [[("y", 2); ("x", 1)]],
    (env_of e_small (forbidden_all clk0 noshuffle 100 e_small default_solver no_args)),
    [[("y", 2); ("x", 1)]; [("y", 3); ("x", 1)]; [("y", 3); ("x", 2)]], (env_of e_small (solve_all clk0 noshuffle 100 e_small default_solver no_args)).
  split; [exact small_valid|]. split; [exact small_unlimited|]. split; [apply view_run; vm_compute; reflexivity|].
  split; [apply view_run; vm_compute; reflexivity|]. split; reflexivity.
Qed.

Lemma forbidden_sound : forall clk shuffle f e sv a ys e' r,
  let m := w_model (e_world e) in
  valid shuffle e a -> forbidden_all clk shuffle f e sv a = Some (ys, e', r) ->
  forall s, In s ys -> solves (evaluates_true (e_world e')) m (all_cons m a) s.
Proof. intros clk shuffle f e sv a ys e' r m Hv H. eapply fb_sound; eauto. Qed.

Lemma forbidden_none : forall clk shuffle f e sv a ys e',
  let m := w_model (e_world e) in
  valid shuffle e a -> has_variable m -> forbidden_all clk shuffle f e sv a = Some (ys, e', None) ->
  e_interrupt e' <> Some ITimeout -> ys = [] /\ forall t, ~ solves (evaluates_true (e_world e')) m (all_cons m a) t.
Proof. intros clk shuffle f e sv a ys e' m Hv Hhv H Hi. eapply fb_complete; eauto. Qed.

Definition above : constraint := Constraint 3 (CExpr (Bin OGt (Var "x") (Var "y"))).
Definition above_args : args := Args None None None [above].
Definition b_above (id : nat) : cbody := match id with S (S (S _)) => c_body above | _ => b_small id end.
Lemma above_valid : valid noshuffle e_small above_args.
Proof.
  apply (valid_reachable b_above h_small); try reflexivity.
  - cbn -[str_nat]. repeat split.
  - intros c [<-|[]]. reflexivity.
  - apply noshuffle_ok.
Qed.
Lemma forbidden_none_case : valid noshuffle e_small above_args /\ exists e' : env,
  forbidden_all clk0 noshuffle 100 e_small default_solver above_args = Some ([], e', None) /\
  e_interrupt e' = None.
Proof.
  split; [exact above_valid|].
  exists (env_of e_small (forbidden_all clk0 noshuffle 100 e_small default_solver above_args)).
  split; [apply view_run|]; vm_compute; reflexivity.
Qed.

Lemma forbidden_terminates : forall clk shuffle e sv a, valid shuffle e a ->
  exists f r, forbidden_all clk shuffle f e sv a = Some r.
Proof. intros. now apply fb_terminates. Qed.

Lemma forbidden_stats : forall clk shuffle f e sv a ys e' r,
  forbidden_all clk shuffle f e sv a = Some (ys, e', r) -> timeout_of sv a = LNone -> get_stats e' = get_stats e.
Proof. intros. eapply fb_stats; eauto. Qed.

Lemma forbidden_stats_case : fst (fst (get_stats (env_of e_small (small_run default_solver no_args)))) = 3 /\
  exists ys e' r, ys <> [] /\
  forbidden_all clk0 noshuffle 100 (env_of e_small (small_run default_solver no_args)) default_solver no_args = Some (ys, e', r) /\
  fst (fst (get_stats e')) = 3.
Proof.
  split; [vm_compute; reflexivity|].
  exists [[("y", 2); ("x", 1)]], (env_of e_small (forbidden_all clk0 noshuffle 100 (env_of e_small (small_run default_solver no_args)) default_solver no_args)), (Some NameError).
  split; [discriminate|]. split; [apply view_run|]; vm_compute; reflexivity.
Qed.

Definition h_false : list api := [AddInt [1; 2] (Some "x"); AddConstraint (ABool false)].
Definition e_false : env := new_env (run_history h_false init_world).
Lemma forbidden_unsolvable : exists clk shuffle f e sv a s e' r,
  valid shuffle e a /\ m_solvable (w_model (e_world e)) = false /\
  forbidden_all clk shuffle f e sv a = Some ([s], e', r).
Proof.
  exists clk0, noshuffle, 20%nat, e_false, default_solver, no_args, [("x", 1)],
    (env_of e_false (forbidden_all clk0 noshuffle 20 e_false default_solver no_args)), (Some NameError).
  split; [|split; [reflexivity|apply view_run; vm_compute; reflexivity]].
  apply (valid_reachable (fun _ => CConst false) h_false); try reflexivity.
  - cbn -[str_nat]. repeat split.
  - intros c [].
  - apply noshuffle_ok.
Qed.

Lemma forbidden_empty : forall clk shuffle f e sv a ys e' r,
  let m := w_model (e_world e) in
  valid shuffle e a -> ~ has_variable m -> x_additional a = [] -> m_cons m = [] -> timeout_of sv a = LNone ->
  forbidden_all clk shuffle f e sv a = Some (ys, e', r) -> ys = [] /\ r = Some IndexError.
Proof.
  intros clk shuffle f e sv a ys e' r m (Hs & Hn & _ & Ho) Hno Hadd Hm Hto H.
  unfold forbidden_all in H. fold (timeout_of sv a) in H. rewrite Hto in H.
  destruct (do_setup (s_compile sv) (e_world e) (x_additional a)) as [w [u|ex]] eqn:Es.
  - assert (Eo : select_order shuffle (fb_policy (arg_or (x_policy a) (s_policy sv))) (w_model (e_world e)) u = []).
    { destruct (order_facts shuffle _ _ _ _ _ sv (fb_args sv a) Hs Hn Ho Es) as (Hp & _).
      apply Permutation_nil. symmetry. etransitivity; [exact Hp|].
      destruct (dkeys (pure_variables (m_vars (w_model (e_world e))))) as [|x l] eqn:Ek; [reflexivity|].
      exfalso. apply Hno. assert (Hx : In x (dkeys (pure_variables (m_vars (w_model (e_world e)))))) by (rewrite Ek; now left).
      apply pure_keys_In in Hx. destruct Hx as (d & Hd). exists x, d. exact Hd. }
    cbv zeta in H. rewrite Eo in H. destruct f as [|f]; [discriminate|]. cbn in H. inversion H. auto.
  - exfalso. unfold do_setup in Es. fold m in Es. rewrite Hadd, Hm in Es. cbn in Es. inversion Es.
Qed.

Lemma forbidden_timeout : forall clk shuffle f e sv a ys e' r,
  forbidden_all clk shuffle f e sv a = Some (ys, e', r) ->
  e_interrupt e' = e_interrupt e \/
  (e_interrupt e' = Some ITimeout /\ ys = [] /\ r = None /\ exists n, timeout_of sv a = LNum n).
Proof.
  intros clk shuffle f e sv a ys e' r H. unfold forbidden_all in H. fold (timeout_of sv a) in H.
  destruct (do_setup (s_compile sv) (e_world e) (x_additional a)) as [w [u|ex]]; [|inversion H; auto].
  cbv zeta in H. apply (fb_loop_timeout clk f _ _ (tick (set_world e w))) in H; [|reflexivity].
  destruct H as (_ & [(E1 & E2 & E3 & n & E4)|[(_ & _ & _ & Hi)|(Hi & _)]]).
  - right. eauto 6.
  - left. exact Hi.
  - left. exact Hi.
Qed.
