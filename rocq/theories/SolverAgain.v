(** Solving again, when [random.shuffle] does something else the second time. *)
From Verif Require Import Solver SpecSolve LoopFacts MasterFacts SolverProps SolverMore SolverCases.
Open Scope list_scope.
Open Scope Z_scope.

Lemma begin_shuffle clk sh sh' e sv a : (arg_or (x_policy a) (s_policy sv) = RANDOM -> forall l, sh l = sh' l) ->
  begin clk sh e sv a = begin clk sh' e sv a.
Proof.
  intros Hp. unfold begin. destruct (negb _); [reflexivity|]. destruct (do_setup _ _ _) as [w [u|]]; [|reflexivity].
  replace (select_order sh (arg_or (x_policy a) (s_policy sv)) (w_model (e_world (reset e))) u)
    with (select_order sh' (arg_or (x_policy a) (s_policy sv)) (w_model (e_world (reset e))) u); [reflexivity|].
  destruct (arg_or (x_policy a) (s_policy sv)); try reflexivity. symmetry. now apply Hp.
Qed.

Lemma solve_shuffle clk sh sh' f e sv a : (arg_or (x_policy a) (s_policy sv) = RANDOM -> forall l, sh l = sh' l) ->
  solve_all clk sh f e sv a = solve_all clk sh' f e sv a.
Proof.
  intros Hp.
  assert (Hst : forall e g e1 g1 ev, micro clk sh' e g = (e1, g1, ev) -> forall sv a, g1 <> GInit sv a).
  { clear. intros e g e1 g1 ev H sv a ->. destruct g as [sv' a'|l c n|l c n|]; cbn [micro] in H.
    - unfold begin in H. destruct (negb _); [discriminate|]. destruct (do_setup _ _ _) as [w [u|]]; [|discriminate].
      destruct (select_order _ _ _ _); [discriminate|]. destruct (do_start _ _ _) as [e2 [|]]; discriminate.
    - destruct (g_stack c); [discriminate|]. destruct (check_timeout clk e l) as [e2 [|]]; [discriminate|].
      destruct (core_step _ _ _); try discriminate. destruct (do_stop clk e2 (l_timer l)) as [e3 [|]]; discriminate.
    - destruct (l_limit l) as [|z|].
      + destruct (do_start clk e (l_timer l)) as [e2 [|]]; discriminate.
      + destruct (z <=? n); [discriminate|]. destruct (do_start clk e (l_timer l)) as [e2 [|]]; discriminate.
      + discriminate.
    - discriminate. }
  assert (Hd : forall f k e g, (forall sv a, g <> GInit sv a) -> drain clk sh f passive k e g = drain clk sh' f passive k e g).
  { clear f e sv a Hp. induction f as [|f IH]; intros k e g Hg; [reflexivity|]. cbn [drain].
    assert (Em : micro clk sh e g = micro clk sh' e g) by (destruct g; [exfalso; eapply Hg; reflexivity|reflexivity|reflexivity|reflexivity]).
    rewrite Em. destruct (micro clk sh' e g) as [[e1 g1] ev] eqn:E. pose proof (Hst _ _ _ _ _ E) as Hg1.
    destruct ev; try reflexivity; [now apply IH|]. destruct (passive k (e_world e1) s); [|reflexivity]. now rewrite (IH _ _ _ Hg1). }
  unfold solve_all. destruct f as [|f]; [reflexivity|]. cbn [drain micro]. rewrite (begin_shuffle clk sh sh' e sv a Hp).
  destruct (begin clk sh' e sv a) as [[e1 g1] ev] eqn:E. pose proof (Hst e (GInit sv a) e1 g1 ev E) as Hg1.
  destruct ev; try reflexivity; [now apply Hd|]. destruct (passive 0 (e_world e1) s); [|reflexivity]. now rewrite (Hd _ _ _ _ Hg1).
Qed.

Lemma solve_again_shuffle clk1 clk2 shuffle1 shuffle2 f1 f2 e sv a ys1 ys2 e1 e2 r1 r2 eb :
  valid shuffle1 e a -> timeout_of sv a = LNone ->
  (arg_or (x_policy a) (s_policy sv) = RANDOM -> forall l, shuffle2 l = shuffle1 l) ->
  solve_all clk1 shuffle1 f1 e sv a = Some (ys1, e1, r1) ->
  e_world eb = e_world e1 ->
  solve_all clk2 shuffle2 f2 eb sv a = Some (ys2, e2, r2) ->
  w_model (e_world e1) = w_model (e_world e) /\ w_par (e_world e1) = w_par (e_world e) /\
  ys1 = ys2 /\ r1 = r2.
Proof.
  intros Hv Ht Hp H1 Hb H2. rewrite (solve_shuffle _ shuffle2 shuffle1) in H2 by exact Hp. eapply solve_again; eauto.
Qed.

Lemma solve_again_random clk1 clk2 shuffle1 shuffle2 f1 f2 e sv a ys1 ys2 e1 e2 r1 r2 eb :
  let m := w_model (e_world e) in
  valid shuffle1 e a -> shuffles shuffle2 -> unlimited sv a ->
  no_raise (ceval (e_world e1)) m (all_cons m a) -> groups_ok m (all_cons m a) ->
  solve_all clk1 shuffle1 f1 e sv a = Some (ys1, e1, r1) ->
  e_world eb = e_world e1 ->
  solve_all clk2 shuffle2 f2 eb sv a = Some (ys2, e2, r2) ->
  same_solutions ys1 ys2 /\ r1 = None /\ r2 = None.
Proof.
  intros m Hv Hs2 Hu Hnr Hg H1 Hb H2. assert (Hv2 : valid shuffle2 e a) by (destruct Hv as [_ Hv]; split; assumption).
  destruct (proj2 Hv2) as (Hn & _ & Ho).
  destruct (run_terminates clk2 shuffle2 e sv a passive Hs2 Hn Ho) as (F & [[ys0 e0] r0] & H0).
  assert (Hw : e_world e1 = e_world e0) by (rewrite (run_world _ _ _ _ _ _ _ _ _ Hv H1), (run_world _ _ _ _ _ _ _ _ _ Hv2 H0); reflexivity).
  destruct (solve_again clk2 clk2 shuffle2 F f2 e sv a ys0 ys2 e0 e2 r0 r2 eb Hv2 (proj1 Hu) H0 (eq_trans Hb Hw) H2) as (_ & _ & -> & ->).
  exact (policy_independent clk1 clk2 shuffle1 shuffle2 f1 F e sv sv a a ys1 ys2 e1 e0 r1 r2 Hv Hs2 eq_refl eq_refl Hu Hu Hnr Hg H1 H0).
Qed.

(** Two orders of two variables. *)
Definition sv_random : solver := new_solver RANDOM LNone LNone true.
Lemma random_differs : exists shuffle1 shuffle2 e,
  shuffles shuffle2 /\ valid shuffle1 e no_args /\
  exists f ys1 e1 ys2 e2,
    solve_all clk0 shuffle1 f e sv_random no_args = Some (ys1, e1, None) /\
    solve_all clk0 shuffle2 f e1 sv_random no_args = Some (ys2, e2, None) /\ ys1 <> ys2.
Proof.
  exists noshuffle, (@rev name), e_small. split; [intros l; apply Permutation.Permutation_sym, Permutation.Permutation_rev|]. split; [exact small_valid|].
  exists 100%nat. eexists _, _, _, _. split; [vm_compute; reflexivity|]. split; [vm_compute; reflexivity|]. discriminate.
Qed.
