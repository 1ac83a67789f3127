(** Proofs about enumerations whose consumer changes the program's objects. *)
From Verif Require Import Solver SpecFormula SpecSolve SpecIsolation DictFacts ExprFacts ModelFacts CodeFacts SearchFacts LoopFacts SetupFacts
  MasterFacts SolverProps SolverMore SolverExtra HistoryFacts SolverCases InterleaveFacts.
Open Scope list_scope.
Open Scope Z_scope.

Lemma evaluate_uses ps ps' s e : (forall p, uses p e -> ps p = ps' p) -> evaluate ps s e = evaluate ps' s e.
Proof.
  induction e as [z|y|p y|e IH|e IH|e IH|o l r IHl IHr|es c IH|es c IH] using expr_ind'; intros H; try reflexivity.
  - cbn. f_equal. apply H. constructor.
  - simpl. rewrite IH; [reflexivity|]. intros; apply H; now constructor.
  - simpl. rewrite IH; [reflexivity|]. intros; apply H; now constructor.
  - simpl. rewrite IH; [reflexivity|]. intros; apply H; now constructor.
  - simpl. rewrite IHl, IHr; [reflexivity| |]; intros; apply H; now constructor.
  - rewrite !evaluate_Sum. rewrite (mapM_ext_in _ (evaluate ps' s)); [reflexivity|].
    intros e He. rewrite Forall_forall in IH. apply IH; [assumption|].
    intros x Hx. apply H. eapply use_sum; eauto.
  - rewrite !evaluate_Prod. rewrite (mapM_ext_in _ (evaluate ps' s)); [reflexivity|].
    intros e He. rewrite Forall_forall in IH. apply IH; [assumption|].
    intros x Hx. apply H. eapply use_prod; eauto.
Qed.

(** ** Calls and the objects created before *)

Definition keeps_code (w w' : world) : Prop :=
  (w_ncon w <= w_ncon w')%nat /\ (w_npar w <= w_npar w')%nat /\
  forall id, (id < w_ncon w)%nat -> w_code w' id = w_code w id.
Definition keeps_par (w w' : world) : Prop := forall p, (p < w_npar w)%nat -> w_par w' p = w_par w p.

Lemma keeps_refl w : keeps_code w w /\ keeps_par w w.
Proof. split; [split; [lia|split; [lia|reflexivity]]|intros p _; reflexivity]. Qed.

Lemma keeps_set_model w m : keeps_code w (set_model w m) /\ keeps_par w (set_model w m).
Proof. split; [split; [cbn; lia|split; [cbn; lia|reflexivity]]|intros p _; reflexivity]. Qed.

Lemma keeps_trans w1 w2 w3 : keeps_code w1 w2 -> keeps_code w2 w3 -> keeps_code w1 w3.
Proof. intros (A & B & C) (D & F & G). split; [lia|]. split; [lia|]. intros id H. rewrite G by lia. now apply C. Qed.

Lemma keeps_par_trans w1 w2 w3 : keeps_code w1 w2 -> keeps_par w1 w2 -> keeps_par w2 w3 -> keeps_par w1 w3.
Proof. intros (A & B & C) H1 H2 p Hp. rewrite H2 by lia. now apply H1. Qed.

Lemma keeps_new w b : keeps_code w (snd (new_constraint w b)) /\ keeps_par w (snd (new_constraint w b)).
Proof.
  split; [|intros p _; reflexivity]. split; [cbn; lia|]. split; [cbn; lia|]. intros id H. cbn. apply upd_other. lia.
Qed.

Lemma keeps_obj c w : keeps_code w (fst (add_constraint_obj c w)) /\ keeps_par w (fst (add_constraint_obj c w)).
Proof.
  unfold add_constraint_obj. destruct (c_vars c) as [|x xs].
  - destruct (ceval w c []) as [[|]|]; try apply keeps_refl. cbn [forallb fst]. unfold set_model at 1 3. exact (keeps_set_model w _).
  - destruct (forallb _ _); [apply keeps_set_model|apply keeps_refl].
Qed.

Lemma keeps_new_obj w b : keeps_code w (fst (let '(c, w') := new_constraint w b in add_constraint_obj c w')) /\
  keeps_par w (fst (let '(c, w') := new_constraint w b in add_constraint_obj c w')).
Proof.
  destruct (new_constraint w b) as [c w'] eqn:E. destruct (keeps_new w b) as [H1 H2]. rewrite E in H1, H2. cbn [snd] in H1, H2.
  destruct (keeps_obj c w') as [H3 H4]. split; [eapply keeps_trans; eassumption|eapply keeps_par_trans; eassumption].
Qed.

Lemma keeps_int w d nm : keeps_code w (fst (add_int_variable d nm w)) /\ keeps_par w (fst (add_int_variable d nm w)).
Proof.
  unfold add_int_variable. destruct (has_dup d); [apply keeps_refl|]. destruct (choose_name _ _ _); [apply keeps_set_model|apply keeps_refl].
Qed.

Lemma keeps_api a w : no_compile a -> keeps_code w (fst (run_api a w)).
Proof.
  destruct a as [d nm|nm|v nm|[b|e|c|]|xs|b|p v|b|c]; intros H; cbn [run_api drop fst].
  - apply keeps_int.
  - apply keeps_int.
  - unfold add_parameter. destruct (choose_name _ _ _); [|apply keeps_refl]. cbn. split; [cbn; lia|]. split; [cbn; lia|reflexivity].
  - apply keeps_new_obj.
  - apply keeps_new_obj.
  - apply keeps_obj.
  - apply keeps_refl.
  - apply keeps_new_obj.
  - apply keeps_refl.
  - split; [cbn; lia|]. split; [cbn; lia|reflexivity].
  - apply keeps_new.
  - destruct H.
Qed.

Lemma keeps_api_par a w : builds a -> keeps_par w (fst (run_api a w)).
Proof.
  destruct a as [d nm|nm|v nm|[b|e|c|]|xs|b|p v|b|c]; intros H; cbn [run_api drop fst].
  - apply keeps_int.
  - apply keeps_int.
  - unfold add_parameter. destruct (choose_name _ _ _); [|apply keeps_refl]. cbn. intros p Hp. cbn. apply upd_other. lia.
  - apply keeps_new_obj.
  - apply keeps_new_obj.
  - apply keeps_obj.
  - apply keeps_refl.
  - apply keeps_new_obj.
  - apply keeps_refl.
  - destruct H.
  - apply keeps_new.
  - destruct H.
Qed.

Lemma keeps_history h : forall w, Forall no_compile h -> keeps_code w (run_history h w).
Proof.
  induction h as [|a h IH]; intros w H; [apply keeps_refl|]. inversion H; subst. exact (keeps_trans _ _ _ (keeps_api a w H2) (IH _ H3)).
Qed.
Lemma builds_no_compile a : builds a -> no_compile a.
Proof. destruct a; cbn; auto. Qed.
Lemma keeps_history_par h : forall w, Forall builds h -> keeps_par w (run_history h w).
Proof.
  induction h as [|a h IH]; intros w H; [apply keeps_refl|]. inversion H; subst.
  exact (keeps_par_trans _ _ _ (keeps_api a w (builds_no_compile _ H2)) (keeps_api_par a w H2) (IH _ H3)).
Qed.

(** Evaluation of a constraint created before. *)
Lemma ceval_keeps w w' c s : keeps_code w w' -> created w c ->
  keeps_par w w' \/ (forall e, c_body c = CExpr e -> w_code w (c_id c) <> None) -> ceval w' c s = ceval w c s.
Proof.
  intros (_ & _ & Hc) [Hid Hp] H. unfold ceval. destruct (c_body c) as [b|e|xs] eqn:Eb; [reflexivity| |reflexivity].
  rewrite Hc by assumption. destruct (w_code w (c_id c)) as [f|] eqn:Ec; [reflexivity|].
  destruct H as [H|H]; [|exfalso; now apply (H e)]. rewrite (evaluate_uses (w_par w') (w_par w)); [reflexivity|].
  intros p Hu. apply H. now apply (Hp e).
Qed.

(** ** The loop *)

(** Two states that differ in the program's objects only. *)
Definition same_but_world (e e1 : env) : Prop := e1 = set_world e (e_world e1).

Lemma sbw_micro clk shuffle e e1 g : same_but_world e e1 -> (forall sv a, g <> GInit sv a) ->
  (forall l c n, g = GLoop l c n -> core_step (e_world e1) (l_info l) c = core_step (e_world e) (l_info l) c) ->
  snd (fst (micro clk shuffle e1 g)) = snd (fst (micro clk shuffle e g)) /\
  snd (micro clk shuffle e1 g) = snd (micro clk shuffle e g) /\
  same_but_world (fst (fst (micro clk shuffle e g))) (fst (fst (micro clk shuffle e1 g))).
Proof.
  unfold same_but_world. intros He Hg Hc. destruct e as [w k ts nt t i]. destruct e1 as [w1 k1 ts1 nt1 t1 i1].
  unfold set_world in He. cbn in He. injection He as -> -> -> -> ->.
  destruct g as [sv a|l c n|l c n|]; [exfalso; eapply Hg; reflexivity| | |now repeat split].
  - specialize (Hc l c n eq_refl). cbn [e_world] in Hc. cbn [micro]. destruct (g_stack c) as [|p st]; [now repeat split|].
    unfold check_timeout. cbn [e_clk e_timers]. destruct (l_timeout l) as [|z|]; [| |now repeat split].
    + cbn [e_world]. rewrite Hc. destruct (core_step w (l_info l) c); try now repeat split.
      unfold do_stop. cbn [e_clk e_timers]. destruct (timer_stop _ _ _) as [[tm z]|]; now repeat split.
    + destruct (z <? _); [now repeat split|]. cbn [e_world tick]. rewrite Hc. destruct (core_step w (l_info l) c); try now repeat split.
      unfold do_stop. cbn [e_clk e_timers tick]. destruct (timer_stop _ _ _) as [[tm z']|]; now repeat split.
  - cbn [micro]. assert (Hr : forall (X : unit),
      let f := fun e : env => match do_start clk e (l_timer l) with (e', Err ex) => (e', GDone, EvRaise ex) | (e', Ok _) => (e', GLoop l c n, EvNone) end in
      snd (fst (f (Env w1 k ts nt t i))) = snd (fst (f (Env w k ts nt t i))) /\ snd (f (Env w1 k ts nt t i)) = snd (f (Env w k ts nt t i)) /\
      fst (fst (f (Env w1 k ts nt t i))) = set_world (fst (fst (f (Env w k ts nt t i)))) (e_world (fst (fst (f (Env w1 k ts nt t i)))))).
    { intros _. unfold do_start. cbn. destruct (timer_start _ _); now repeat split. }
    destruct (l_limit l) as [|z|]; [exact (Hr tt)| |now repeat split].
    destruct (z <=? n); [|exact (Hr tt)]. unfold do_abort. cbn. destruct (t_running _); now repeat split.
Qed.

Section Loop.
Variables (clk : nat -> Z) (shuffle : list name -> list name) (h : nat -> subst -> list api) (w0 : world).
Variable stable : world -> Prop.
Hypothesis Hstep : forall k s w, stable w -> stable (run_history (h k s) w).

Definition info_of (g : gen) : option ginfo := match g with GLoop l _ _ | GYield l _ _ => Some (l_info l) | _ => None end.
Definition stable_for (g : gen) : Prop :=
  forall i, info_of g = Some i -> forall w, stable w -> forall x c s, In c (dget_or (i_cons i) x []) -> ceval w c s = ceval w0 c s.

Lemma info_micro e g : (forall sv a, g <> GInit sv a) ->
  info_of (snd (fst (micro clk shuffle e g))) = info_of g \/ info_of (snd (fst (micro clk shuffle e g))) = None.
Proof.
  intros Hg. destruct g as [sv a|l c n|l c n|]; [exfalso; eapply Hg; reflexivity| | |now left]; cbn [micro].
  - destruct (g_stack c); [now right|]. destruct (check_timeout clk e l) as [e1 [ev|]]; [now right|].
    destruct (core_step _ _ _); [now left| |now right]. destruct (do_stop clk e1 _) as [e2 [|]]; [now left|now right].
  - destruct (l_limit l) as [|z|]; [| |now right].
    + destruct (do_start clk e _) as [e2 [|]]; [now left|now right].
    + destruct (z <=? n); [now right|]. destruct (do_start clk e _) as [e2 [|]]; [now left|now right].
Qed.

Lemma isolated_loop f : forall k e e1 g ys e' r, (forall sv a, g <> GInit sv a) -> stable_for g ->
  e_world e = w0 -> stable w0 -> same_but_world e e1 -> stable (e_world e1) ->
  drain clk shuffle f passive k e g = Some (ys, e', r) ->
  exists e1', drain clk shuffle f (calling h) k e1 g = Some (ys, e1', r) /\ same_but_world e' e1' /\
    e_world e1' = run_history (calls_made h k ys) (e_world e1).
Proof.
  induction f as [|f IH]; intros k e e1 g ys e' r Hg Hs Ew Hs0 Hb Hs1 H; [discriminate|].
  rewrite drain_S in H |- *.
  destruct (sbw_micro clk shuffle e e1 g Hb Hg) as (Eg & Ev & Hb').
  { intros l c n ->. apply core_step_agree. intros x c' s Hc. rewrite (Hs (l_info l) eq_refl (e_world e1)) with (x := x); auto.
    rewrite (Hs (l_info l) eq_refl (e_world e)) with (x := x); auto. now rewrite Ew. }
  pose proof (micro_world clk shuffle e g Hg) as Hw. pose proof (micro_world clk shuffle e1 g Hg) as Hw1.
  pose proof (fun sv a => micro_not_init clk shuffle e g sv a Hg) as Hg'. pose proof (info_micro e g Hg) as Hi.
  destruct (micro clk shuffle e g) as [[e2 g2] ev]. destruct (micro clk shuffle e1 g) as [[e3 g3] ev']. cbn [fst snd] in *. subst g3 ev'.
  assert (Hs2 : stable_for g2).
  { intros i Ei w Hw2 x c s Hc. destruct Hi as [Hi|Hi]; rewrite Hi in Ei; [|discriminate]. now apply (Hs i Ei w Hw2 x). }
  destruct ev as [|s| |ex].
  - destruct (IH k e2 e3 g2 ys e' r) as (e1' & A & B & C); auto; try congruence. exists e1'. rewrite C, Hw1. auto.
  - unfold passive at 1 in H. rewrite set_world_same in H.
    destruct (drain clk shuffle f passive (S k) e2 g2) as [[[zs e4] r4]|] eqn:E; [|discriminate]. injection H as <- <- <-.
    unfold calling at 1. destruct (IH (S k) e2 (set_world e3 (run_history (h k s) (e_world e3))) g2 zs e4 r4) as (e1' & A & B & C); auto; try congruence.
    + unfold same_but_world in *. rewrite Hb'. reflexivity.
    + cbn. apply Hstep. congruence.
    + rewrite A. exists e1'. split; [reflexivity|]. split; [exact B|]. rewrite C. cbn [calls_made e_world set_world]. rewrite Hw1.
      clear. revert e1. induction (h k s) as [|a l IHl]; intros e1; [reflexivity|]. cbn. apply (IHl (set_world e1 (fst (run_api a (e_world e1))))).
  - injection H as <- <- <-. exists e3. split; [reflexivity|]. split; [exact Hb'|]. exact Hw1.
  - injection H as <- <- <-. exists e3. split; [reflexivity|]. split; [exact Hb'|]. exact Hw1.
Qed.

End Loop.

(** ** Whole runs *)

Section Whole.
Variables (clk : nat -> Z) (shuffle : list name -> list name) (h : nat -> subst -> list api).

Lemma isolated_run (stable : world -> world -> Prop) f e sv a ys e' r :
  valid shuffle e a ->
  (forall w, m_solvable (w_model (e_world e)) = true -> w = compile_all (s_compile sv) (e_world e) (all_cons (w_model (e_world e)) a) ->
     stable w w /\ (forall k s w1, stable w w1 -> stable w (run_history (h k s) w1)) /\
     forall w1, stable w w1 -> forall c s, In c (all_cons (w_model (e_world e)) a) -> ceval w1 c s = ceval w c s) ->
  solve_all clk shuffle f e sv a = Some (ys, e', r) ->
  exists e1, drain clk shuffle f (calling h) 0 e (GInit sv a) = Some (ys, e1, r) /\ get_stats e1 = get_stats e' /\
    e_world e1 = run_history (calls_made h 0 ys) (e_world e').
Proof.
  intros (Hs & Hn & _ & Ho) Hst H. unfold solve_all in H. destruct f as [|f]; [discriminate|]. rewrite drain_init in H |- *. cbv zeta in *.
  destruct (m_solvable (w_model (e_world e))) eqn:Esol; cbn [negb] in *.
  2:{ injection H as <- <- <-. eexists. split; [reflexivity|]. split; reflexivity. }
  destruct (do_setup (s_compile sv) (e_world e) (x_additional a)) as [w [u|ex]] eqn:Es.
  2:{ injection H as <- <- <-. eexists. split; [reflexivity|]. split; reflexivity. }
  destruct (order_of shuffle sv a (w_model (e_world e)) u) as [|x names] eqn:Eo.
  { injection H as <- <- <-. eexists. split; [reflexivity|]. split; reflexivity. }
  destruct (do_setup_spec _ _ _ _ _ Ho Es) as (Ew & Hu & _).
  destruct (Hst w eq_refl Ew) as (H0 & H1 & H2).
  assert (Hds := H). apply drain_world in Hds; [|discriminate]. change (e_world (start_env clk e w)) with w in Hds.
  apply (isolated_loop clk shuffle h w (stable w) H1) with (e1 := start_env clk e w) in H.
  - destruct H as (e1 & A & B & C). exists e1. split; [exact A|]. split; [rewrite B; reflexivity|]. rewrite C, Hds. reflexivity.
  - discriminate.
  - intros i Ei w1 Hw1 y c s Hc. injection Ei as <-. apply H2; [exact Hw1|]. cbn in Hc. now apply (ui_cons _ _ _ _ Hu) in Hc.
  - reflexivity.
  - exact H0.
  - unfold same_but_world. symmetry. apply set_world_same.
  - exact H0.
Qed.
End Whole.

Lemma compile_all_sizes cmp cs : forall w, w_ncon (compile_all cmp w cs) = w_ncon w /\ w_npar (compile_all cmp w cs) = w_npar w.
Proof.
  induction cs as [|c cs IH]; intros w; [split; reflexivity|]. unfold compile_all in *. cbn [fold_left]. destruct (IH (compile1 cmp w c)) as [-> ->].
  unfold compile1, ccompile. destruct cmp; [|split; reflexivity]. destruct (c_body c); split; reflexivity.
Qed.
Lemma created_compile cmp w cs c : created w c -> created (compile_all cmp w cs) c.
Proof. intros [H1 H2]. destruct (compile_all_sizes cmp cs w) as [E1 E2]. unfold created. now rewrite E1, E2. Qed.

Lemma isolated_building clk shuffle f e sv a h ys e' r :
  valid shuffle e a -> (forall c, In c (all_cons (w_model (e_world e)) a) -> created (e_world e) c) ->
  (forall k s, Forall builds (h k s)) ->
  solve_all clk shuffle f e sv a = Some (ys, e', r) ->
  exists e1, drain clk shuffle f (calling h) 0 e (GInit sv a) = Some (ys, e1, r) /\ get_stats e1 = get_stats e' /\
    e_world e1 = run_history (calls_made h 0 ys) (e_world e').
Proof.
  intros Hv Hc Hh H. apply (isolated_run clk shuffle h (fun w w1 => keeps_code w w1 /\ keeps_par w w1)) with (e' := e'); auto.
  intros w _ ->. split; [apply keeps_refl|]. split.
  - intros k s w1 [H1 H2]. assert (Hk : keeps_code w1 (run_history (h k s) w1)).
    { apply keeps_history. eapply Forall_impl; [|apply Hh]. apply builds_no_compile. }
    split; [eapply keeps_trans; eassumption|eapply keeps_par_trans; [exact H1|exact H2|now apply keeps_history_par]].
  - intros w1 [H1 H2] c s Hin. apply ceval_keeps; auto. apply created_compile. auto.
Qed.

Lemma isolated_parameters clk shuffle f e sv a h ys e' r :
  valid shuffle e a -> s_compile sv = true -> (forall c, In c (all_cons (w_model (e_world e)) a) -> created (e_world e) c) ->
  (forall k s, Forall no_compile (h k s)) ->
  solve_all clk shuffle f e sv a = Some (ys, e', r) ->
  exists e1, drain clk shuffle f (calling h) 0 e (GInit sv a) = Some (ys, e1, r) /\ get_stats e1 = get_stats e' /\
    e_world e1 = run_history (calls_made h 0 ys) (e_world e').
Proof.
  intros Hv Hcmp Hc Hh H. apply (isolated_run clk shuffle h keeps_code) with (e' := e'); auto.
  intros w _ ->. split; [apply keeps_refl|]. split.
  - intros k s w1 H1. eapply keeps_trans; [exact H1|now apply keeps_history].
  - intros w1 H1 c s Hin. apply ceval_keeps; auto; [apply created_compile; auto|]. right. intros ex Eb. rewrite Hcmp.
    rewrite (compile_all_in _ _ c ex); [discriminate|assumption|assumption|].
    intros c' Hc' E. exact (proj1 (proj2 (proj2 (proj2 Hv))) c' c Hc' Hin E).
Qed.

(** *** x + y == p with p = 1; the consumer sets p to 2. *)
Definition sum_p : expr := Bin OEq (Bin OAdd (Var "x"%string) (Var "y"%string)) (Param 0 "p"%string).
Definition h_sum : list api :=
  [AddInt [0; 1; 2] (Some "x"%string); AddInt [0; 1; 2] (Some "y"%string); AddParameter 1 (Some "p"%string); AddConstraint (AExpr sum_p)].
Definition e_sum : env := new_env (run_history h_sum init_world).

Lemma sum_valid : valid noshuffle e_sum no_args.
Proof.
  apply (valid_reachable (fun _ => CExpr sum_p) h_sum); try reflexivity.
  - cbn -[str_nat]. repeat split.
  - intros c [].
  - apply noshuffle_ok.
Qed.
Lemma sum_created : forall c, In c (all_cons (w_model (e_world e_sum)) no_args) -> created (e_world e_sum) c.
Proof.
  intros c Hc. cbn -[str_nat] in Hc. destruct Hc as [<-|[]]. split; [cbn -[str_nat]; lia|]. intros e p E Hu. injection E as <-. cbn -[str_nat].
  inversion Hu; subst; [inversion H0; subst; [inversion H1|inversion H1]|inversion H0; lia].
Qed.

Definition run_sum (h : nat -> subst -> list api) (sv : solver) := drain clk0 noshuffle 100 (calling h) 0 e_sum (GInit sv no_args).

Definition set_p2 : nat -> subst -> list api := fun _ _ => [SetParam 0 2].
Definition nested : nat -> subst -> list api := fun _ _ => [SetParam 0 2; CompileConstraint (Constraint 0 (CExpr sum_p))].

(** The consumer excludes the value of x it received and adds a variable; and sets p. *)
Definition exclude : nat -> subst -> list api :=
  fun _ s => [AddConstraint (AExpr (Bin ONe (Var "x"%string) (Const (dget_or s "x"%string 0)))); AddInt [7] None].
Definition exclude_set : nat -> subst -> list api := fun k s => (exclude k s ++ [SetParam 0 2])%list.

Lemma interpreted_not_isolated : exists clk shuffle f e sv a h ys e1 ys' e1' r',
  valid shuffle e a /\ s_compile sv = false /\ (forall c, In c (all_cons (w_model (e_world e)) a) -> created (e_world e) c) /\
  (forall k s, Forall no_compile (h k s)) /\
  solve_all clk shuffle f e sv a = Some (ys, e1, None) /\
  drain clk shuffle f (calling h) 0 e (GInit sv a) = Some (ys', e1', r') /\ ys <> ys'.
Proof.
  exists clk0, noshuffle, 100%nat, e_sum, sv_interp, no_args, set_p2.
  exists [[("y", 0); ("x", 1)]; [("y", 1); ("x", 0)]]%string, (env_of e_sum (solve_all clk0 noshuffle 100 e_sum sv_interp no_args)).
  exists [[("y", 0); ("x", 1)]; [("y", 1); ("x", 1)]; [("y", 2); ("x", 0)]]%string, (env_of e_sum (run_sum set_p2 sv_interp)), None.
  split; [exact sum_valid|]. split; [reflexivity|]. split; [exact sum_created|]. split; [intros k s; repeat constructor|].
  split; [apply view_run; vm_compute; reflexivity|]. split; [|discriminate]. unfold run_sum. apply view_run. vm_compute. reflexivity.
Qed.

Lemma nested_not_isolated : exists clk shuffle f e sv a h ys e1 ys' e1' r',
  valid shuffle e a /\ s_compile sv = true /\ (forall c, In c (all_cons (w_model (e_world e)) a) -> created (e_world e) c) /\
  (forall k s c, In (CompileConstraint c) (h k s) -> In c (m_cons (w_model (e_world e)))) /\
  solve_all clk shuffle f e sv a = Some (ys, e1, None) /\
  drain clk shuffle f (calling h) 0 e (GInit sv a) = Some (ys', e1', r') /\ ys <> ys'.
Proof.
  exists clk0, noshuffle, 100%nat, e_sum, default_solver, no_args, nested.
  exists [[("y", 0); ("x", 1)]; [("y", 1); ("x", 0)]]%string, (env_of e_sum (solve_all clk0 noshuffle 100 e_sum default_solver no_args)).
  exists [[("y", 0); ("x", 1)]; [("y", 1); ("x", 1)]; [("y", 2); ("x", 0)]]%string, (env_of e_sum (run_sum nested default_solver)), None.
  split; [exact sum_valid|]. split; [reflexivity|]. split; [exact sum_created|].
  split; [intros k s c [E|[E|[]]]; [discriminate|]; injection E as <-; now left|].
  split; [apply view_run; vm_compute; reflexivity|]. split; [|discriminate]. unfold run_sum. apply view_run. vm_compute. reflexivity.
Qed.
