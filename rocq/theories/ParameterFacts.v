(** Proofs about the parameters of a model (C10). *)
From Verif Require Import Model DictFacts ModelFacts.
From Coq Require Import Lia.
Open Scope list_scope.
Open Scope Z_scope.

Definition vars (w : world) : dict vinfo := m_vars (w_model w).
(** Parameters have numbers below the next one, and different ones. *)
Definition pinv (w : world) : Prop :=
  (forall x p, In (x, VPar p) (vars w) -> (p < w_npar w)%nat) /\
  (forall x y p, In (x, VPar p) (vars w) -> In (y, VPar p) (vars w) -> x = y).
(** A step that leaves the entries and the parameters alone. *)
Definition calm (w w' : world) : Prop := vars w' = vars w /\ w_npar w' = w_npar w /\ forall p, w_par w' p = w_par w p.
Lemma calm_refl w : calm w w.
Proof. repeat split. Qed.
Lemma calm_obj c w : calm w (fst (add_constraint_obj c w)).
Proof.
  unfold add_constraint_obj. destruct (c_vars c) as [|x xs].
  - destruct (ceval w c []) as [[|]|]; repeat split.
  - destruct (forallb _ _); repeat split.
Qed.
Lemma calm_new b c w : calm w (fst (add_constraint_obj c (snd (new_constraint w b)))).
Proof. destruct (calm_obj c (snd (new_constraint w b))) as [E1 [E2 E3]]. repeat split; [now rewrite E1|now rewrite E2|]. intros p. now rewrite E3. Qed.
Lemma calm_cons a w : calm w (fst (add_constraint a w)).
Proof.
  destruct a as [b|e|c|]; [apply (calm_new (CConst b) (Constraint (w_ncon w) (CConst b)))|apply (calm_new (CExpr e) (Constraint (w_ncon w) (CExpr e)))|apply calm_obj|apply calm_refl].
Qed.
Lemma calm_diff xs w : calm w (fst (add_all_different_constraint xs w)).
Proof. apply (calm_new (CAllDiff xs) (Constraint (w_ncon w) (CAllDiff xs))). Qed.
Lemma calm_compile c w : calm w (ccompile w c).
Proof. unfold ccompile. destruct (c_body c); repeat split. Qed.
Lemma calm_inv w w' : calm w w' -> pinv w -> pinv w'.
Proof. intros [E1 [E2 _]] [H1 H2]. unfold pinv. rewrite E1, E2. split; assumption. Qed.
Lemma dset_fresh_In {A} (d : dict A) x v y u : ~ In x (dkeys d) -> (In (y, u) (dset d x v) <-> In (y, u) d \/ (y, u) = (x, v)).
Proof. intros H. rewrite (dset_new _ _ _ H), in_app_iff. cbn. intuition. Qed.

Lemma pinv_entry w x info npar par code ncon sol cons : pinv w -> ~ In x (dkeys (vars w)) ->
  (npar = w_npar w /\ (exists d, info = VVar d) \/ npar = S (w_npar w) /\ info = VPar (w_npar w)) ->
  pinv (World par code npar ncon (Model (dset (vars w) x info) cons sol)).
Proof.
  intros [H1 H2] Hx Hi. unfold pinv, vars in *. cbn [w_model m_vars w_npar].
  assert (A : forall y p, In (y, VPar p) (dset (m_vars (w_model w)) x info) -> In (y, VPar p) (m_vars (w_model w)) \/ (y = x /\ info = VPar p)).
  { intros y p H. apply (dset_fresh_In _ _ _ _ _ Hx) in H. destruct H as [H|H]; [now left|]. injection H as -> H. right. auto. }
  split.
  - intros y p H. destruct (A _ _ H) as [H'|[-> E]].
    + apply H1 in H'. destruct Hi as [[-> _]|[-> _]]; lia.
    + destruct Hi as [[_ [d Hd]]|[-> Hp]]; [congruence|]. rewrite Hp in E. injection E as <-. lia.
  - intros y z p Hy Hz. destruct (A _ _ Hy) as [Hy'|[-> Ey]]; destruct (A _ _ Hz) as [Hz'|[-> Ez]]; [eauto| | |reflexivity].
    + apply H1 in Hy'. destruct Hi as [[_ [d Hd]]|[_ Hp]]; [congruence|]. rewrite Hp in Ez. injection Ez as <-. lia.
    + apply H1 in Hz'. destruct Hi as [[_ [d Hd]]|[_ Hp]]; [congruence|]. rewrite Hp in Ey. injection Ey as <-. lia.
Qed.
Lemma pinv_step a w : inv w -> pinv w -> pinv (fst (run_api a w)).
Proof.
  intros Hi Hp. destruct a; cbn [run_api drop fst].
  1, 2: unfold add_bool_variable, add_int_variable; destruct (has_dup _); [exact Hp|];
    destruct (choose_name (w_model w) "_v" nm) as [x|] eqn:E; [|exact Hp];
    apply choose_name_fresh in E; [|exact Hi|auto]; destruct E as [Hx _]; apply pinv_entry; [exact Hp|exact Hx|left; eauto].
  - unfold add_parameter. destruct (choose_name (w_model w) "_p" nm) as [x|] eqn:E; [|exact Hp].
    apply choose_name_fresh in E; [|exact Hi|auto]. destruct E as [Hx _]. apply pinv_entry; [exact Hp|exact Hx|now right].
  - exact (calm_inv _ _ (calm_cons _ _) Hp).
  - exact (calm_inv _ _ (calm_diff _ _) Hp).
  - exact Hp.
  - exact Hp.
  - exact Hp.
  - exact (calm_inv _ _ (calm_compile _ _) Hp).
Qed.
Lemma pinv_history h : forall w, inv w -> pinv w -> pinv (run_history h w).
Proof. induction h as [|a h IH]; intros w Hi Hp; [exact Hp|]. cbn. apply IH; [now apply inv_step|now apply pinv_step]. Qed.
Lemma pinv_init : pinv init_world.
Proof. split; intros; contradiction. Qed.
Lemma parameters_separate h x y p : let w := run_history h init_world in
  In (x, VPar p) (m_vars (w_model w)) -> In (y, VPar p) (m_vars (w_model w)) -> x = y.
Proof. intros w. apply (pinv_history h init_world inv_init pinv_init). Qed.

Lemma upd_other (f : nat -> Z) p q v : p <> q -> upd f p v q = f q.
Proof. intros H. unfold upd. destruct (Nat.eqb_spec q p); [congruence|reflexivity]. Qed.
Lemma step_value a w x p : pinv w -> In (x, VPar p) (vars w) -> (forall v, a <> SetParam p v) -> w_par (fst (run_api a w)) p = w_par w p.
Proof.
  intros [H1 _] Hx Ha. apply H1 in Hx. destruct a; cbn [run_api drop fst].
  1, 2: unfold add_bool_variable, add_int_variable; destruct (has_dup _); [reflexivity|]; destruct (choose_name (w_model w) "_v" nm); reflexivity.
  - unfold add_parameter. destruct (choose_name (w_model w) "_p" nm); [|reflexivity]. cbn. apply upd_other. lia.
  - apply calm_cons.
  - apply calm_diff.
  - reflexivity.
  - cbn. apply upd_other. intros ->. now apply (Ha v).
  - reflexivity.
  - apply calm_compile.
Qed.
Lemma step_entry a w x p : inv w -> In (x, VPar p) (vars w) -> In (x, VPar p) (vars (fst (run_api a w))).
Proof.
  intros Hi Hx.
  assert (E : forall y info, ~ In y (dkeys (vars w)) -> In (x, VPar p) (dset (vars w) y info)) by (intros y info Hy; apply (dset_fresh_In _ _ _ _ _ Hy); now left).
  destruct a; cbn [run_api drop fst].
  1, 2: unfold add_bool_variable, add_int_variable; destruct (has_dup _); [exact Hx|];
    destruct (choose_name (w_model w) "_v" nm) as [y|] eqn:Ey; [|exact Hx]; apply choose_name_fresh in Ey; [|exact Hi|auto]; apply E, Ey.
  - unfold add_parameter. destruct (choose_name (w_model w) "_p" nm) as [y|] eqn:Ey; [|exact Hx]. apply choose_name_fresh in Ey; [|exact Hi|auto]. apply E, Ey.
  - now rewrite (proj1 (calm_cons a w)).
  - now rewrite (proj1 (calm_diff xs w)).
  - exact Hx.
  - exact Hx.
  - exact Hx.
  - now rewrite (proj1 (calm_compile c w)).
Qed.
Lemma history_value h : forall w x p, inv w -> pinv w -> In (x, VPar p) (vars w) -> (forall v, ~ In (SetParam p v) h) -> w_par (run_history h w) p = w_par w p.
Proof.
  induction h as [|a h IH]; intros w x p Hi Hp Hx Hh; [reflexivity|]. cbn [run_history].
  rewrite (IH _ x p); [apply (step_value a w x p Hp Hx)|now apply inv_step|now apply pinv_step|now apply step_entry|].
  - intros v ->. apply (Hh v). now left.
  - intros v H. apply (Hh v). now right.
Qed.
Lemma parameter_value h1 h2 x p : let w := run_history h1 init_world in
  In (x, VPar p) (m_vars (w_model w)) -> (forall v, ~ In (SetParam p v) h2) -> w_par (run_history (h1 ++ h2) init_world) p = w_par w p.
Proof.
  intros w Hx Hh. rewrite run_history_app. apply (history_value h2 w x p); [apply inv_reachable|apply pinv_history; [apply inv_init|apply pinv_init]|exact Hx|exact Hh].
Qed.

Lemma domain_spec h x : let m := w_model (run_history h init_world) in
  (forall d, get_var_domain m x = Ok (Some d) <-> In (x, VVar d) (m_vars m)) /\
  (get_var_domain m x = Ok None <-> exists p, In (x, VPar p) (m_vars m)) /\
  (get_var_domain m x = Err KeyError <-> ~ In x (map fst (m_vars m))).
Proof.
  intros m. pose proof (names_unique h) as Hn. fold m in Hn. unfold get_var_domain.
  destruct (dget (m_vars m) x) as [[d'|p']|] eqn:E; (repeat split); intros H; try discriminate H; try (injection H as <-).
  all: try (now apply dget_In).
  - apply dget_NoDup in H; [|exact Hn]. rewrite E in H. injection H as <-. reflexivity.
  - destruct H as [p H]. apply dget_NoDup in H; [|exact Hn]. congruence.
  - exfalso. apply H. apply dget_Some. eauto.
  - apply dget_NoDup in H; [|exact Hn]. congruence.
  - exists p'. now apply dget_In.
  - exfalso. apply H. apply dget_Some. eauto.
  - apply dget_NoDup in H; [|exact Hn]. congruence.
  - destruct H as [p H]. apply dget_NoDup in H; [|exact Hn]. congruence.
  - now apply dget_None.
Qed.
