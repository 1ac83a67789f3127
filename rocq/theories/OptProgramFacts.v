(** Proofs about programs with optimizations: how their statements are made of those of Program.v. *)
From Verif Require Import Solver Program OptProgram SpecFormula SpecSafe SpecSolve SpecIsolation SpecInterleave SpecOptimize SpecProgram SpecOptProgram
  ExprFacts DictFacts ModelFacts CompileFacts CodeFacts SearchFacts LoopFacts SetupFacts MasterFacts HistoryFacts SolverProps SolverMore SolverExtra
  InterleaveFacts IsolationFacts InterleaveStats ProgramFacts ProgramRun ProgramInv ProgramProps OptimizeFacts.
Open Scope list_scope.
Open Scope Z_scope.

Section Small.
Variables (clk : nat -> Z) (shuffle : nat -> list name -> list name) (f : nat) (B : nat -> cbody).

(** ** Sequences of statements of Program.v *)

Definition same (p p' : prog) : Prop :=
  p_par p' = p_par p /\ p_code p' = p_code p /\ p_npar p' = p_npar p /\ p_ncon p' = p_ncon p /\
  (forall i, p_models p' i = p_models p i) /\ p_nmodels p' = p_nmodels p /\ p_clk p' = p_clk p /\ p_timers p' = p_timers p /\
  p_ntimers p' = p_ntimers p /\ p_solvers p' = p_solvers p /\ p_nsolvers p' = p_nsolvers p /\ p_gens p' = p_gens p /\ p_ngens p' = p_ngens p.

(** From [p] to [p'] by statements that assign no parameter, except those of [R]. *)
Inductive small (R : nat -> Prop) : prog -> prog -> Prop :=
| small_here p : small R p p
| small_step p x p1 o p' : step clk shuffle f p x = Some (p1, o) -> proper B p x ->
    (assigns_nothing x \/ exists i r v, x = Call i (SetParam r v) /\ R r) -> small R p1 p' -> small R p p'
| small_same p p1 p' : same p p1 -> small R p1 p' -> small R p p'.

Lemma small_then R p p1 p2 : small R p p1 -> small R p1 p2 -> small R p p2.
Proof. intros H. induction H as [p|p x q o p1 E1 E2 E3 H IH|p q p1 E1 H IH]; intros K; [exact K|eapply small_step; eauto|eapply small_same; eauto]. Qed.

Lemma small_one R p x p1 o : step clk shuffle f p x = Some (p1, o) -> proper B p x -> assigns_nothing x -> small R p p1.
Proof. intros H1 H2 H3. eapply small_step; eauto. apply small_here. Qed.

Lemma same_tinv p p' : same p p' -> tinv p -> tinv p'.
Proof.
  intros (E1 & E2 & E3 & E4 & E5 & E6 & E7 & E8 & E9 & E10 & E11 & E12 & E13) H. apply (tinv_keep p); auto; [lia|]. intros r _. now rewrite E8.
Qed.
Lemma same_pinv p p' : same p p' -> pinv B p -> pinv B p'.
Proof.
  intros (E1 & E2 & E3 & E4 & E5 & E6 & E7 & E8 & E9 & E10 & E11 & E12 & E13) H. apply (pinv_keep B p); auto. intros g a. rewrite E12. auto.
Qed.

Lemma small_inv R p p' : small R p p' -> tinv p -> pinv B p -> tinv p' /\ pinv B p'.
Proof.
  intros H. induction H as [p|p x p1 o p' H1 H2 H3 H IH|p p1 p' H1 H IH]; intros Ht Hp; [auto| |].
  - apply IH; [eapply tinv_step; eauto|eapply pinv_step; eauto].
  - apply IH; [eapply same_tinv; eauto|eapply same_pinv; eauto].
Qed.

Lemma api_ge a w : (w_npar w <= w_npar (fst (run_api a w)))%nat /\ (w_ncon w <= w_ncon (fst (run_api a w)))%nat.
Proof. pose proof (api_heap a w) as H. cbv zeta in H. destruct H as (H1 & H2 & _). split; [exact H1|]. rewrite H2. destruct (makes a); lia. Qed.

Lemma step_sizes p x p1 o : tinv p -> step clk shuffle f p x = Some (p1, o) ->
  (p_npar p <= p_npar p1)%nat /\ (p_ncon p <= p_ncon p1)%nat /\ (p_ngens p <= p_ngens p1)%nat /\ (p_nmodels p <= p_nmodels p1)%nat /\ (p_nsolvers p <= p_nsolvers p1)%nat.
Proof.
  intros Ht H. assert (Hn : forall q, p_npar q = p_npar p -> p_ncon q = p_ncon p -> (p_ngens p <= p_ngens q)%nat -> (p_nmodels p <= p_nmodels q)%nat -> (p_nsolvers p <= p_nsolvers q)%nat ->
    (p_npar p <= p_npar q)%nat /\ (p_ncon p <= p_ncon q)%nat /\ (p_ngens p <= p_ngens q)%nat /\ (p_nmodels p <= p_nmodels q)%nat /\ (p_nsolvers p <= p_nsolvers q)%nat) by (intros; lia).
  destruct x as [|i a|pl t lm c|s v|s v|s v|s v|s i a|g|g|s]; cbn [step] in H; cbv zeta in H.
  - injection H as <- <-. apply Hn; cbn; lia.
  - destruct (Nat.ltb i (p_nmodels p)); [|injection H as <- <-; apply Hn; cbn; lia].
    pose proof (api_ge a (world_of p i)) as Hh. destruct (run_api a (world_of p i)) as [w r]. injection H as <- <-. cbn in *. lia.
  - injection H as <- <-. apply Hn; cbn; lia.
  - destruct (Nat.ltb s (p_nsolvers p)); injection H as <- <-; apply Hn; cbn; lia.
  - destruct (Nat.ltb s (p_nsolvers p)); injection H as <- <-; apply Hn; cbn; lia.
  - destruct (Nat.ltb s (p_nsolvers p)); injection H as <- <-; apply Hn; cbn; lia.
  - destruct (Nat.ltb s (p_nsolvers p)); injection H as <- <-; apply Hn; cbn; lia.
  - destruct (_ && _); injection H as <- <-; apply Hn; cbn; lia.
  - destruct (Nat.ltb g (p_ngens p)) eqn:Eg; [|injection H as <- <-; apply Hn; cbn; lia].
    assert (H' : step clk shuffle f p (Next g) = Some (p1, o)) by (cbn [step]; cbv zeta; rewrite Eg; exact H).
    apply Nat.ltb_lt in Eg. destruct (step_next clk shuffle f p g p1 o H' Eg) as (e & y & ev & En & -> & ->). clear H H'.
    assert (Hw : exists cmp L, e_world e = compile_all cmp (e_world (own_env p g)) L).
    { unfold starting in En. pose proof (starting_timed p g Ht) as Hs. unfold starting in Hs. destruct (go_state (p_gens p g)) as [a|x] eqn:Es.
      - destruct (next_world_init _ _ _ _ _ _ _ _ _ En) as (pre & post & _ & ->). eauto.
      - exists false, []. destruct Ht as (T1 & _). specialize (T1 g). rewrite Es in T1. eapply next_world; [| |exact En]; [exact Hs|apply T1]. }
    destruct Hw as (cmp & L & Ew). destruct (compile_all_sizes cmp L (e_world (own_env p g))) as [Es1 Es2]. apply Hn; cbn; rewrite ?Ew, ?Es1, ?Es2; cbn; lia.
  - destruct (Nat.ltb g (p_ngens p)); injection H as <- <-; apply Hn; cbn; lia.
  - destruct (Nat.ltb s (p_nsolvers p)); injection H as <- <-; apply Hn; cbn; lia.
Qed.

Lemma small_sizes R p p' : small R p p' -> tinv p -> 
  (p_npar p <= p_npar p')%nat /\ (p_ncon p <= p_ncon p')%nat /\ (p_ngens p <= p_ngens p')%nat /\ (p_nmodels p <= p_nmodels p')%nat /\ (p_nsolvers p <= p_nsolvers p')%nat.
Proof.
  intros H. induction H as [p|p x p1 o p' H1 H2 H3 H IH|p p1 p' H1 H IH]; intros Ht; [lia| |].
  - pose proof (step_sizes p x p1 o Ht H1). specialize (IH (tinv_step _ _ _ _ _ _ _ Ht H1)). lia.
  - specialize (IH (same_tinv _ _ H1 Ht)). destruct H1 as (E1 & E2 & E3 & E4 & E5 & E6 & E7 & E8 & E9 & E10 & E11 & E12 & E13). lia.
Qed.

(** ** The heap *)

(** Each constraint of [cs] has the code of its present meaning. *)
Definition current (cs : list constraint) (p : prog) : Prop :=
  forall c e, In c cs -> c_body c = CExpr e -> p_code p (c_id c) = Some (as_function (p_par p) e).

Definition needs (cs : list constraint) (r : nat) : Prop := exists c e, In c cs /\ c_body c = CExpr e /\ uses r e.

Lemma known_later p p' c : (p_ncon p <= p_ncon p')%nat -> known B p c -> known B p' c.
Proof. intros H [H1 H2]. split; [lia|exact H2]. Qed.

Lemma step_current U cs p x p' o : tinv p -> pinv B p -> proper B p x -> step clk shuffle f p x = Some (p', o) ->
  (assigns_nothing x \/ exists i r v, x = Call i (SetParam r v) /\ ~ U r) ->
  (forall r, U r -> (r < p_npar p)%nat) -> (forall r, needs cs r -> U r) -> (forall c, In c cs -> known B p c) ->
  (forall r, U r -> p_par p' r = p_par p r) /\ (current cs p -> current cs p').
Proof.
  intros Ht Hi Hp Hs Hx HU Hn Hk. destruct Hx as [Hx|(i & r & v & -> & Hr)].
  - destruct (step_heap clk shuffle f B p x p' o Ht Hi Hp Hs Hx) as [(K1 & K2 & K3) C]. split; [intros r Hr; apply K3, HU, Hr|].
    intros Hc c e Hin Eb. assert (E : as_function (p_par p') e = as_function (p_par p) e).
    { apply as_function_uses. intros r Hu. apply K3, HU, Hn. exists c, e. auto. }
    rewrite E. destruct (C c e (Hk c Hin) Eb) as [->|H]; [now apply Hc|exact H].
  - cbn [step run_api] in Hs. destruct (Nat.ltb i (p_nmodels p)); injection Hs as <- <-; [|auto]. cbn. split.
    + intros r0 H0. apply upd_other. intros ->. now apply Hr.
    + intros Hc c e Hin Eb. cbn. rewrite (Hc c e Hin Eb). f_equal. apply as_function_uses. intros r0 Hu. symmetry. apply upd_other.
      intros ->. apply Hr, Hn. exists c, e. auto.
Qed.

Lemma small_current (R U : nat -> Prop) cs p p' : small R p p' -> tinv p -> pinv B p ->
  (forall r, R r -> ~ U r) -> (forall r, U r -> (r < p_npar p)%nat) -> (forall r, needs cs r -> U r) -> (forall c, In c cs -> known B p c) ->
  (forall r, U r -> p_par p' r = p_par p r) /\ (current cs p -> current cs p').
Proof.
  intros H. induction H as [p|p x p1 o p' H1 H2 H3 H IH|p p1 p' H1 H IH]; intros Ht Hp HR HU Hn Hk; [auto| |].
  - pose proof (step_sizes p x p1 o Ht H1) as Hz.
    destruct (step_current U cs p x p1 o Ht Hp H2 H1) as [A1 A2]; auto.
    { destruct H3 as [H3|(i & r & v & -> & Hr)]; [auto|]. right. exists i, r, v. auto. }
    destruct IH as [C1 C2]; auto.
    + eapply tinv_step; eauto.
    + eapply pinv_step; eauto.
    + intros r Hr. specialize (HU r Hr). lia.
    + intros c Hc. apply (known_later p); [lia|auto].
    + split; [intros r Hr; rewrite C1, A1; auto|auto].
  - pose proof (same_tinv _ _ H1 Ht) as Ht1. pose proof (same_pinv _ _ H1 Hp) as Hp1.
    destruct H1 as (E1 & E2 & E3 & E4 & E5 & E6 & E7 & E8 & E9 & E10 & E11 & E12 & E13).
    destruct IH as [C1 C2]; auto.
    + intros r Hr. rewrite E3. auto.
    + intros c Hc. apply (known_later p); [lia|auto].
    + split; [intros r Hr; rewrite C1, E1; auto|]. intros Hc. apply C2. intros c e Hin Eb. rewrite E1, E2. now apply Hc.
Qed.

Lemma world_put p i w : world_of (put_world p i w) i = w.
Proof. destruct w. unfold world_of, put_world. cbn. now rewrite upd_same. Qed.

Lemma put_put p i w w' : same (put_world (put_world p i w) i w') (put_world p i w').
Proof. repeat (split; [reflexivity|]). split; [|repeat split]. intros j. cbn. unfold upd. now destruct (Nat.eqb j i). Qed.

Lemma put_same p i : same p (put_world p i (world_of p i)).
Proof. repeat (split; [reflexivity|]). split; [|repeat split]. intros j. cbn. unfold upd. destruct (Nat.eqb_spec j i) as [->|]; reflexivity. Qed.

(** One call on model [i]. *)
Lemma small_call R p i w a : (i < p_nmodels p)%nat -> proper B (put_world p i w) (Call i a) ->
  (assigns_nothing (Call i a) \/ exists r v, a = SetParam r v /\ R r) ->
  small R (put_world p i w) (put_world p i (fst (run_api a w))).
Proof.
  intros Hi Hp Hx. destruct (run_api a w) as [w' r] eqn:E. cbn [fst]. eapply (small_step R _ (Call i a)); [|exact Hp| |].
  - cbn [step]. cbv zeta. rewrite (proj2 (Nat.ltb_lt _ _)) by exact Hi. rewrite world_put, E. reflexivity.
  - destruct Hx as [Hx|(r' & v & -> & Hr)]; [auto|]. right. exists i, r', v. auto.
  - eapply small_same; [|apply small_here]. apply put_put.
Qed.

(** ** The calls made by [optimize] *)

Lemma uses_bound r o ns x b y : uses r (bound_expr o ns x b y) -> r = ns \/ r = b \/ uses r (o_expr o).
Proof.
  unfold bound_expr, bound_cmp. intros H.
  assert (H2 : r = ns \/ uses r (match o_expr o with Var x0 => Bin (if o_max o then OLt else OGt) (Param b y) (Var x0)
    | e => Bin (if o_max o then OGt else OLt) e (Param b y) end)).
  { inversion H; subst; [|now right]. left. match goal with H : uses _ (Param _ _) |- _ => inversion H; reflexivity end. }
  clear H. destruct H2 as [->|H]; [now left|]. right.
  assert (Hp : uses r (Param b y) -> r = b) by (intros K; inversion K; reflexivity).
  destruct (o_expr o); inversion H; subst; auto.
Qed.

Definition prefix_bodies (os : list oarg) (w : world) : Prop :=
  forall os1 os2 w' oms o m, os = os1 ++ os2 -> make_constraints os1 w = (w', Ok oms) -> In (o, m) oms -> B (c_id (mm_cons m)) = c_body (mm_cons m).

Lemma small_make R p i os : forall w0 w r, (i < p_nmodels p)%nat -> numbered (w_model w0) ->
  (forall o q, In (OObj o) os -> uses q (o_expr o) -> (q < w_npar w0)%nat) -> prefix_bodies os w0 ->
  make_constraints os w0 = (w, r) -> small R (put_world p i w0) (put_world p i w).
Proof.
  induction os as [|[o|] os IH]; intros w0 w r Hi Hn Hu Hb H; cbn [make_constraints] in H.
  - injection H as <- <-. apply small_here.
  - destruct (make_constraint_spec o w0 Hn) as (w1 & E & (aux & Hx & _) & Hn1 & _ & Hp1 & Hc1 & _).
    set (m := MinMax _ _ _) in E.
    assert (Hbody : B (w_ncon w0) = c_body (mm_cons m)).
    { apply (Hb [OObj o] os w1 [(o, m)] o m); [reflexivity| |now left]. cbn [make_constraints]. now rewrite E. }
    rewrite E in H. pose proof E as E0. unfold make_constraint in E.
    destruct (add_parameter 1 None w0) as [wa [ns|ex]] eqn:Ea; [|discriminate].
    destruct (add_parameter 0 None wa) as [wb [b|ex]] eqn:Eb; [|discriminate].
    destruct (bound_expression o ns b) as [[z|e]|ex] eqn:Ee; [discriminate| |discriminate].
    destruct (new_constraint wb (CExpr e)) as [c wc] eqn:Ec. injection E as <- Ec' Enb.
    apply (small_then R (put_world p i w0) (put_world p i wc)).
    + assert (Ewa : fst (run_api (AddParameter 1 None) w0) = wa) by (cbn [run_api]; unfold drop; now rewrite Ea).
      assert (Ewb : fst (run_api (AddParameter 0 None) wa) = wb) by (cbn [run_api]; unfold drop; now rewrite Eb).
      assert (Ewc : fst (run_api (NewConstraint (CExpr e)) wb) = wc) by (cbn [run_api]; now rewrite Ec).
      apply (small_then _ _ (put_world p i wa)); [rewrite <- Ewa; apply small_call; auto; [exact Logic.I|left; exact Logic.I]|].
      apply (small_then _ _ (put_world p i wb)); [rewrite <- Ewb; apply small_call; auto; [exact Logic.I|left; exact Logic.I]|].
      rewrite <- Ewc. apply small_call; auto; [|left; exact Logic.I]. cbn.
      unfold new_constraint in Ec. injection Ec as Ec1 Ec2.
      assert (Enc : w_ncon wb = w_ncon w0) by (rewrite <- Ec2 in Hc1; cbn in Hc1; lia).
      assert (Enp : w_npar wb = S (S (w_npar w0))) by (rewrite <- Ec2 in Hp1; cbn in Hp1; lia).
      assert (Ebd : CExpr e = c_body (mm_cons m)) by (change (c_body (Constraint (w_ncon wb) (CExpr e)) = c_body (mm_cons m)); rewrite Ec1, Ec'; reflexivity).
      rewrite Enc. split; [congruence|]. intros e' q Ee' Hq. cbn. rewrite Enp. rewrite Ebd in Ee'. cbn in Ee'. injection Ee' as <-.
      apply uses_bound in Hq. destruct Hq as [->|[->|Hq]]; [lia|lia|]. specialize (Hu o q (or_introl eq_refl) Hq). lia.
    + assert (Ew : exists r', make_constraints os wc = (w, r')) by (destruct (make_constraints os wc) as [w2 [oms|ex]]; injection H as <- <-; eauto).
      destruct Ew as (r' & Ew). apply (IH wc w r'); auto.
      * intros o' q Ho Hq. specialize (Hu o' q (or_intror Ho) Hq). lia.
      * intros os1 os2 w' oms o' m' -> Em Hin. apply (Hb (OObj o :: os1) os2 w' ((o, m) :: oms) o' m'); [reflexivity| |now right].
        cbn [make_constraints]. now rewrite E0, Em.
  - injection H as <- <-. apply small_here.
Qed.

Definition aux_of (oms : list (objective * minmax)) (r : nat) : Prop := exists o m, In (o, m) oms /\ (r = mm_not_set m \/ r = mm_bound m).

Lemma small_add_each p i oms sol : forall p' r, (i < p_nmodels p)%nat -> (forall o m, In (o, m) oms -> known B p (mm_cons m)) ->
  add_each p i oms sol = (p', r) -> small (aux_of oms) p p'.
Proof.
  enough (H : forall (R : nat -> Prop) oms p p' r, (forall k, aux_of oms k -> R k) -> (i < p_nmodels p)%nat -> (forall o m, In (o, m) oms -> known B p (mm_cons m)) ->
    add_each p i oms sol = (p', r) -> small R p p') by (intros p' r; apply H; auto).
  clear p oms. intros R oms. induction oms as [|[o m] oms IH]; intros p p' r HR Hi Hk H; cbn [add_each] in H.
  - injection H as <- <-. apply small_here.
  - unfold add_solution in H. destruct (evaluate _ _ _) as [v|ex]; cbn [bind] in H; [|injection H as <- <-; apply small_here].
    apply (small_then _ _ (put_world p i (set_bound (world_of p i) m v))).
    + eapply small_same; [apply (put_same p i)|]. unfold set_bound.
      set (w1 := set_param (world_of p i) (mm_not_set m) 0). set (w2 := set_param w1 (mm_bound m) v).
      apply (small_then _ _ (put_world p i w1)).
      { apply (small_call R p i (world_of p i) (SetParam (mm_not_set m) 0) Hi); [exact Logic.I|]. right. exists (mm_not_set m), 0. split; [reflexivity|].
        apply HR. exists o, m. split; [now left|auto]. }
      apply (small_then _ _ (put_world p i w2)).
      { apply (small_call R p i w1 (SetParam (mm_bound m) v) Hi); [exact Logic.I|]. right. exists (mm_bound m), v. split; [reflexivity|].
        apply HR. exists o, m. split; [now left|auto]. }
      destruct (w_code w2 (c_id (mm_cons m))); [|apply small_here].
      apply (small_call R p i w2 (CompileConstraint (mm_cons m)) Hi); [|left; exact Logic.I]. cbn. apply (Hk o m). now left.
    + apply (IH _ p' r); auto.
      * intros k (o' & m' & Hin & Hr). apply HR. exists o', m'. split; [now right|exact Hr].
      * intros o' m' Hin. destruct (Hk o' m' (or_intror Hin)) as [A C]. split; [|exact C]. cbn.
        assert (E : w_ncon (set_bound (world_of p i) m v) = p_ncon p); [|lia].
        unfold set_bound. destruct (w_code _ _); [|reflexivity]. unfold ccompile. destruct (c_body (mm_cons m)); reflexivity.
Qed.

End Small.
