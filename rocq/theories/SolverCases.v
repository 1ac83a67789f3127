(** Concrete programs used by the property files: examples and refutations. *)
From Coq Require Import Permutation.
From Verif Require Import Solver SpecFormula SpecSafe SpecSolve ExprFacts DictFacts ModelFacts CompileFacts SafeFacts CodeFacts
  SearchFacts LoopFacts EnumFacts SetupFacts SolveFacts MasterFacts HistoryFacts TotalFacts SolverProps SolverMore.
Open Scope string_scope.
Open Scope list_scope.
Open Scope Z_scope.

Definition env_of (e : env) (o : option (list subst * env * option exn)) : env :=
  match o with Some (_, e', _) => e' | None => e end.
Definition view (o : option (list subst * env * option exn)) : option (list subst * option exn) :=
  match o with Some (ys, _, r) => Some (ys, r) | None => None end.
Lemma view_run o e ys r : view o = Some (ys, r) -> o = Some (ys, env_of e o, r).
Proof. destruct o as [[[ys' e'] r']|]; simpl; intros E; inversion E; subst; reflexivity. Qed.

Definition clk0 : nat -> Z := fun n => Z.of_nat n.
Definition noshuffle : list name -> list name := fun l => l.
Lemma noshuffle_ok : shuffles noshuffle.
Proof. intros l. apply Permutation_refl. Qed.

Lemma unsolvable_run clk shuffle f e sv a :
  m_solvable (w_model (e_world e)) = false -> solve_all clk shuffle (S f) e sv a = Some ([], reset e, None).
Proof. intros H. unfold solve_all. rewrite drain_init. cbv zeta. now rewrite H. Qed.

(** Whatever the fuel, a completed run of an unsolvable model is empty. *)
Lemma unsolvable_runs clk shuffle f e sv a ys e' r :
  m_solvable (w_model (e_world e)) = false -> solve_all clk shuffle f e sv a = Some (ys, e', r) -> ys = [] /\ r = None.
Proof.
  intros H H1. destruct f; [discriminate|]. rewrite unsolvable_run in H1 by assumption. inversion H1; auto.
Qed.

Lemma false_constraint h1 h2 ex clk shuffle f e sv a ys e' r :
  (forall x, ~ occurs x ex) -> evaluate (w_par (run_history h1 init_world)) [] ex = Ok 0 ->
  e_world e = run_history (h1 ++ AddConstraint (AExpr ex) :: h2) init_world ->
  solve_all clk shuffle f e sv a = Some (ys, e', r) -> ys = [] /\ r = None.
Proof.
  intros Hv He Hw H. eapply unsolvable_runs; [|exact H]. rewrite Hw, run_history_app. cbn [run_history].
  apply unsolvable_forever. cbn [run_api].
  destruct (const_expr_call (run_history h1 init_world) ex 0) as (_ & _ & E); auto.
  intros x Hx. apply (Hv x). now apply vars_occurs.
Qed.

(** *** A small model used by several examples: x, y in 1..3, all different, x < y, y > 1. *)
Definition h_small : list api :=
  [AddInt [1; 2; 3] (Some "x"); AddInt [1; 2; 3] (Some "y"); AddAllDiff ["x"; "y"];
   AddConstraint (AExpr (Bin OLt (Var "x") (Var "y"))); AddConstraint (AExpr (Bin OGt (Var "y") (Const 1)))].
Definition b_small (id : nat) : cbody :=
  match id with
  | O => CAllDiff ["x"; "y"]
  | 1%nat => CExpr (Bin OLt (Var "x") (Var "y"))
  | _ => CExpr (Bin OGt (Var "y") (Const 1))
  end.
Definition e_small : env := new_env (run_history h_small init_world).

Lemma small_valid : valid noshuffle e_small no_args.
Proof.
  apply (valid_reachable b_small h_small); try reflexivity.
  - cbn -[str_nat]. repeat split.
  - intros c [].
  - apply noshuffle_ok.
Qed.

Lemma small_cons c : In c (all_cons (w_model (e_world e_small)) no_args) ->
  c = Constraint 0 (b_small 0) \/ c = Constraint 1 (b_small 1) \/ c = Constraint 2 (b_small 2).
Proof. intros [<-|[<-|[<-|[]]]]; auto. Qed.

Lemma small_no_error : no_error (w_par (e_world e_small)) (w_model (e_world e_small)) (all_cons (w_model (e_world e_small)) no_args).
Proof. apply no_error_total. intros c e Hc Hb. destruct (small_cons c Hc) as [->|[->| ->]]; inversion Hb; reflexivity. Qed.

Lemma small_faithful b : faithful (e_world e_small) b (all_cons (w_model (e_world e_small)) no_args).
Proof.
  intros c e Hc Hb. destruct (small_cons c Hc) as [->|[->| ->]]; inversion Hb; subst; destruct b; reflexivity.
Qed.

Lemma small_variable x : (x = "x" \/ x = "y") -> is_variable (w_model (e_world e_small)) x [1; 2; 3].
Proof. intros [->| ->]; cbn; auto. Qed.

Lemma small_groups : groups_ok (w_model (e_world e_small)) (all_cons (w_model (e_world e_small)) no_args).
Proof.
  intros c xs Hc Hb. destruct (small_cons c Hc) as [->|[->| ->]]; inversion Hb; subst. split.
  - exists "x". cbn. auto.
  - intros x [<-|[<-|[]]]; exists [1; 2; 3]; apply small_variable; auto.
Qed.

Lemma small_unlimited : unlimited default_solver no_args.
Proof. split; reflexivity. Qed.

Definition small_run (sv : solver) (a : args) := solve_all clk0 noshuffle 100 e_small sv a.

(** *** Refutations *)

(** C09: compile, change the parameter, solve without compiling. *)
Definition h_stale : list api :=
  [AddInt [0; 1] (Some "x"); AddParameter 0 (Some "p"); AddConstraint (AExpr (Bin OEq (Var "x") (Param 0 "p")))].
Definition e_stale : env := new_env (run_history h_stale init_world).
Definition sv_interp : solver := new_solver GROUPS LNone LNone false.

Definition e_stale1 : env := env_of e_stale (solve_all clk0 noshuffle 50 e_stale default_solver no_args).
Definition e_stale2 : env := set_world e_stale1 (set_param (e_world e_stale1) 0 1).
Definition c_stale : constraint := Constraint 0 (CExpr (Bin OEq (Var "x") (Param 0 "p"))).
Lemma stale_model : w_model (e_world e_stale1) = w_model (e_world e_stale).
Proof. vm_compute. reflexivity. Qed.
Lemma stale_eval : evaluate (w_par (set_param (e_world e_stale1) 0 1)) [("x", 0)] (Bin OEq (Var "x") (Param 0 "p")) = Ok 0.
Proof. vm_compute. reflexivity. Qed.
Lemma stale_concerns : concerns (w_model (e_world e_stale)) c_stale.
Proof.
  split; [exists "x"; cbn; do 2 constructor|]. intros x Hx. cbn in Hx. exists [0; 1].
  apply vars_occurs in Hx. cbn in Hx. destruct Hx as [<-|[]]. cbn; auto.
Qed.
Lemma stale_run1 : solve_all clk0 noshuffle 50 e_stale default_solver no_args = Some ([[("x", 0)]], e_stale1, None).
Proof. apply view_run. vm_compute. reflexivity. Qed.
Lemma stale_run2 : view (solve_all clk0 noshuffle 50 e_stale2 sv_interp no_args) = Some ([[("x", 0)]], None).
Proof. vm_compute. reflexivity. Qed.
Lemma stale_valid : valid noshuffle e_stale no_args.
Proof.
  apply (valid_reachable (fun _ => CExpr (Bin OEq (Var "x") (Param 0 "p"))) h_stale); try reflexivity.
  - cbn -[str_nat]. repeat split.
  - intros c [].
  - apply noshuffle_ok.
Qed.

Lemma stale_refuted : exists clk shuffle f e sv1 sv2 ys1 e1 r1 p v ys2 e2 r2 s,
  valid shuffle e no_args /\
  solve_all clk shuffle f e sv1 no_args = Some (ys1, e1, r1) /\
  solve_all clk shuffle f (set_world e1 (set_param (e_world e1) p v)) sv2 no_args = Some (ys2, e2, r2) /\
  In s ys2 /\
  ~ solves (holds (w_par (set_param (e_world e1) p v))) (w_model (e_world e1)) (m_cons (w_model (e_world e1))) s.
Proof.
  exists clk0, noshuffle, 50%nat, e_stale, default_solver, sv_interp, [[("x", 0)]], e_stale1, None, 0%nat, 1,
    [[("x", 0)]], (env_of e_stale2 (solve_all clk0 noshuffle 50 e_stale2 sv_interp no_args)), None, [("x", 0)].
  split; [apply stale_valid|]. split; [apply stale_run1|]. split; [apply view_run, stale_run2|]. split; [now left|].
  rewrite stale_model. intros [_ Hc]. specialize (Hc c_stale (or_introl eq_refl) stale_concerns).
  destruct Hc as (v & Hv & Hnz). cbn [c_body c_stale] in Hv. rewrite stale_eval in Hv. inversion Hv. congruence.
Qed.

(** C15: a constraint on a parameter alone is evaluated when it is added. *)
Definition h_par : list api :=
  [AddBool (Some "x"); AddParameter 1 (Some "p"); AddConstraint (AExpr (Bin OGt (Param 0 "p") (Const 0))); SetParam 0 0].
Lemma parameter_only_refuted : exists clk shuffle f h p e ys e' r,
  In (AddConstraint (AExpr (Bin OGt (Param 0 p) (Const 0)))) h /\
  e_world e = run_history h init_world /\ w_par (e_world e) 0%nat = 0 /\
  solve_all clk shuffle f e default_solver no_args = Some (ys, e', r) /\ ys <> [].
Proof.
  set (e := new_env (run_history h_par init_world)).
  exists clk0, noshuffle, 50%nat, h_par, "p", e, [[("x", 0)]; [("x", 1)]],
    (env_of e (solve_all clk0 noshuffle 50 e default_solver no_args)), None.
  split; [cbn; auto|]. split; [reflexivity|]. split; [reflexivity|]. split; [|discriminate].
  unfold small_run. apply view_run. vm_compute. reflexivity.
Qed.

(** C23: limit = 0. *)
Definition with_limit (l : lim) (a : args) : args := Args (x_timeout a) (Some l) (x_policy a) (x_additional a).
Definition with_timeout (l : lim) (a : args) : args := Args (Some l) (x_limit a) (x_policy a) (x_additional a).

Lemma limit_zero_refuted : exists clk shuffle f e sv a ys e' r,
  valid shuffle e a /\ limit_of sv a = LNum 0 /\
  solve_all clk shuffle f e sv a = Some (ys, e', r) /\ length ys = 1%nat.
Proof.
  exists clk0, noshuffle, 100%nat, e_small, default_solver, (with_limit (LNum 0) no_args), [[("y", 2); ("x", 1)]],
    (env_of e_small (small_run default_solver (with_limit (LNum 0) no_args))), None.
  split; [exact small_valid|]. split; [reflexivity|]. split; [|reflexivity].
  unfold small_run. apply view_run. vm_compute. reflexivity.
Qed.

(** C29: no variables. *)
Lemma no_variables_refuted : exists clk shuffle f e ys e' r,
  valid shuffle e no_args /\ m_solvable (w_model (e_world e)) = true /\ m_cons (w_model (e_world e)) = [] /\
  solve_all clk shuffle f e default_solver no_args = Some (ys, e', r) /\ ys = [].
Proof.
  exists clk0, noshuffle, 5%nat, (new_env init_world), [],
    (env_of (new_env init_world) (solve_all clk0 noshuffle 5 (new_env init_world) default_solver no_args)), None.
  split; [|repeat split].
  apply (valid_reachable (fun _ => CConst true) []); [exact I|reflexivity|intros c []|apply noshuffle_ok].
Qed.

(** C30: an additional constraint without variables is ignored. *)
Definition a_false : args := Args None None None [Constraint 3 (CConst false)].
Lemma additional_constant_refuted : exists clk shuffle f e sv a ys e' r c,
  valid shuffle e a /\ In c (x_additional a) /\ (forall w s, ceval w c s = Ok false) /\
  solve_all clk shuffle f e sv a = Some (ys, e', r) /\ ys <> [].
Proof.
  exists clk0, noshuffle, 100%nat, e_small, default_solver, a_false, [[("y", 2); ("x", 1)]; [("y", 3); ("x", 1)]; [("y", 3); ("x", 2)]],
    (env_of e_small (small_run default_solver a_false)), None, (Constraint 3 (CConst false)).
  split; [|split; [now left|split; [reflexivity|split; [|discriminate]]]].
  - apply (valid_reachable (fun id => if Nat.eqb id 3 then CConst false else b_small id) h_small); try reflexivity.
    + cbn -[str_nat]. repeat split.
    + intros c [<-|[]]. reflexivity.
    + apply noshuffle_ok.
  - unfold small_run. apply view_run. vm_compute. reflexivity.
Qed.

(** C57: a miscompiled constraint. *)
Definition or_and : expr := Bin OAnd (Bin OOr (Var "a") (Var "b")) (Var "c").
Definition h_orand : list api :=
  [AddBool (Some "a"); AddBool (Some "b"); AddBool (Some "c"); AddConstraint (AExpr or_and)].
Definition e_orand : env := new_env (run_history h_orand init_world).
Definition s_orand : subst := [("c", 0); ("b", 0); ("a", 1)].
Lemma orand_eval : evaluate (w_par (e_world e_orand)) s_orand or_and = Ok 0.
Proof. vm_compute. reflexivity. Qed.
Lemma orand_concerns : concerns (w_model (e_world e_orand)) (Constraint 0 (CExpr or_and)).
Proof.
  split; [exists "a"; cbn; do 3 constructor|]. intros x Hx. cbn in Hx. exists [0; 1].
  apply vars_occurs in Hx. cbn in Hx. destruct Hx as [<-|[<-|[<-|[]]]]; cbn; auto.
Qed.

Lemma miscompiled_refuted : exists clk shuffle f e ys e' r s,
  valid shuffle e no_args /\
  no_error (w_par (e_world e)) (w_model (e_world e)) (all_cons (w_model (e_world e)) no_args) /\
  solve_all clk shuffle f e default_solver no_args = Some (ys, e', r) /\
  In s ys /\ ~ solves (holds (w_par (e_world e))) (w_model (e_world e)) (m_cons (w_model (e_world e))) s.
Proof.
  exists clk0, noshuffle, 100%nat, e_orand,
   [[("c", 0); ("b", 0); ("a", 1)]; [("c", 0); ("b", 1); ("a", 1)]; [("c", 1); ("b", 0); ("a", 1)];
    [("c", 1); ("b", 1); ("a", 0)]; [("c", 1); ("b", 1); ("a", 1)]],
   (env_of e_orand (solve_all clk0 noshuffle 100 e_orand default_solver no_args)), None, s_orand.
  split; [|split; [|split; [|split]]].
  - apply (valid_reachable (fun id => CExpr or_and) h_orand); try reflexivity.
    + cbn -[str_nat]. repeat split.
    + intros c [].
    + apply noshuffle_ok.
  - apply no_error_total. intros c ex [<-|[]] E. inversion E. reflexivity.
  - unfold small_run. apply view_run. vm_compute. reflexivity.
  - cbn. auto.
  - intros [_ Hc]. destruct (Hc (Constraint 0 (CExpr or_and)) (or_introl eq_refl) orand_concerns) as (v & Hv & Hnz).
    cbn [c_body] in Hv. rewrite orand_eval in Hv. inversion Hv. congruence.
Qed.

(** C26: elapsed is 0 although the clock showed that time passed. *)
Definition h_unsat : list api :=
  [AddInt [1; 2] (Some "x"); AddInt [1; 2] (Some "y"); AddConstraint (AExpr (Bin OGt (Var "x") (Bin OAdd (Var "y") (Const 5))))].
Lemma elapsed_refuted : exists shuffle f e sv a ys e' r,
  valid shuffle e a /\ solve_all clk0 shuffle f e sv a = Some (ys, e', r) /\
  clk0 (e_clk e' - 1) - clk0 (e_clk e) = 5 /\ get_stats e' = (0, 0, None).
Proof.
  set (e := new_env (run_history h_unsat init_world)).
  exists noshuffle, 100%nat, e, default_solver, (with_timeout (LNum 1000) no_args), [],
    (env_of e (solve_all clk0 noshuffle 100 e default_solver (with_timeout (LNum 1000) no_args))), None.
  split; [|split; [|split; vm_compute; reflexivity]].
  - apply (valid_reachable (fun id => CExpr (Bin OGt (Var "x") (Bin OAdd (Var "y") (Const 5)))) h_unsat); try reflexivity.
    + cbn -[str_nat]. repeat split.
    + intros c [].
    + apply noshuffle_ok.
  - unfold small_run. apply view_run. vm_compute. reflexivity.
Qed.

(** C58: INFINITY as an argument of solve. *)
Lemma infinity_argument_refuted : exists clk shuffle f e sv ys e' r,
  valid shuffle e (with_limit LInfinity no_args) /\
  solve_all clk shuffle f e sv (with_limit LInfinity no_args) = Some (ys, e', r) /\
  length ys = 1%nat /\ r = Some TypeError.
Proof.
  exists clk0, noshuffle, 100%nat, e_small, default_solver, [[("y", 2); ("x", 1)]],
    (env_of e_small (small_run default_solver (with_limit LInfinity no_args))), (Some TypeError).
  split; [exact small_valid|]. split; [|split; reflexivity].
  unfold small_run. apply view_run. vm_compute. reflexivity.
Qed.

(** C33: two enumerations of one solver. *)
Definition next_env (e : env) (o : option (env * gen * event)) : env := match o with Some (e', _, _) => e' | None => e end.
Definition next_gen (g : gen) (o : option (env * gen * event)) : gen := match o with Some (_, g', _) => g' | None => g end.
Definition next_event (o : option (env * gen * event)) : option event := match o with Some (_, _, v) => Some v | None => None end.
Lemma next_run o e g v : next_event o = Some v -> o = Some (next_env e o, next_gen g o, v).
Proof. destruct o as [[[e' g'] v']|]; simpl; intros E; inversion E; reflexivity. Qed.

Definition il_a1 : args := with_limit (LNum 1) no_args.
Definition il_o1 := next clk0 noshuffle 100 e_small (GInit default_solver il_a1).
Definition il_e1 : env := next_env e_small il_o1.
Definition il_g1 : gen := next_gen GDone il_o1.
Definition il_o2 := next clk0 noshuffle 100 il_e1 (GInit default_solver no_args).
Definition il_e2 : env := next_env il_e1 il_o2.
Definition il_g2 : gen := next_gen GDone il_o2.
Definition il_o3 := next clk0 noshuffle 100 il_e2 il_g1.
Definition il_s : subst := [("y", 2); ("x", 1)].
Lemma il_run1 : next clk0 noshuffle 100 e_small (GInit default_solver il_a1) = Some (il_e1, il_g1, EvYield il_s).
Proof. unfold il_e1, il_g1, il_o1. apply next_run. vm_compute. reflexivity. Qed.
Lemma il_run2 : next clk0 noshuffle 100 il_e1 (GInit default_solver no_args) = Some (il_e2, il_g2, EvYield il_s).
Proof. unfold il_e2, il_g2, il_o2. apply next_run. vm_compute. reflexivity. Qed.
Lemma il_run3 : next clk0 noshuffle 100 il_e2 il_g1 = Some (next_env il_e2 il_o3, next_gen GDone il_o3, EvStop).
Proof. unfold il_o3. apply next_run. vm_compute. reflexivity. Qed.

Lemma interleaved_stats_refuted : exists clk shuffle f e sv a1 a2 e1 g1 s1 e2 g2 s2 e3 g3,
  valid shuffle e a1 /\ valid shuffle e a2 /\
  limit_of sv a1 = LNum 1 /\ limit_of sv a2 = LNone /\ timeout_of sv a2 = LNone /\
  (* start the first, start the second, resume the first *)
  next clk shuffle f e (GInit sv a1) = Some (e1, g1, EvYield s1) /\
  next clk shuffle f e1 (GInit sv a2) = Some (e2, g2, EvYield s2) /\
  next clk shuffle f e2 g1 = Some (e3, g3, EvStop) /\
  e_interrupt e2 = None /\ snd (get_stats e3) = Some ILimit.
Proof.
  exists clk0, noshuffle, 100%nat, e_small, default_solver, il_a1, no_args, il_e1, il_g1, il_s,
    il_e2, il_g2, il_s, (next_env il_e2 il_o3), (next_gen GDone il_o3).
  split; [exact small_valid|]. split; [exact small_valid|]. split; [reflexivity|]. split; [reflexivity|]. split; [reflexivity|].
  split; [exact il_run1|]. split; [exact il_run2|]. split; [exact il_run3|].
  split; vm_compute; reflexivity.
Qed.

Lemma small_hypotheses : exists ys e', let m := w_model (e_world e_small) in
  small_run default_solver no_args = Some (ys, e', None) /\ length ys = 3%nat /\
  valid noshuffle e_small no_args /\ unlimited default_solver no_args /\ m_solvable m = true /\ has_variable m /\
  no_raise (ceval (e_world e')) m (all_cons m no_args) /\ groups_ok m (all_cons m no_args).
Proof.
  exists [[("y", 2); ("x", 1)]; [("y", 3); ("x", 1)]; [("y", 3); ("x", 2)]], (env_of e_small (small_run default_solver no_args)).
  cbv zeta. unfold small_run.
  assert (Hrun : solve_all clk0 noshuffle 100 e_small default_solver no_args =
    Some ([[("y", 2); ("x", 1)]; [("y", 3); ("x", 1)]; [("y", 3); ("x", 2)]], env_of e_small (solve_all clk0 noshuffle 100 e_small default_solver no_args), None)).
  { apply view_run. vm_compute. reflexivity. }
  split; [exact Hrun|]. split; [reflexivity|]. split; [exact small_valid|]. split; [exact small_unlimited|].
  split; [reflexivity|]. split; [exists "x", [1; 2; 3]; apply small_variable; now left|]. split; [|exact small_groups].
  revert Hrun. generalize (env_of e_small (solve_all clk0 noshuffle 100 e_small default_solver no_args)). intros e' Hrun.
  destruct (run_cases _ _ _ _ _ _ _ _ _ small_valid Hrun) as [(E & _)|(_ & _ & _ & u & order & ys0 & r0 & Hx)]; [discriminate|].
  cbv zeta in Hx. destruct Hx as (_ & _ & Hw & _). rewrite Hw.
  intros c s Hc Hcc Hd Hm.
  destruct (holds_iff (e_world e_small) true (all_cons (w_model (e_world e_small)) no_args) (w_model (e_world e_small)) c s) as (b & Hb & _);
    try assumption.
  - exact (proj1 (proj2 (proj2 (proj2 small_valid)))).
  - exact (small_faithful true).
  - exact small_no_error.
  - exists b. exact Hb.
Qed.

(** C59 *)
Definition h_ignored : list api :=
  [AddBool (Some "x"); AddParameter 1 (Some "p"); AddConstraint (AExpr (Bin OEq (Var "x") (Var "p")))].
Definition e_ignored : env := new_env (run_history h_ignored init_world).
Definition c_ignored : constraint := Constraint 0 (CExpr (Bin OEq (Var "x") (Var "p"))).
Lemma ignored_refuted : exists clk shuffle f e ys e' r c s,
  valid shuffle e no_args /\ In c (m_cons (w_model (e_world e))) /\
  solve_all clk shuffle f e default_solver no_args = Some (ys, e', r) /\ r = None /\ In s ys /\
  ~ evaluates_true (e_world e') s c.
Proof.
  exists clk0, noshuffle, 50%nat, e_ignored, [[("x", 0)]; [("x", 1)]],
    (env_of e_ignored (solve_all clk0 noshuffle 50 e_ignored default_solver no_args)), None, c_ignored, [("x", 0)].
  split; [|split; [now left|split; [apply view_run; vm_compute; reflexivity|split; [reflexivity|split; [now left|]]]]].
  - apply (valid_reachable (fun _ => CExpr (Bin OEq (Var "x") (Var "p"))) h_ignored); try reflexivity.
    + cbn -[str_nat]. repeat split.
    + intros c [].
    + apply noshuffle_ok.
  - unfold evaluates_true.
    assert (E : ceval (e_world (env_of e_ignored (solve_all clk0 noshuffle 50 e_ignored default_solver no_args))) c_ignored [("x", 0)] = Err TypeError)
      by (vm_compute; reflexivity).
    rewrite E. discriminate.
Qed.

(** C60 *)
Lemma interrupt_exhaustive_refuted : exists clk shuffle f1 f2 e sv a ys e1 e2,
  valid shuffle e a /\ limit_of sv a = LNum 3 /\
  solve_all clk shuffle f1 e sv a = Some (ys, e1, None) /\ snd (get_stats e1) = Some ILimit /\
  solve_all clk shuffle f2 e sv no_args = Some (ys, e2, None) /\ snd (get_stats e2) = None.
Proof.
  exists clk0, noshuffle, 100%nat, 100%nat, e_small, default_solver, (with_limit (LNum 3) no_args),
   [[("y", 2); ("x", 1)]; [("y", 3); ("x", 1)]; [("y", 3); ("x", 2)]],
   (env_of e_small (solve_all clk0 noshuffle 100 e_small default_solver (with_limit (LNum 3) no_args))),
   (env_of e_small (solve_all clk0 noshuffle 100 e_small default_solver no_args)).
  split; [exact small_valid|]. split; [reflexivity|]. split; [apply view_run; vm_compute; reflexivity|].
  split; [vm_compute; reflexivity|]. split; [apply view_run; vm_compute; reflexivity|]. vm_compute; reflexivity.
Qed.
