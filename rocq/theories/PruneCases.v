(** The programs of the examples of Properties_Prune.v. *)
From Coq Require Import Permutation.
From Verif Require Import Solver SolverWatch SpecFormula SpecSafe SpecSolve HistoryFacts SolverProps SolverCases WatchCases.
Open Scope string_scope.
Open Scope list_scope.
Open Scope Z_scope.

(** x, y, z in 0..2, all different, x < y (C93), and additionally y + z == 2. *)
Definition c_more : constraint := Constraint 2 (CExpr (Bin OEq (Bin OAdd (Var "y") (Var "z")) (Const 2))).
Definition a_more : args := Args None None None [c_more].
Definition b_more (id : nat) : cbody := match id with S (S O) => c_body c_more | _ => b_watch id end.

Lemma more_valid : valid noshuffle e_watch a_more.
Proof.
  apply (valid_reachable b_more h_watch); try reflexivity.
  - cbn -[str_nat]. repeat split.
  - intros c [<-|[]]. reflexivity.
  - apply noshuffle_ok.
Qed.

(** The same with x <= 1 in addition, in two orders, once with a repetition. *)
Definition c_least : constraint := Constraint 3 (CExpr (Bin OLe (Var "x") (Const 1))).
Definition a_both : args := Args None None None [c_more; c_least].
Definition a_swap : args := Args None None None [c_least; c_more; c_least].
Definition b_both (id : nat) : cbody := match id with S (S (S O)) => c_body c_least | _ => b_more id end.

Lemma both_valid a : (forall c, In c (x_additional a) -> c = c_more \/ c = c_least) -> valid noshuffle e_watch a.
Proof.
  intros H. apply (valid_reachable b_both h_watch); try reflexivity.
  - cbn -[str_nat]. repeat split.
  - intros c Hc. destruct (H c Hc) as [->| ->]; reflexivity.
  - apply noshuffle_ok.
Qed.

(** x, z in 0..0, y in 0..4, and additionally x + z == 0, which is always true. *)
Definition h_idle : list api := [AddInt [0] (Some "x"); AddInt [0; 1; 2; 3; 4] (Some "y"); AddInt [0] (Some "z")].
Definition e_idle : env := new_env (run_history h_idle init_world).
Definition c_idle : constraint := Constraint 0 (CExpr (Bin OEq (Bin OAdd (Var "x") (Var "z")) (Const 0))).
Definition a_idle : args := Args None None None [c_idle].
Definition b_idle (id : nat) : cbody := c_body c_idle.

Lemma idle_valid a : (forall c, In c (x_additional a) -> c = c_idle) -> valid noshuffle e_idle a.
Proof.
  intros H. apply (valid_reachable b_idle h_idle); try reflexivity.
  - cbn -[str_nat]. repeat split.
  - intros c Hc. rewrite (H c Hc). reflexivity.
  - apply noshuffle_ok.
Qed.

Lemma idle_refuted : exists e f a ts ts' ys ys', valid noshuffle e no_args /\ valid noshuffle e a /\
  watched_view (solve_watched clk0 noshuffle f e default_solver no_args) = Some (ts, ys, None) /\
  watched_view (solve_watched clk0 noshuffle f e default_solver a) = Some (ts', ys', None) /\
  len ys' = len ys /\ len ts' > len ts /\
  (iterations clk0 noshuffle f e (GInit default_solver a) > iterations clk0 noshuffle f e (GInit default_solver no_args))%nat.
Proof.
  exists e_idle, 100%nat, a_idle. do 4 eexists. split; [apply idle_valid; intros c []|]. split; [apply idle_valid; intros c [<-|[]]; reflexivity|].
  split; [vm_compute; reflexivity|]. split; [vm_compute; reflexivity|].
  split; [reflexivity|]. split; [reflexivity|]. apply Nat.ltb_lt. vm_compute. reflexivity.
Qed.

(** x, y, w in 0..1, z in 0..0; x, y different, and z, w different, in two orders. *)
Definition h_pair : list api := [AddInt [0; 1] (Some "x"); AddInt [0; 1] (Some "y"); AddInt [0] (Some "z"); AddInt [0; 1] (Some "w")].
Definition e_pair : env := new_env (run_history h_pair init_world).
Definition c_xy : constraint := Constraint 0 (CAllDiff ["x"; "y"]).
Definition c_zw : constraint := Constraint 1 (CAllDiff ["z"; "w"]).
Definition a_xyzw : args := Args None None None [c_xy; c_zw].
Definition a_zwxy : args := Args None None None [c_zw; c_xy].
Definition b_pair (id : nat) : cbody := match id with O => c_body c_xy | _ => c_body c_zw end.

Lemma pair_valid a : (forall c, In c (x_additional a) -> c = c_xy \/ c = c_zw) -> valid noshuffle e_pair a.
Proof.
  intros H. apply (valid_reachable b_pair h_pair); try reflexivity.
  - cbn -[str_nat]. repeat split.
  - intros c Hc. destruct (H c Hc) as [->| ->]; reflexivity.
  - apply noshuffle_ok.
Qed.

Lemma pair_refuted : exists e f a a' ts ts' ys ys', valid noshuffle e a /\ valid noshuffle e a' /\
  Permutation (x_additional a) (x_additional a') /\
  watched_view (solve_watched clk0 noshuffle f e default_solver a) = Some (ts, ys, None) /\
  watched_view (solve_watched clk0 noshuffle f e default_solver a') = Some (ts', ys', None) /\
  ys' <> ys /\ len ts' < len ts /\
  (iterations clk0 noshuffle f e (GInit default_solver a') < iterations clk0 noshuffle f e (GInit default_solver a))%nat.
Proof.
  exists e_pair, 100%nat, a_xyzw, a_zwxy. do 4 eexists. split; [apply pair_valid; cbn; intuition|]. split; [apply pair_valid; cbn; intuition|].
  split; [apply perm_swap|]. split; [vm_compute; reflexivity|]. split; [vm_compute; reflexivity|].
  split; [discriminate|]. split; [reflexivity|]. apply Nat.ltb_lt. vm_compute. reflexivity.
Qed.

(** The order of the additional constraints of [a_both] reversed; [c_more] twice. *)
Definition sv_max : solver := Solver MAX_CONSTRAINT LNone LNone true.
Definition a_back : args := Args None None None [c_least; c_more].
Definition a_twice : args := Args None None None [c_more; c_more].

Lemma twice_refuted : exists e f a a' ts ts' ys ys', valid noshuffle e a /\ valid noshuffle e a' /\
  (forall c, In c (x_additional a) <-> In c (x_additional a')) /\
  watched_view (solve_watched clk0 noshuffle f e sv_max a) = Some (ts, ys, None) /\
  watched_view (solve_watched clk0 noshuffle f e sv_max a') = Some (ts', ys', None) /\ ts' <> ts /\ ys' <> ys.
Proof.
  exists e_watch, 100%nat, a_more, a_twice. do 4 eexists. split; [exact more_valid|]. split; [apply both_valid; cbn; intuition|].
  split; [cbn; intuition|]. split; [vm_compute; reflexivity|]. split; [vm_compute; reflexivity|]. split; discriminate.
Qed.
