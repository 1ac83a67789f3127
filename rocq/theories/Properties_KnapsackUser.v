(** Properties of a KnapsackOptimizer to whose model the user adds constraints. *)
From Coq Require Import Lia.
From Verif Require Import KnapsackUser SpecKnapsackUser SpecKnapsack SpecPuzzleUser SpecPuzzle SpecSafe SpecSolve PuzzleUserFacts PuzzleUserRel PuzzleUserProps PuzzleUserProps2 KnapsackUserFacts SpecKnapsack.
Open Scope string_scope.
Open Scope list_scope.
Open Scope Z_scope.

(** C92: if variables and constraints are added to the model of a KnapsackOptimizer before it is
    called, the call returns, whatever the options; ... *)
Theorem C92_terminates : forall clk shuffle o values caps rows again us,
  instance values caps rows -> shuffles shuffle -> us_ok (item_var (List.length values)) (o_compile o) us -> without_parameters us ->
  exists fuel out, knapsack_user_run clk shuffle fuel (map Some values) (map Some caps) (Weights (map (map Some) rows) again) o us = Some out.
Proof. exact ku_run_terminates. Qed.
Print Assumptions C92_terminates.

(** ... and does not raise: the selection is a packing that meets the added constraints for some
    values of the added variables; without a selection and without an interrupt there is none. *)
Theorem C92_feasible : forall clk shuffle o values caps rows us fuel r i,
  instance values caps rows -> shuffles shuffle -> us_ok (item_var (List.length values)) (o_compile o) us -> without_parameters us ->
  knapsack_user_run clk shuffle fuel (map Some values) (map Some caps) (Weights (map (map Some) rows) true) o us = Some (r, i) ->
  exists sol, r = Ok sol /\ reports_also values caps rows us (o_timeout o) (o_limit o) sol i.
Proof. intros clk shuffle o values caps rows us fuel r i Hi Hs Hu Hp. exact (ku_run_reports clk shuffle o values caps rows true us Hi Hs Hu Hp fuel r i). Qed.
Print Assumptions C92_feasible.

(** C92, partial: a selection reported as optimal has the greatest value among those that meet
    the constraints, if no value is negative and two values are not 0, or all are, or there is
    only one item and no added variable. *)
Theorem C92_optimal_partial : forall clk shuffle o values caps rows us fuel sol i,
  instance values caps rows -> shuffles shuffle -> us_ok (item_var (List.length values)) (o_compile o) us -> without_parameters us ->
  (forall v, In v values -> 0 <= v) ->
  (List.length values = 1%nat /\ added us = [] \/ (forall v, In v values -> v = 0) \/ exists i j, i <> j /\ nth i values 0 <> 0 /\ nth j values 0 <> 0) ->
  knapsack_user_run clk shuffle fuel (map Some values) (map Some caps) (Weights (map (map Some) rows) true) o us = Some (Ok sol, i) ->
  ks_optimal sol = true ->
  exists v, ks_value sol = Some v /\ forall x, packing_also (List.length values) caps rows us x -> total x values <= v.
Proof. intros clk shuffle o values caps rows us fuel sol i Hi Hs Hu Hp. exact (ku_run_optimal clk shuffle o values caps rows true us Hi Hs Hu Hp fuel sol i). Qed.
Print Assumptions C92_optimal_partial.

(** Of the three items at most one of the first two is taken, and of the last two exactly one:
    the second one. *)
Example C92_case :
  let us := [UVar "y" [0; 1; 2]; UForm (FBin UEq (FBin UAdd (FVar "i_0") (FVar "i_1")) (FVar "y")); UForm (FBin ULe (FVar "y") (FInt 1));
             UDiff ["i_1"; "i_2"]] in
  let rows := [[4]; [3]; [4]] in
  knapsack_user_run (fun _ => 0) (fun l => l) 2000 (map Some [6; 5; 4]) (map Some [7]) (Weights (map (map Some) rows) true) default_options us =
    Some (Ok (KSolution true (Some [0; 1; 0]) (Some 5) (Some [3])), None) /\
  knapsack_user_run (fun _ => 0) (fun l => l) 2000 (map Some [6; 5; 4]) (map Some [7]) (Weights (map (map Some) rows) true) default_options [] =
    Some (Ok (KSolution true (Some [1; 1; 0]) (Some 11) (Some [7])), None) /\
  instance [6; 5; 4] [7] rows /\ us_ok (item_var 3) true us /\ without_parameters us /\
  knapsack_user_run (fun _ => 0) (fun l => l) 2000 (map Some [6; 5; 4]) (map Some [7]) (Weights (map (map Some) rows) true) default_options
    [UForm (FBin UGt (FBin UAdd (FVar "i_0") (FVar "i_1")) (FInt 2))] = Some (Ok (KSolution false None None None), None).
Proof.
  cbv zeta. split; [vm_compute; reflexivity|]. split; [vm_compute; reflexivity|].
  split; [split; [discriminate|split; [reflexivity|]]; intros row H; cbn in H; intuition; now subst|].
  split; [|split; [|vm_compute; reflexivity]].
  2:{ intros f [E|[E|[E|[E|[]]]]]; try discriminate E; injection E as <-; reflexivity. }
  assert (I : forall j, (j < 3)%nat -> item_var 3 (name1 "i_" j) 0) by (intros j Hj; split; [exists j; auto|now left]).
  assert (I0 : item_var 3 "i_0" 0) by (apply (I 0%nat); repeat constructor).
  assert (I1 : item_var 3 "i_1" 0) by (apply (I 1%nat); repeat constructor).
  assert (I2 : item_var 3 "i_2" 0) by (apply (I 2%nat); repeat constructor).
  apply us_ok_nth. intros [|[|[|[|k]]]] Hk; cbn [nth firstn u_ok].
  - split; [reflexivity|]. split; [|repeat constructor; cbn; intuition discriminate].
    intros v [((j & Hj & H) & _)|(d & [] & _)]. discriminate H.
  - split; [|split; [|split; [reflexivity|split; [reflexivity|left]]]].
    + intros x [<-|[<-|[<-|[]]]]; [exists 0; left; assumption|exists 0; left; assumption|exists 1; right; exists [0; 1; 2]; cbn; auto].
    + intros a _. cbn. eexists. reflexivity.
    + exists (fun _ => 0), (fun _ => 1), 1, 0. repeat split; discriminate.
  - split; [|split; [|split; [reflexivity|split; [reflexivity|left]]]].
    + intros x [<-|[]]. exists 1. right. exists [0; 1; 2]. cbn. auto.
    + intros a _. cbn. eexists. reflexivity.
    + exists (fun _ => 0), (fun _ => 2), 1, 0. repeat split; discriminate.
  - intros x [<-|[<-|[]]]; exists 0; left; assumption.
  - cbn in Hk. lia.
Qed.

(** C92 fails for a single item and an added variable: with y != i_0 the selection without the
    item is reported as the optimum (default options). *)
Theorem C92_optimal_refuted : exists clk shuffle o values caps rows us fuel sol x,
  instance values caps rows /\ shuffles shuffle /\ us_ok (item_var (List.length values)) (o_compile o) us /\ without_parameters us /\
  (forall v, In v values -> 0 <= v) /\ o = Options None LNone LNone true /\ List.length values = 1%nat /\
  knapsack_user_run clk shuffle fuel (map Some values) (map Some caps) (Weights (map (map Some) rows) true) o us = Some (Ok sol, None) /\
  ks_optimal sol = true /\ ks_value sol = Some 0 /\ packing_also (List.length values) caps rows us x /\ total x values = 5.
Proof.
  exists (fun _ => 0), (fun l => l), (Options None LNone LNone true), [5], [1], [[1]],
    [UVar "y" [0; 1]; UForm (FBin UNe (FVar "y") (FVar "i_0"))], 400%nat, (KSolution true (Some [0]) (Some 0) (Some [0])), [1].
  split; [split; [discriminate|split; [reflexivity|]]; intros row H; cbn in H; intuition; now subst|].
  split; [intros l; apply Permutation.Permutation_refl|]. split; [|split; [|split; [cbn; intuition lia|split; [reflexivity|split; [reflexivity|]]]]].
  - apply us_ok_nth. intros [|[|k]] Hk; cbn [nth firstn u_ok].
    + split; [reflexivity|]. split; [|repeat constructor; cbn; intuition discriminate].
      intros v [((j & Hj & H) & _)|(d & [] & _)]. discriminate H.
    + split; [|split; [|split; [reflexivity|split; [reflexivity|left]]]].
      * intros x [<-|[<-|[]]]; [exists 1; right; exists [0; 1]; cbn; auto|].
        exists 0. left. split; [exists 0%nat; split; [repeat constructor|reflexivity]|now left].
      * intros a _. cbn. eexists. reflexivity.
      * exists (fun _ => 0), (fun x => if String.eqb x "y" then 1 else 0), 0, 1. repeat split; discriminate.
    + cbn in Hk. lia.
  - intros f [E|[E|[]]]; try discriminate E. injection E as <-. reflexivity.
  - split; [vm_compute; reflexivity|]. split; [reflexivity|]. split; [reflexivity|]. split; [|reflexivity]. split.
    + split; [reflexivity|]. split; [cbn; intuition|]. intros j Hj. cbn in Hj. assert (j = 0%nat) as -> by lia. cbn. lia.
    + exists (fun x => if String.eqb x "y" then 0 else 1). split.
      * intros j Hj. cbn in Hj. assert (j = 0%nat) as -> by lia. reflexivity.
      * intros u [<-|[<-|[]]]; cbn; [now left|]. exists 1. split; [reflexivity|discriminate].
Qed.
Print Assumptions C92_optimal_refuted.
