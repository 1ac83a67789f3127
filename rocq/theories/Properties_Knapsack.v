(** Properties of KnapsackOptimizer. *)
From Verif Require Import Knapsack SpecSolve KnapsackFacts SpecKnapsack KnapsackSingle.
Open Scope string_scope.
Open Scope list_scope.
Open Scope Z_scope.

(** C41: with the weights given as a sequence, a call returns; the selection is a packing, the
    value and the weights are the totals of the selected items; without a selection and
    without an interrupt there is no packing. *)
Theorem C41_terminates : forall clk shuffle o values caps rows again, instance values caps rows -> shuffles shuffle ->
  exists fuel out, knapsack_run clk shuffle fuel (map Some values) (map Some caps) (Weights (map (map Some) rows) again) o = Some out.
Proof. exact knapsack_terminates. Qed.
Print Assumptions C41_terminates.

Theorem C41_feasible : forall clk shuffle o values caps rows fuel r i, instance values caps rows -> shuffles shuffle ->
  knapsack_run clk shuffle fuel (map Some values) (map Some caps) (Weights (map (map Some) rows) true) o = Some (r, i) ->
  exists sol, r = Ok sol /\ reports values caps rows (o_timeout o) (o_limit o) sol i.
Proof. intros clk shuffle o values caps rows fuel r i Hi Hs. exact (knapsack_reports clk shuffle o values caps rows true Hi Hs fuel r i). Qed.
Print Assumptions C41_feasible.

(** Three items, two capacities. *)
Example C41_case :
  instance [6; 5; 4] [7; 9] [[4; 5]; [3; 3]; [4; 1]] /\
  knapsack_run (fun _ => 0) (fun l => l) 1000 (map Some [6; 5; 4]) (map Some [7; 9]) (Weights (map (map Some) [[4; 5]; [3; 3]; [4; 1]]) true)
    (Options None LNone LNone true) = Some (Ok (KSolution true (Some [1; 1; 0]) (Some 11) (Some [7; 8])), None).
Proof.
  split; [|vm_compute; reflexivity]. split; [discriminate|]. split; [reflexivity|]. intros row H. cbn in H. intuition; now subst.
Qed.

(** No item fits, but a negative capacity cannot be met. *)
Example C41_infeasible_case :
  knapsack_run (fun _ => 0) (fun l => l) 1000 (map Some [6; 5]) (map Some [-1]) (Weights (map (map Some) [[4]; [3]]) true)
    (Options None LNone LNone true) = Some (Ok (KSolution false None None None), None).
Proof. vm_compute. reflexivity. Qed.

(** C41: the constructor accepts exactly the well-shaped problems made of ints, and raises
    TypeError or ValueError for the others. *)
Theorem C41_arguments : forall values caps w, values <> [] ->
  (exists values' caps' rows, values = map Some values' /\ caps = map Some caps' /\ wa_rows w = map (map Some) rows /\ instance values' caps' rows /\
     exists k e, construct (knapsack_init values caps w) = Ok (k, e)) \/
  ((forall values' caps' rows, values = map Some values' -> caps = map Some caps' -> wa_rows w = map (map Some) rows -> ~ instance values' caps' rows) /\
   exists ex, (ex = TypeError \/ ex = ValueError) /\ construct (knapsack_init values caps w) = Err ex).
Proof. exact knapsack_rejects. Qed.
Print Assumptions C41_arguments.

Example C41_arguments_case :
  construct (knapsack_init (map Some [1; 2]) (map Some [3]) (Weights [[Some 1]; [None]] true)) = Err TypeError /\
  construct (knapsack_init (map Some [1; 2]) (map Some [3]) (Weights [[Some 1]] true)) = Err ValueError /\
  construct (knapsack_init (map Some [1; 2]) (map Some [3]) (Weights [[Some 1]; [Some 1]; [Some 1]] true)) = Err ValueError /\
  construct (knapsack_init (map Some [1; 2]) (map Some [3]) (Weights [[Some 1]; [Some 1; Some 2]] true)) = Err ValueError.
Proof. vm_compute. repeat split. Qed.

(** C41: without items, which is accepted, the call fails. *)
Theorem C41_no_items_refuted : exists caps, forall clk shuffle fuel w o,
  knapsack_run clk shuffle fuel [] caps w o = Some (Err AttributeError, None).
Proof. exists [Some 1]. intros clk shuffle fuel w o. exact (knapsack_empty clk shuffle fuel _ w o). Qed.
Print Assumptions C41_no_items_refuted.

(** C42 fails: two items of equal weight and values 5 and 0, of which one fits; the second
    one is reported as the optimum (default options: policy groups). *)
Theorem C42_optimal_refuted : exists clk shuffle o values caps rows fuel sol x,
  instance values caps rows /\ shuffles shuffle /\ (forall v, In v values -> 0 <= v) /\ o = Options None LNone LNone true /\
  knapsack_run clk shuffle fuel (map Some values) (map Some caps) (Weights (map (map Some) rows) true) o = Some (Ok sol, None) /\
  ks_optimal sol = true /\ ks_value sol = Some 0 /\ packing (length values) caps rows x /\ total x values = 5.
Proof.
  exists (fun _ => 0), (fun l => l), (Options None LNone LNone true), [5; 0], [1], [[1]; [1]], 200%nat, (KSolution true (Some [0; 1]) (Some 0) (Some [1])), [1; 0].
  split; [split; [discriminate|split; [reflexivity|]]; intros row H; cbn in H; intuition; now subst|].
  split; [intros l; apply Permutation.Permutation_refl|]. split; [cbn; intuition lia|]. split; [reflexivity|].
  split; [vm_compute; reflexivity|]. split; [reflexivity|]. split; [reflexivity|]. split; [|reflexivity].
  split; [reflexivity|]. split; [cbn; intuition|]. intros j Hj. cbn in Hj. assert (j = 0%nat) as -> by lia. cbn. lia.
Qed.
Print Assumptions C42_optimal_refuted.

(** C42 fails with a negative value also. *)
Theorem C42_negative_refuted : exists clk shuffle o values caps rows fuel sol x v,
  instance values caps rows /\ shuffles shuffle /\ (exists i j, i <> j /\ nth i values 0 <> 0 /\ nth j values 0 <> 0) /\ o = Options None LNone LNone true /\
  knapsack_run clk shuffle fuel (map Some values) (map Some caps) (Weights (map (map Some) rows) true) o = Some (Ok sol, None) /\
  ks_optimal sol = true /\ ks_value sol = Some v /\ packing (length values) caps rows x /\ v < total x values.
Proof.
  exists (fun _ => 0), (fun l => l), (Options None LNone LNone true), [-3; 1], [5], [[1]; [1]], 200%nat, (KSolution true (Some [1; 1]) (Some (-2)) (Some [2])), [0; 1], (-2).
  split; [split; [discriminate|split; [reflexivity|]]; intros row H; cbn in H; intuition; now subst|].
  split; [intros l; apply Permutation.Permutation_refl|]. split; [exists 0%nat, 1%nat; cbn; intuition lia|]. split; [reflexivity|].
  split; [vm_compute; reflexivity|]. split; [reflexivity|]. split; [reflexivity|]. split; [|reflexivity].
  split; [reflexivity|]. split; [cbn; intuition|]. intros j Hj. cbn in Hj. assert (j = 0%nat) as -> by lia. cbn. lia.
Qed.
Print Assumptions C42_negative_refuted.

(** C42: what is missing: values of which exactly one is not zero, among several items, and
    negative values. *)
Theorem C42_optimal_partial : forall clk shuffle o values caps rows fuel sol i, instance values caps rows -> shuffles shuffle ->
  (forall v, In v values -> 0 <= v) ->
  (length values = 1%nat \/ (forall v, In v values -> v = 0) \/ exists i j, i <> j /\ nth i values 0 <> 0 /\ nth j values 0 <> 0) ->
  knapsack_run clk shuffle fuel (map Some values) (map Some caps) (Weights (map (map Some) rows) true) o = Some (Ok sol, i) -> ks_optimal sol = true ->
  exists v, ks_value sol = Some v /\ forall x, packing (length values) caps rows x -> total x values <= v.
Proof. intros clk shuffle o values caps rows fuel sol i Hi Hs. exact (knapsack_optimal clk shuffle o values caps rows true Hi Hs fuel sol i). Qed.
Print Assumptions C42_optimal_partial.

Example C42_case :
  instance [6; 5; 4] [7; 9] [[4; 5]; [3; 3]; [4; 1]] /\ (exists i j, i <> j /\ nth i [6; 5; 4] 0 <> 0 /\ nth j [6; 5; 4] 0 <> 0) /\
  knapsack_run (fun _ => 0) (fun l => l) 1000 (map Some [6; 5; 4]) (map Some [7; 9]) (Weights (map (map Some) [[4; 5]; [3; 3]; [4; 1]]) true)
    (Options None LNone LNone true) = Some (Ok (KSolution true (Some [1; 1; 0]) (Some 11) (Some [7; 8])), None).
Proof.
  split; [apply C41_case|]. split; [exists 0%nat, 1%nat; cbn; intuition lia|]. apply C41_case.
Qed.

(** C42: when at most one item has a value, the values play no part at all: the selection is
    the same for any other such values. *)
Theorem C42_values_ignored : forall clk shuffle o values values' caps rows again fuel fuel' sol sol' i i',
  instance values caps rows -> instance values' caps rows -> shuffles shuffle -> lonely values -> lonely values' ->
  let run vs f := knapsack_run clk shuffle f (map Some vs) (map Some caps) (Weights (map (map Some) rows) again) o in
  run values fuel = Some (Ok sol, i) -> run values' fuel' = Some (Ok sol', i') ->
  ks_solution sol = ks_solution sol' /\ ks_weights sol = ks_weights sol' /\ ks_optimal sol = ks_optimal sol' /\ i = i'.
Proof. intros clk shuffle o values values' caps rows again fuel fuel' sol sol' i i' I1 I2 Hs. exact (knapsack_ignores clk shuffle o caps rows again Hs values values' fuel fuel' sol sol' i i' I1 I2). Qed.
Print Assumptions C42_values_ignored.

Example C42_values_ignored_case :
  instance [5; 0; 0] [2] [[2]; [1]; [1]] /\ instance [0; 0; 9] [2] [[2]; [1]; [1]] /\ lonely [5; 0; 0] /\ lonely [0; 0; 9] /\
  knapsack_run (fun _ => 0) (fun l => l) 1000 (map Some [5; 0; 0]) (map Some [2]) (Weights (map (map Some) [[2]; [1]; [1]]) true)
    (Options None LNone LNone true) = Some (Ok (KSolution true (Some [0; 1; 1]) (Some 0) (Some [2])), None) /\
  knapsack_run (fun _ => 0) (fun l => l) 1000 (map Some [0; 0; 9]) (map Some [2]) (Weights (map (map Some) [[2]; [1]; [1]]) true)
    (Options None LNone LNone true) = Some (Ok (KSolution true (Some [0; 1; 1]) (Some 9) (Some [2])), None).
Proof.
  split; [split; [discriminate|split; [reflexivity|]]; intros row H; cbn in H; intuition; now subst|].
  split; [split; [discriminate|split; [reflexivity|]]; intros row H; cbn in H; intuition; now subst|].
  split; [intros [|[|[|[|i]]]] [|[|[|[|j]]]]; cbn; congruence|]. split; [intros [|[|[|[|i]]]] [|[|[|[|j]]]]; cbn; congruence|].
  split; vm_compute; reflexivity.
Qed.

(** C42: then the selection called optimal is the last packing, in some order of the items. *)
Theorem C42_last_packing : forall clk shuffle o values caps rows fuel sol i x,
  instance values caps rows -> shuffles shuffle -> lonely values ->
  knapsack_run clk shuffle fuel (map Some values) (map Some caps) (Weights (map (map Some) rows) true) o = Some (Ok sol, i) ->
  ks_optimal sol = true -> ks_solution sol = Some x ->
  exists order, Permutation.Permutation order (seq 0 (length values)) /\
    forall x', packing (length values) caps rows x' -> x' = x \/ later order x' x.
Proof. intros clk shuffle o values caps rows fuel sol i x Hi Hs. exact (knapsack_last clk shuffle o caps rows true Hs values fuel sol i x Hi). Qed.
Print Assumptions C42_last_packing.

(** The order of the items is 1, 2, 0 in the example above. *)
Example C42_last_packing_case : later [1; 2; 0]%nat [1; 0; 0] [0; 1; 1] /\ packing 3 [2] [[2]; [1]; [1]] [1; 0; 0] /\ packing 3 [2] [[2]; [1]; [1]] [0; 1; 1].
Proof.
  split; [exists [], 1%nat, [2; 0]%nat; cbn; intuition|].
  split; (split; [reflexivity|]; split; [cbn; intuition|]; intros [|j] Hj; cbn in *; lia).
Qed.

(** C43 fails: the weights of an iterator are checked and then lost; two items that do not
    fit together are both selected, and weigh nothing. *)
Theorem C43_iterator_refuted : exists clk shuffle o values caps rows fuel sol,
  instance values caps rows /\ shuffles shuffle /\
  knapsack_run clk shuffle fuel (map Some values) (map Some caps) (Weights (map (map Some) rows) false) o = Some (Ok sol, None) /\
  ks_solution sol = Some [1; 1] /\ ks_weights sol = Some [0] /\ ~ packing (length values) caps rows [1; 1].
Proof.
  exists (fun _ => 0), (fun l => l), (Options None LNone LNone true), [5; 4], [1], [[1]; [1]], 200%nat, (KSolution true (Some [1; 1]) (Some 9) (Some [0])).
  split; [split; [discriminate|split; [reflexivity|]]; intros row H; cbn in H; intuition; now subst|].
  split; [intros l; apply Permutation.Permutation_refl|]. split; [vm_compute; reflexivity|]. split; [reflexivity|]. split; [reflexivity|].
  intros (_ & _ & H). specialize (H 0%nat ltac:(cbn; lia)). cbn in H. lia.
Qed.
Print Assumptions C43_iterator_refuted.

(** C43: what the code does for an iterator: it solves the problem without weights. *)
Theorem C43_weightless_partial : forall clk shuffle o values caps rows fuel r i, instance values caps rows -> shuffles shuffle ->
  knapsack_run clk shuffle fuel (map Some values) (map Some caps) (Weights (map (map Some) rows) false) o = Some (r, i) ->
  exists sol, r = Ok sol /\ reports values caps [] (o_timeout o) (o_limit o) sol i.
Proof. intros clk shuffle o values caps rows fuel r i Hi Hs. exact (knapsack_reports clk shuffle o values caps rows false Hi Hs fuel r i). Qed.
Print Assumptions C43_weightless_partial.

Example C43_case : instance [5; 4] [1] [[1]; [1]].
Proof. split; [discriminate|split; [reflexivity|]]. intros row H. cbn in H. intuition; now subst. Qed.
