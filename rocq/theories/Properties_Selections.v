(** Property theorems about the selections of items that KnapsackOptimizer tries to complete (C99).

    [knapsack_watched clk shuffle f values caps weights o = Some (vs, r, i)]: during the call of a
    KnapsackOptimizer with options [o], [vs] is the record of the partial assignments that the
    search tried to extend ([tried vs]) and of the solutions it found ([found vs]); it ended with
    exception [r] and interrupt [i].  The constraints see the weights [rows], or none at all if
    the weights are an iterator ([again = false], as in C43). *)
From Coq Require Import Permutation.
From Verif Require Import KnapsackWatch SpecKnapsack SpecSolve SpecWatch SpecBound SpecSelections SolverCases TriesKnap3 KnapCases.
Open Scope string_scope.
Open Scope list_scope.
Open Scope Z_scope.

(** What is returned is the last solution of the record. *)
Theorem C99_result : forall clk shuffle f o values caps rows again vs r i, instance values caps rows -> shuffles shuffle ->
  knapsack_watched clk shuffle f (map Some values) (map Some caps) (Weights (map (map Some) rows) again) o = Some (vs, r, i) ->
  exists sol, knapsack_run clk shuffle f (map Some values) (map Some caps) (Weights (map (map Some) rows) again) o = Some (Ok sol, i) /\
    (found vs = [] -> ks_solution sol = None) /\
    (forall l s, found vs = l ++ [s] -> ks_solution sol = Some (map (chosen s) (seq 0 (length values)))).
Proof. exact selections_result. Qed.
Print Assumptions C99_result.

(** The search extends only selections of the first items of some order that exceed no capacity
    for which all the items with a weight are decided, each only once; and, if nothing interrupts
    it, all of these as long as an item with a value is not decided yet. *)
Theorem C99_selections : forall clk shuffle f o values caps rows (again : bool) vs r i, instance values caps rows -> shuffles shuffle ->
  knapsack_watched clk shuffle f (map Some values) (map Some caps) (Weights (map (map Some) rows) again) o = Some (vs, r, i) ->
  let ws := if again then rows else [] in let n := length values in
  r = None /\ exists order, Permutation order (items n) /\ (o_policy o = Some ORDERED -> order = items n) /\
    (o_policy o = Some REVERSED -> order = rev (items n)) /\ NoDup (tried vs) /\
    (forall t, In t (tried vs) -> starts order t /\ partial_packing n caps ws t) /\
    (i = None -> forall t, starts order t -> partial_packing n caps ws t -> open_value values t \/ lonely values -> In t (tried vs)).
Proof. exact selections_tried. Qed.
Print Assumptions C99_selections.

(** Items 0 and 1 together exceed the second capacity, for which item 2 has no weight. *)
Example C99_case : instance bag_values bag_caps bag_rows /\
  knapsack_view (knapsack_watched clk0 noshuffle 100 (map Some bag_values) (map Some bag_caps) (Weights (map (map Some) bag_rows) true) ordered) =
    Some ([[]; [("i_0", 0)]; [("i_0", 0); ("i_1", 0)]; [("i_0", 0); ("i_1", 1)]; [("i_0", 1)]; [("i_0", 1); ("i_1", 0)]],
          [[("i_0", 0); ("i_1", 0); ("i_2", 0)]; [("i_0", 0); ("i_1", 0); ("i_2", 1)]; [("i_0", 0); ("i_1", 1); ("i_2", 0)];
           [("i_0", 0); ("i_1", 1); ("i_2", 1)]; [("i_0", 1); ("i_1", 0); ("i_2", 1)]], None, None).
Proof. exact bag_case. Qed.

(** If every item has a value and every capacity a weight for every item, nothing is ever cut off:
    2^n - 1 selections are extended, whatever the capacities are. *)
Theorem C99_exponential : forall clk shuffle f o values caps rows (again : bool) vs r i, instance values caps rows -> shuffles shuffle ->
  knapsack_watched clk shuffle f (map Some values) (map Some caps) (Weights (map (map Some) rows) again) o = Some (vs, r, i) ->
  i = None -> (forall k, (k < length values)%nat -> nth k values 0 <> 0) -> all_weighted (length values) caps (if again then rows else []) ->
  (forall t, In t (tried vs) -> selection t) /\ len (tried vs) = 2 ^ len values - 1.
Proof. exact selections_all. Qed.
Print Assumptions C99_exponential.

(** Three items of which only one fits. *)
Example C99_exponential_case : instance full_values full_caps full_rows /\ (forall k, (k < length full_values)%nat -> nth k full_values 0 <> 0) /\
  all_weighted (length full_values) full_caps full_rows /\
  exists vs, full_run = Some (vs, None, None) /\ len (tried vs) = 7 /\ found vs = [[("i_0", 0); ("i_1", 0); ("i_2", 0)]; [("i_0", 0); ("i_1", 1); ("i_2", 0)]].
Proof. exact full_case. Qed.

(** The claim that a selection is given up as soon as the selected items exceed a capacity is
    false, even if no weight is negative. *)
Theorem C99_overload_refuted : exists values caps rows f vs t, instance values caps rows /\
  knapsack_watched clk0 noshuffle f (map Some values) (map Some caps) (Weights (map (map Some) rows) true) ordered = Some (vs, None, None) /\
  In t (tried vs) /\ overloaded (length values) caps rows t.
Proof. exact full_refuted. Qed.
Print Assumptions C99_overload_refuted.
