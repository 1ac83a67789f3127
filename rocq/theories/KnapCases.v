(** Concrete knapsack searches. *)
From Verif Require Import KnapsackWatch SpecKnapsack SpecBound SpecSolve SpecSelections SolverCases.
Open Scope string_scope.
Open Scope list_scope.
Open Scope Z_scope.

Definition ordered : options := Options (Some ORDERED) LNone LNone true.
Definition knapsack_view (x : option (list visit * option exn * option interrupt)) :=
  match x with Some (vs, r, i) => Some (tried vs, found vs, r, i) | None => None end.

(** Three items; the last one has no weight for the second capacity. *)
Definition bag_values : list Z := [4; 3; 2].
Definition bag_caps : list Z := [6; 3].
Definition bag_rows : list (list Z) := [[3; 2]; [2; 2]; [1; 0]].
Lemma bag_case : instance bag_values bag_caps bag_rows /\
  knapsack_view (knapsack_watched clk0 noshuffle 100 (map Some bag_values) (map Some bag_caps) (Weights (map (map Some) bag_rows) true) ordered) =
    Some ([[]; [("i_0", 0)]; [("i_0", 0); ("i_1", 0)]; [("i_0", 0); ("i_1", 1)]; [("i_0", 1)]; [("i_0", 1); ("i_1", 0)]],
          [[("i_0", 0); ("i_1", 0); ("i_2", 0)]; [("i_0", 0); ("i_1", 0); ("i_2", 1)]; [("i_0", 0); ("i_1", 1); ("i_2", 0)];
           [("i_0", 0); ("i_1", 1); ("i_2", 1)]; [("i_0", 1); ("i_1", 0); ("i_2", 1)]], None, None).
Proof. split; [|vm_compute; reflexivity]. split; [discriminate|]. split; [reflexivity|]. intros row [<-|[<-|[<-|[]]]]; reflexivity. Qed.

(** Every item has a value and a weight. *)
Definition full_values : list Z := [1; 1; 2].
Definition full_caps : list Z := [1].
Definition full_rows : list (list Z) := [[5]; [1]; [7]].
Definition full_run := knapsack_watched clk0 noshuffle 100 (map Some full_values) (map Some full_caps) (Weights (map (map Some) full_rows) true) ordered.
Lemma full_case : instance full_values full_caps full_rows /\ (forall k, (k < length full_values)%nat -> nth k full_values 0 <> 0) /\
  all_weighted (length full_values) full_caps full_rows /\
  exists vs, full_run = Some (vs, None, None) /\ len (tried vs) = 7 /\ found vs = [[("i_0", 0); ("i_1", 0); ("i_2", 0)]; [("i_0", 0); ("i_1", 1); ("i_2", 0)]].
Proof.
  split; [split; [discriminate|split; [reflexivity|intros row [<-|[<-|[<-|[]]]]; reflexivity]]|].
  split; [intros [|[|[|k]]] Hk; cbn in Hk; try discriminate; lia|].
  split; [intros [|[|[|k]]] [|j] Hk Hj; cbn in Hk, Hj; try discriminate; lia|].
  eexists. split; [vm_compute; reflexivity|]. split; reflexivity.
Qed.

Lemma full_refuted : exists values caps rows f vs t, instance values caps rows /\
  knapsack_watched clk0 noshuffle f (map Some values) (map Some caps) (Weights (map (map Some) rows) true) ordered = Some (vs, None, None) /\
  In t (tried vs) /\ overloaded (length values) caps rows t.
Proof.
  exists full_values, full_caps, full_rows, 100%nat. eexists. exists [("i_0", 1)]. split; [apply full_case|]. split; [vm_compute; reflexivity|].
  split; [cbn; auto 10|]. split.
  - intros row w [<-|[<-|[<-|[]]]] [<-|[]]; lia.
  - exists 0%nat. split; [cbn; lia|]. vm_compute. reflexivity.
Qed.
