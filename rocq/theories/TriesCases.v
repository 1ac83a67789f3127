(** Concrete searches of puzzle objects. *)
From Verif Require Import PuzzleWatch SpecPuzzle SpecGraph SpecSudoku SpecSolve SpecTries SolverCases SudokuFacts.
Open Scope string_scope.
Open Scope list_scope.
Open Scope Z_scope.

Definition path_nodes : list string := ["a"; "b"; "c"].
Definition path_edges : list (string * string) := [("a", "b"); ("b", "c")].

Lemma path_case : is_graph path_nodes path_edges /\
  graph_watched clk0 noshuffle 100 path_nodes path_edges ["red"; "blue"] default_options =
    Some ([[]; [("n_0", 0)]; [("n_0", 0); ("n_1", 1)]; [("n_0", 1)]; [("n_0", 1); ("n_1", 0)]],
          [[("n_0", 0); ("n_1", 1); ("n_2", 0)]; [("n_0", 1); ("n_1", 0); ("n_2", 1)]], None, None).
Proof.
  split; [|vm_compute; reflexivity]. split.
  - repeat constructor; cbn; intuition discriminate.
  - intros u v [E|[E|[]]]; injection E as <- <-; cbn; auto.
Qed.

Lemma queens_case : exists ts ys, queens_watched clk0 noshuffle 4000 4 default_options = Some (ts, ys, None, None) /\
  len ys = 2 /\ len (filter (fun t => (length t <=? 4)%nat) ts) = 65 /\
  firstn 5 ts = [[]; [("q_3", 0)]; [("q_3", 0); ("q_2", 1)]; [("q_3", 0); ("q_2", 1); ("q_1", 2)]; [("q_3", 0); ("q_2", 1); ("q_1", 2); ("q_0", 3)]] /\
  queens_iterations clk0 noshuffle 4000 4 default_options = 379%nat.
Proof. eexists. eexists. split; [vm_compute; reflexivity|]. repeat split; vm_compute; reflexivity. Qed.

Lemma queens_refuted : exists n f ts ys t,
  queens_watched clk0 noshuffle f n default_options = Some (ts, ys, None, None) /\ In t ts /\ attacked t.
Proof.
  exists 4%nat, 4000%nat. eexists. eexists. exists [("q_3", 0); ("q_2", 1)]. split; [vm_compute; reflexivity|]. split; [cbn; tauto|].
  exists 3%nat, 0, 2%nat, 1. split; [now left|]. split; [right; now left|]. split; [lia|now left].
Qed.

(** A grid without the first four numbers of two rows. *)
Definition cut_grid : schema := map (fun r => map (fun c =>
  if (Nat.eqb r 0 && Nat.ltb c 4 || Nat.eqb r 3 && Nat.ltb c 4)%bool then None else Some (Z.of_nat ((3 * r + r / 3 + c) mod 9) + 1)) (seq 0 9)) (seq 0 9).

Lemma grid_case : well_formed cut_grid /\ has_blank cut_grid /\
  exists ts ys, sudoku_watched clk0 noshuffle 1000 cut_grid (Options (Some ORDERED) LNone (LNum 5) true) = Some (ts, ys, None, None) /\
    len ys = 1 /\ len ts = 11 /\
    filter (fun t => (length t <=? 2)%nat) ts =
      [[]; [("c_0_0", 1)]; [("c_0_0", 1); ("c_0_1", 2)]; [("c_0_0", 1); ("c_0_1", 3)]; [("c_0_0", 2)]; [("c_0_0", 2); ("c_0_1", 3)]].
Proof.
  split; [|split].
  - apply well_formed_checks. vm_compute. repeat split.
  - exists 0%nat, 0%nat. repeat split; lia.
  - eexists. eexists. split; [vm_compute; reflexivity|]. repeat split; vm_compute; reflexivity.
Qed.
