(** Properties of QueensSolver. *)
From Verif Require Import Queens SpecPuzzle SpecQueens SpecSolve QueensFacts.
Open Scope string_scope.
Open Scope list_scope.
Open Scope Z_scope.

(** C48: QueensSolver enumerates exactly the boards of non-attacking queens, for every
    size, policy, timeout, limit, clock and shuffling, compiled or not. *)
Theorem C48_queens : forall clk shuffle n o,
  (1 <= n)%nat -> shuffles shuffle ->
  exactly (fun fuel => queens_run clk shuffle fuel n o) (queens_board n) (o_timeout o) (o_limit o).
Proof. exact (fun clk shuffle n o => queens_exact n clk shuffle o). Qed.
Print Assumptions C48_queens.

Example C48_case :
  queens_run (fun _ => 0) (fun l => l) 4000 4 default_options =
    Some ([[[0;0;1;0]; [1;0;0;0]; [0;0;0;1]; [0;1;0;0]]; [[0;1;0;0]; [0;0;0;1]; [1;0;0;0]; [0;0;1;0]]], None, None) /\
  queens_board 4 [[0;1;0;0]; [0;0;0;1]; [1;0;0;0]; [0;0;1;0]].
Proof.
  split; [vm_compute; reflexivity|].
  assert (H := fun x => proj2 (C48_queens (fun _ => 0) (fun l => l) 4 default_options (le_S _ _ (le_S _ _ (le_S _ _ (le_n 1)))) x)).
  assert (Hs : shuffles (fun l => l)) by (intros l; apply Permutation.Permutation_refl).
  destruct (H Hs 4000%nat [[[0;0;1;0]; [1;0;0;0]; [0;0;0;1]; [0;1;0;0]]; [[0;1;0;0]; [0;0;0;1]; [1;0;0;0]; [0;0;1;0]]] None None) as (_ & Hok & _).
  - vm_compute. reflexivity.
  - apply Hok. right. now left.
Qed.
