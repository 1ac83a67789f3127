(** Specification: sudoku schemas and their solutions. *)
From Coq Require Import List ZArith.
Import ListNotations.
Open Scope Z_scope.

(** The number at row [r] and column [c] (both from 0) of a grid. *)
Definition at_ (g : list (list Z)) (r c : nat) : Z := nth c (nth r g []) 0.

(** Two cells in the same row, column or 3x3 block. *)
Definition same_unit (r c r' c' : nat) : Prop :=
  r = r' \/ c = c' \/ ((r / 3 = r' / 3)%nat /\ (c / 3 = c' / 3)%nat).

Definition is_grid (g : list (list Z)) : Prop :=
  length g = 9%nat /\ (forall row, In row g -> length row = 9%nat) /\
  forall r c, (r < 9)%nat -> (c < 9)%nat -> 1 <= at_ g r c <= 9.

(** A valid sudoku grid: cells of the same unit differ. *)
Definition valid_grid (g : list (list Z)) : Prop :=
  is_grid g /\
  forall r c r' c', (r < 9)%nat -> (c < 9)%nat -> (r' < 9)%nat -> (c' < 9)%nat ->
    (r, c) <> (r', c') -> same_unit r c r' c' -> at_ g r c <> at_ g r' c'.

(** The number given at a cell of a schema: [None] if the cell is blank (0 or None). *)
Definition given (s : list (list (option Z))) (r c : nat) : option Z :=
  match nth c (nth r s []) None with
  | Some n => if n =? 0 then None else Some n
  | None => None
  end.

Definition agrees (s : list (list (option Z))) (g : list (list Z)) : Prop :=
  forall r c n, (r < 9)%nat -> (c < 9)%nat -> given s r c = Some n -> at_ g r c = n.

(** A well-formed schema: 9x9, entries None or 0..9. *)
Definition well_formed (s : list (list (option Z))) : Prop :=
  length s = 9%nat /\
  forall row, In row s -> length row = 9%nat /\ forall n, In (Some n) row -> 0 <= n <= 9.

Definition has_blank (s : list (list (option Z))) : Prop :=
  exists r c, (r < 9)%nat /\ (c < 9)%nat /\ given s r c = None.

(** No two given numbers contradict each other. *)
Definition consistent (s : list (list (option Z))) : Prop :=
  forall r c r' c' n n', (r < 9)%nat -> (c < 9)%nat -> (r' < 9)%nat -> (c' < 9)%nat ->
    (r, c) <> (r', c') -> same_unit r c r' c' ->
    given s r c = Some n -> given s r' c' = Some n' -> n <> n'.

(** The sudoku solutions of a schema. *)
Definition solution_grid (s : list (list (option Z))) (g : list (list Z)) : Prop :=
  valid_grid g /\ agrees s g.

(** Completions in which every blank cell is filled correctly, although two given
    numbers may contradict each other. *)
Definition completion (s : list (list (option Z))) (g : list (list Z)) : Prop :=
  is_grid g /\ agrees s g /\
  forall r c r' c', (r < 9)%nat -> (c < 9)%nat -> (r' < 9)%nat -> (c' < 9)%nat ->
    (r, c) <> (r', c') -> same_unit r c r' c' -> given s r c = None -> at_ g r c <> at_ g r' c'.
