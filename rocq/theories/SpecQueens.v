(** Specification: boards with non-attacking queens. *)
From Coq Require Import List ZArith.
Import ListNotations.
Open Scope Z_scope.

Definition cell (b : list (list Z)) (r c : nat) : Z := nth c (nth r b []) 0.

(** An n x n board of zeros and ones with one queen in each row, where no two queens
    share a column or a diagonal. *)
Definition queens_board (n : nat) (b : list (list Z)) : Prop :=
  length b = n /\ (forall row, In row b -> length row = n /\ forall v, In v row -> v = 0 \/ v = 1) /\
  (forall r, (r < n)%nat -> exists c, (c < n)%nat /\ cell b r c = 1) /\
  (forall r c r' c', (r < n)%nat -> (c < n)%nat -> (r' < n)%nat -> (c' < n)%nat ->
     cell b r c = 1 -> cell b r' c' = 1 -> (r, c) <> (r', c') ->
     r <> r' /\ c <> c' /\
     Z.of_nat r + Z.of_nat c <> Z.of_nat r' + Z.of_nat c' /\
     Z.of_nat r - Z.of_nat c <> Z.of_nat r' - Z.of_nat c').
