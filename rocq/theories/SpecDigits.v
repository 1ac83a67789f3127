(** Specification: digits for some letters of an equation. *)
From Coq Require Import List String ZArith.
From Verif Require Import SpecCryptarithm.
Import ListNotations.
Open Scope list_scope.
Open Scope Z_scope.

(** For each letter there are two assignments that only differ in it, and only one of them
    satisfies the equation. *)
Definition depends_on_each (q : equation) : Prop := forall x, letter_of q x ->
  exists a a', (forall y, y <> x -> a y = a' y) /\ true_equation a q /\ ~ true_equation a' q.

(** Different digits for the first letters, not all of them, that differ from 0 at the beginning
    of a word. *)
Definition digits_for (q : equation) (letters : list string) (t : list (string * Z)) : Prop :=
  (exists x rest, letters = map fst t ++ x :: rest) /\
  (forall x v, In (x, v) t -> 0 <= v <= 9 /\ (leading q x -> v <> 0)) /\
  NoDup (map snd t).

(** n (n - 1) ... (n - k + 1) *)
Fixpoint falling (n k : nat) : nat :=
  match k with O => 1 | S k' => n * falling (n - 1) k' end.
