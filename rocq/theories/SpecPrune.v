(** Specification: policies. *)
From Verif Require Import Solver SpecSolve.

(** The policies that do not look at the constraints. *)
Definition blind (p : policy) : Prop :=
  match p with
  | ORDERED | REVERSED | RANDOM | MIN_BOUND | MAX_BOUND => True
  | MIN_CONSTRAINT | MAX_CONSTRAINT | GROUPS => False
  end.
