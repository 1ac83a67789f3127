(** Specification: notions used to say what the code does where a property is false of it. *)
From Verif Require Import Solver SpecSolve.
Open Scope list_scope.
Open Scope Z_scope.

(** The two expressions are not two constants with different values. *)
Definition not_distinct (a b : expr) : Prop := forall v w, a = Const v -> b = Const w -> v = w.

(** A history of calls without the calls of [set_solvable]. *)
Inductive without_set_solvable : list api -> list api -> Prop :=
| wo_nil : without_set_solvable [] []
| wo_skip b h h' : without_set_solvable h h' -> without_set_solvable (SetSolvable b :: h) h'
| wo_keep a h h' : (forall b, a <> SetSolvable b) -> without_set_solvable h h' -> without_set_solvable (a :: h) (a :: h').
