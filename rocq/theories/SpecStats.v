(** Specification: what a printed text says, and lists of all solutions. *)
From Coq Require Import List String Ascii.
From Verif Require Import Solver SpecSolve.
Open Scope string_scope.

(** The first line is empty and the second one begins with [t]. *)
Definition says (out t : string) : Prop := exists rest, out = String (ascii_of_nat 10) (t ++ rest).
Definition ends (out t : string) : Prop := exists start, out = start ++ t.

(** Every solution is in the list. *)
Definition exhausts (sat : subst -> constraint -> Prop) (m : model) (cs : list constraint) (ys : list subst) : Prop :=
  forall t, solves sat m cs t -> exists s, In s ys /\ same_dict s t.
