(** Specification: what the body of a loop over [solve] may do to the objects it knows. *)
From Verif Require Import HeapSolver.
Open Scope list_scope.
Open Scope Z_scope.

(** The body changes the solutions it has received, new objects of its own, and the objects of
    the program that [dicts] and [lists] allow; it deletes nothing. *)
Definition changes_own (dicts lists : nat -> Prop) (body : list nat -> heap -> heap) : Prop :=
  forall given H, let H' := body given H in
    (h_ndicts H <= h_ndicts H')%nat /\ (h_nlists H <= h_nlists H')%nat /\
    (forall r, (r < h_ndicts H)%nat -> ~ In r given -> ~ dicts r -> h_dicts H' r = h_dicts H r) /\
    (forall r, (r < h_nlists H)%nat -> ~ lists r -> h_lists H' r = h_lists H r).

(** The domains of the model exist before the loop. *)
Definition homes (home : dict dobj) (H : heap) : Prop := forall x r, dget home x = Some (Shared r) -> (r < h_nlists H)%nat.

(** Objects of the program which are not domains of the model. *)
Definition spare (home : dict dobj) (H : heap) (dicts lists : nat -> Prop) : Prop :=
  (forall r, dicts r -> (r < h_ndicts H)%nat) /\
  (forall r, lists r -> (r < h_nlists H)%nat /\ forall x, dget home x <> Some (Shared r)).

(** The list objects among the domains still hold what [add_int_variable] saw. *)
Definition up_to_date (home : dict dobj) (H : heap) (w : world) : Prop :=
  forall x d o, In (x, VVar d) (m_vars (w_model w)) -> dget home x = Some o -> elements H o = d.

(** What a loop over [solve] amounts to: the solutions as they are received, and how it ends. *)
Definition outcomes (q : option (list (nat * subst) * heap * env * option exn)) : option (list subst * env * option exn) :=
  match q with Some (ys, _, e, o) => Some (map snd ys, e, o) | None => None end.
