(** Specification: the partial assignments worth extending. *)
From Verif Require Import Solver SpecFormula SpecSafe SpecSolve.
Open Scope list_scope.
Open Scope Z_scope.

(** The values come from the domains; no constraint whose variables are all assigned is
    violated (or raises); no two variables of an all-different constraint have the same
    value, even if others of its variables are not assigned yet. *)
Definition consistent (w : world) (m : model) (cs : list constraint) (s : subst) : Prop :=
  (forall x v, In (x, v) s -> exists d, is_variable m x d /\ In v d) /\
  (forall c, In c cs -> concerns m c -> (forall x, mentions c x -> In x (map fst s)) ->
     evaluates_true w s c) /\
  (forall c xs x y v, In c cs -> c_body c = CAllDiff xs -> In x xs -> In y xs -> x <> y ->
     dget s x = Some v -> dget s y <> Some v).

(** [s] assigns the first variables of the order, not all of them. *)
Definition starts (order : list name) (s : subst) : Prop :=
  exists x q, order = map fst s ++ x :: q.

(** Depth first: a partial assignment comes before its extensions, and otherwise the order is
    lexicographic. *)
Definition depth_first (order : list name) (dm : name -> list Z) (s s' : subst) : Prop :=
  (exists t, t <> [] /\ s' = s ++ t) \/ lex_before order dm s s'.
