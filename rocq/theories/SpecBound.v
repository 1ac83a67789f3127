(** Specification: which partial assignments an optimisation should extend. *)
From Verif Require Import Optimize OptimizeWatch SpecFormula SpecSafe SpecSolve SpecOptimize.
Open Scope list_scope.
Open Scope Z_scope.

(** The solutions found, and the partial assignments extended, in a record. *)
Definition found (vs : list visit) : list subst :=
  flat_map (fun v => match v with Finds s => [s] | Extends _ => [] end) vs.
Definition tried (vs : list visit) : list subst :=
  flat_map (fun v => match v with Extends s => [s] | Finds _ => [] end) vs.

(** The objective has at least two variables; all of them have a value in [s]. *)
Definition several (o : objective) : Prop :=
  exists x y, x <> y /\ occurs x (o_expr o) /\ occurs y (o_expr o).
Definition determined (o : objective) (s : subst) : Prop :=
  forall x, occurs x (o_expr o) -> In x (map fst s).

(** [s] has a better value than the last of the solutions. *)
Definition improves (ps : pstore) (o : objective) (ys : list subst) (s : subst) : Prop :=
  forall l y p q, ys = l ++ [y] -> value_of ps o y q -> value_of ps o s p -> better o p q.

(** The value [u] of the variable [x] is worth trying after [s], in view of the solutions [ys]:
    it improves every objective (of several variables) that it determines. *)
Definition kept (ps : pstore) (os : list oarg) (ys : list subst) (s : subst) (x : name) (u : Z) : Prop :=
  forall o, In (OObj o) os -> several o -> occurs x (o_expr o) -> determined o (s ++ [(x, u)]) ->
    improves ps o ys (s ++ [(x, u)]).

(** Every value in [t] was worth trying when the values of its variable were tested, that is,
    in view of the solutions found before, according to the record [vs]. *)
Definition reached (ps : pstore) (os : list oarg) (vs : list visit) (t : subst) : Prop :=
  forall s x u q, t = s ++ (x, u) :: q ->
    exists pre mid, vs = pre ++ Extends s :: mid /\ kept ps os (found pre) s x u.
