(** Specification: the size of the tree of partial assignments. *)
From Coq Require Import Permutation.
From Verif Require Import Optimize SpecFormula SpecSolve SpecOrder.
Open Scope list_scope.
Open Scope Z_scope.

(** Variables with domains of these sizes, in this order: the partial assignments of the first
    variables, but not of all, and the assignments of all of them. *)
Fixpoint tree (sizes : list Z) : Z := match sizes with [] => 0 | d :: l => 1 + d * tree l end.
Fixpoint space (sizes : list Z) : Z := match sizes with [] => 1 | d :: l => d * space l end.

Definition sizes (m : model) (order : list name) : list Z := map (domain_size m) order.

(** The policies for which the constraints do not matter: what the order of the variables is. *)
Definition plain_order (shuffle : list name -> list name) (p : policy) (m : model) (order : list name) : Prop :=
  let names := variables_of m in
  match p with
  | ORDERED => order = names
  | REVERSED => order = rev names
  | RANDOM => order = shuffle names
  | MIN_BOUND => sorts Z.lt (domain_size m) names order
  | MAX_BOUND => sorts Z.gt (domain_size m) names order
  | MIN_CONSTRAINT | MAX_CONSTRAINT | GROUPS => Permutation order names
  end.

(** A constraint on the variables of an objective. *)
Definition bounds_objective (c : constraint) (oa : oarg) : Prop :=
  exists o, oa = OObj o /\ ~ all_different c /\ forall x, mentions c x <-> occurs x (o_expr o).

(** No constraint excludes anything: there are no all-different ones, and the others are true for
    all values from the domains. *)
Definition idle (w : world) (m : model) (cs : list constraint) : Prop :=
  (forall c xs, In c cs -> c_body c <> CAllDiff xs) /\
  forall c s, In c cs -> concerns m c -> (forall x v, In (x, v) s -> exists d, is_variable m x d /\ In v d) ->
    (forall x, mentions c x -> In x (map fst s)) -> evaluates_true w s c.
