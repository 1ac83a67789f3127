(** Specification: what it means to optimise an objective over the solutions of a model. *)
From Verif Require Import Optimize SpecFormula SpecSafe SpecSolve.
Open Scope list_scope.
Open Scope Z_scope.

(** The value [a] is strictly better than [b] for the objective. *)
Definition better (o : objective) (a b : Z) : Prop := if o_max o then b < a else a < b.

(** The value of the objective for an assignment. *)
Definition value_of (ps : pstore) (o : objective) (s : subst) (v : Z) : Prop :=
  evaluate ps s (o_expr o) = Ok v.

(** [s] has a value and no assignment in [P] has a better one. *)
Definition best (ps : pstore) (o : objective) (P : subst -> Prop) (s : subst) : Prop :=
  P s /\ exists v, value_of ps o s v /\ forall t w, P t -> value_of ps o t w -> ~ better o w v.

(** Identities of the Parameter objects of an expression. *)
Fixpoint params (e : expr) : list nat :=
  match e with
  | Const _ | Var _ => []
  | Param p _ => [p]
  | Neg e1 | Abs e1 | Not e1 => params e1
  | Bin _ l r => params l ++ params r
  | Sum es _ | Prod es _ => flat_map params es
  end.

(** The constraints, and the Parameters in expressions, are objects created earlier. *)
Definition known_expr (w : world) (e : expr) : Prop := forall p, In p (params e) -> (p < w_npar w)%nat.
Definition known (w : world) (cs : list constraint) : Prop :=
  forall c, In c cs -> (c_id c < w_ncon w)%nat /\ forall e, c_body c = CExpr e -> known_expr w e.

(** Generated names carry numbers below the number of names of the model. *)
Definition numbered (m : model) : Prop :=
  forall k x, In x (map fst (m_vars m)) -> (x = "_v" ++ str_nat k \/ x = "_p" ++ str_nat k)%string ->
    (k < length (m_vars m))%nat.

(** A history is informed if the constraint and Parameter objects it uses exist. *)
Definition known_body (w : world) (b : cbody) : Prop := forall e, b = CExpr e -> known_expr w e.
Fixpoint informed (w : world) (h : list api) : Prop :=
  match h with
  | [] => True
  | a :: h' =>
      match a with
      | AddConstraint (AExpr e) => known_expr w e
      | AddConstraint (ACons c) => (c_id c < w_ncon w)%nat /\ known_body w (c_body c)
      | _ => True
      end /\ informed (fst (run_api a w)) h'
  end.

(** The setting of a call of [optimize]. *)
Definition opt_valid (shuffle : list name -> list name) (e : env) (os : list oarg) (a : args) : Prop :=
  valid shuffle e a /\ numbered (w_model (e_world e)) /\
  known (e_world e) (all_cons (w_model (e_world e)) a) /\
  forall o, In (OObj o) os -> known_expr (e_world e) (o_expr o).

(** The objective can be compared faithfully: interpreted, or in the class of C05. *)
Definition objective_faithful (compiled : bool) (os : list oarg) : Prop :=
  compiled = true -> forall o, In (OObj o) os ->
    safe (o_expr o) = true /\ (9 <= tightness (o_expr o))%nat.

(** The objectives are over variables of the model and have a value for all values from
    the domains. *)
Definition objectives_total (m : model) (ps : pstore) (os : list oarg) : Prop := forall o, In (OObj o) os ->
  (forall x, occurs x (o_expr o) -> exists d, is_variable m x d) /\
  forall s, (forall x v, In (x, v) s -> exists d, is_variable m x d /\ In v d) ->
    (forall x, occurs x (o_expr o) -> In x (map fst s)) -> exists v, value_of ps o s v.

(** The objective gets no worse when a single variable takes a later value of its
    domain. *)
Definition improves_along (m : model) (ps : pstore) (o : objective) : Prop :=
  forall s x d v v' a b,
    (forall y u, In (y, u) s -> exists dy, is_variable m y dy /\ In u dy) ->
    is_variable m x d -> before d v v' ->
    value_of ps o ((x, v) :: s) a -> value_of ps o ((x, v') :: s) b -> ~ better o a b.

(** Strictly. *)
Definition improves_strictly (m : model) (ps : pstore) (o : objective) : Prop :=
  forall s x d v v' a b,
    (forall y u, In (y, u) s -> exists dy, is_variable m y dy /\ In u dy) ->
    is_variable m x d -> before d v v' ->
    value_of ps o ((x, v) :: s) a -> value_of ps o ((x, v') :: s) b -> better o b a.

(** Each element is in relation with its predecessor. *)
Fixpoint chain {A} (R : A -> A -> Prop) (l : list A) : Prop :=
  match l with
  | a :: ((b :: _) as l') => R a b /\ chain R l'
  | _ => True
  end.
