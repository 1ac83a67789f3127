(** Specification: what a solution of a model is, independently of how the solver
    finds it. *)
From Coq Require Import Permutation.
From Verif Require Import Solver SpecFormula SpecSafe.
Open Scope list_scope.
Open Scope Z_scope.

Definition len {A} (l : list A) : Z := Z.of_nat (length l).
Definition prefix {A} (a b : list A) : Prop := exists c, b = a ++ c.

(** Names mentioned by a constraint. *)
Definition mentions (c : constraint) (x : name) : Prop :=
  match c_body c with
  | CConst _ => False
  | CExpr e => occurs x e
  | CAllDiff xs => In x xs
  end.

(** Mathematical truth of a constraint: a non-zero value; pairwise different values. *)
Definition holds (ps : pstore) (s : subst) (c : constraint) : Prop :=
  match c_body c with
  | CConst b => b = true
  | CExpr e => exists v, evaluate ps s e = Ok v /\ v <> 0
  | CAllDiff xs => forall x y, In x xs -> In y xs -> x <> y ->
      exists a b, dget s x = Some a /\ dget s y = Some b /\ a <> b
  end.

(** [x] is a variable (not a parameter) of the model, with domain [d]. *)
Definition is_variable (m : model) (x : name) (d : list Z) : Prop := In (x, VVar d) (m_vars m).

(** [s] binds exactly the variables of the model, each once, to values of their domains. *)
Definition assigns (m : model) (s : subst) : Prop :=
  NoDup (map fst s) /\
  (forall x, In x (map fst s) <-> exists d, is_variable m x d) /\
  (forall x v d, In (x, v) s -> is_variable m x d -> In v d).

(** The constraint mentions at least one name, and only variables of the model. *)
Definition concerns (m : model) (c : constraint) : Prop :=
  (exists x, mentions c x) /\ (forall x, mentions c x -> exists d, is_variable m x d).

(** Solutions with respect to a notion of satisfaction of a constraint. *)
Definition solves (sat : subst -> constraint -> Prop) (m : model) (cs : list constraint) (s : subst) : Prop :=
  assigns m s /\ forall c, In c cs -> concerns m c -> sat s c.

(** As decided by [constraint.evaluate(solution)] in the program state [w]. *)
Definition evaluates_true (w : world) (s : subst) (c : constraint) : Prop := ceval w c s = Ok true.

(** Equality of Python dicts. *)
Definition same_dict (s s' : subst) : Prop := forall x, dget s x = dget s' x.

(** The constraints are objects of the program: two with the same identity are the same
    object, and a stored compiled function is the compilation of its own expression
    (possibly with older parameter values). *)
Definition objects (w : world) (cs : list constraint) : Prop :=
  (forall c c', In c cs -> In c' cs -> c_id c = c_id c' -> c_body c = c_body c') /\
  (forall c e f, In c cs -> c_body c = CExpr e -> w_code w (c_id c) = Some f ->
     exists ps, f = as_function ps e).

(** The model was built through the API: names are unique and of the shape accepted or
    generated by the model. *)
Definition well_named (m : model) : Prop :=
  NoDup (map fst (m_vars m)) /\
  forall x, In x (map fst (m_vars m)) ->
    good_name x = true \/ exists k, (x = "_v" ++ str_nat k \/ x = "_p" ++ str_nat k)%string.

(** The constraints of a solve. *)
Definition all_cons (m : model) (a : args) : list constraint := m_cons m ++ x_additional a.

(** [random.shuffle] permutes the list. *)
Definition shuffles (shuffle : list name -> list name) : Prop :=
  forall l, Permutation (shuffle l) l.

(** No evaluation of a constraint raises, for values taken from the domains. *)
Definition no_raise (eval : constraint -> subst -> res bool) (m : model) (cs : list constraint) : Prop :=
  forall c s, In c cs -> concerns m c ->
    (forall x v, In (x, v) s -> exists d, is_variable m x d /\ In v d) ->
    (forall x, mentions c x -> In x (map fst s)) ->
    exists b, eval c s = Ok b.

(** Every all-different constraint is over variables of the model, at least one. *)
Definition groups_ok (m : model) (cs : list constraint) : Prop :=
  forall c xs, In c cs -> c_body c = CAllDiff xs -> concerns m c.

(** Domains have no repeated value. *)
Definition domains_ok (m : model) : Prop := forall x d, is_variable m x d -> NoDup d.

(** The setting of a call of [solve]: a model and constraints that exist in the program,
    and a [random.shuffle] that shuffles. *)
Definition valid (shuffle : list name -> list name) (e : env) (a : args) : Prop :=
  shuffles shuffle /\ well_named (w_model (e_world e)) /\ domains_ok (w_model (e_world e)) /\
  objects (e_world e) (all_cons (w_model (e_world e)) a).

(** The effective options. *)
Definition timeout_of (sv : solver) (a : args) : lim := arg_or (x_timeout a) (s_timeout sv).
Definition limit_of (sv : solver) (a : args) : lim := arg_or (x_limit a) (s_limit sv).
Definition policy_of (sv : solver) (a : args) : policy := arg_or (x_policy a) (s_policy sv).
Definition unlimited (sv : solver) (a : args) : Prop := timeout_of sv a = LNone /\ limit_of sv a = LNone.

(** Is there a variable? *)
Definition has_variable (m : model) : Prop := exists x d, is_variable m x d.

(** [a] comes before [b] in the list [d]. *)
Definition before (d : list Z) (a b : Z) : Prop := exists l1 l2 l3, d = l1 ++ a :: l2 ++ b :: l3.

(** Lexicographic order of solutions with respect to a variable order and domains. *)
Definition lex_before (order : list name) (dm : name -> list Z) (s s' : subst) : Prop :=
  exists p x q a b, order = p ++ x :: q /\ (forall y, In y p -> dget s y = dget s' y) /\
    dget s x = Some a /\ dget s' x = Some b /\ before (dm x) a b.

(** The domain as declared. *)
Definition declared (m : model) (x : name) : list Z :=
  match dget (m_vars m) x with Some (VVar d) => d | _ => [] end.

(** The variables in order of declaration. *)
Definition variables_of (m : model) : list name :=
  flat_map (fun p => match snd p with VVar _ => [fst p] | VPar _ => [] end) (m_vars m).

(** Two lists of solutions are equal up to order, comparing solutions as dicts. *)
Definition same_solutions (ys zs : list subst) : Prop :=
  exists ys', Permutation ys ys' /\ Forall2 same_dict ys' zs.

(** Compiled or interpreted, the constraints mean what their expressions mean: they are
    compiled and in the class of C05, or never compiled. *)
Definition faithful (w : world) (compiled : bool) (cs : list constraint) : Prop :=
  forall c e, In c cs -> c_body c = CExpr e ->
    if compiled then safe e = true else w_code w (c_id c) = None.

(** No evaluation of an expression raises, for values taken from the domains. *)
Definition no_error (ps : pstore) (m : model) (cs : list constraint) : Prop :=
  forall c e s, In c cs -> c_body c = CExpr e -> concerns m c ->
    (forall x v, In (x, v) s -> exists d, is_variable m x d /\ In v d) ->
    (forall x, mentions c x -> In x (map fst s)) ->
    exists v, evaluate ps s e = Ok v.

(** A history of calls is genuine if the constraint objects passed to it are objects that
    exist: [B] gives the body of each object, in order of creation. *)
Fixpoint genuine (B : nat -> cbody) (w : world) (h : list api) : Prop :=
  match h with
  | [] => True
  | a :: h' =>
      match a with
      | AddConstraint (ABool b) => B (w_ncon w) = CConst b
      | AddConstraint (AExpr e) => B (w_ncon w) = CExpr e
      | AddConstraint (ACons c) | CompileConstraint c => B (c_id c) = c_body c
      | AddAllDiff xs => B (w_ncon w) = CAllDiff xs
      | NewConstraint b => B (w_ncon w) = b
      | _ => True
      end /\ genuine B (fst (run_api a w)) h'
  end.

(** The evaluation of some constraint, for values taken from the domains, raises [ex]. *)
Definition eval_error (w : world) (m : model) (cs : list constraint) (ex : exn) : Prop :=
  exists c s, In c cs /\ concerns m c /\
    (forall x v, In (x, v) s -> exists d, is_variable m x d /\ In v d) /\
    (forall x, mentions c x -> In x (map fst s)) /\ ceval w c s = Err ex.

(** Sum of the durations between pairs of clock readings. *)
Fixpoint durations (clk : nat -> Z) (l : list (nat * nat)) : Z :=
  match l with [] => 0 | (a, b) :: l' => (clk b - clk a) + durations clk l' end.

(** The intervals are disjoint, in order, and start at or after reading [a]. *)
Fixpoint ordered_from (a : nat) (l : list (nat * nat)) : Prop :=
  match l with [] => True | (b, c) :: l' => (a <= b < c)%nat /\ ordered_from (S c) l' end.
