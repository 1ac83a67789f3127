(** What the puzzle classes have in common: sequences of calls on a Model object, the
    options of ModelSolverBase, and iteration over decoded solutions.

    Model of src/satisfy/solver.py:443-468 (ModelSolverBase, ModelSolver).
    Simplifications: a puzzle object creates its own Model and Solver ([model=] and
    [solver=] are not given; PuzzleShared.v is about these). *)
From Verif Require Export Solver SpecFormula.
Open Scope string_scope.
Open Scope Z_scope.

(** ** Statements executed one after the other; an exception stops the program. *)
Definition op_ret {A} (a : A) : op A := fun w => (w, Ok a).
Definition op_raise {A} (ex : exn) : op A := fun w => (w, Err ex).
Definition op_bind {A B} (p : op A) (k : A -> op B) : op B := fun w =>
  match p w with (w', Ok a) => k a w' | (w', Err ex) => (w', Err ex) end.

Notation "'do!' x ':=' p 'in' k" := (op_bind p (fun x => k))
  (at level 200, x pattern, p at level 100, k at level 200, right associativity).

(** A [for] loop or list comprehension. *)
Fixpoint op_for {A B} (f : A -> op B) (l : list A) : op (list B) :=
  match l with
  | [] => op_ret []
  | a :: l' => do! b := f a in do! bs := op_for f l' in op_ret (b :: bs)
  end.

(** [model.add_constraint(<expression>)], where the expression is written in the source
    and every variable in it is a Variable object.  A comparison of two ints is a bool; one
    of two Const objects is an int (expression.py:272-300), which is refused. *)
Definition is_comparison (f : formula) : bool :=
  match f with FBin u _ _ => match cmp_of u with Some _ => true | None => false end | _ => false end.
Definition of_ints (f : formula) : bool :=
  match f with
  | FBin _ g h => match build g, build h with Ok (OInt _), Ok (OInt _) => true | _, _ => false end
  | _ => false
  end.
Definition add_formula (f : formula) : op unit := fun w =>
  match build f with
  | Err ex => (w, Err ex)
  | Ok (OExpr e) => add_constraint (AExpr e) w
  | Ok (OInt n) => add_constraint (if is_comparison f && of_ints f then ABool (truthy n) else AOther) w
  end.

(** [model.add_int_variable(domain=d, name=x)] where only the name of the returned
    Variable object matters. *)
Definition int_variable (d : list Z) (x : name) : op name :=
  do! _ := add_int_variable d (Some x) in op_ret x.

(** [l[i]] for a list that is long enough or not. *)
Definition op_nth {A} (l : list A) (i : nat) : op A :=
  match nth_error l i with Some a => op_ret a | None => op_raise IndexError end.

(** [range(lo, hi)], and names made with [format]: ["p{}"] and ["p{}_{}"]. *)
Definition zrange (lo hi : Z) : list Z := map (fun i => lo + Z.of_nat i) (seq 0 (Z.to_nat (hi - lo))).
Definition name1 (p : string) (i : nat) : name := p ++ str_nat i.
Definition name2 (p : string) (i j : nat) : name := p ++ str_nat i ++ "_" ++ str_nat j.

(** ** Options of ModelSolverBase.__init__, solver.py:444-450: passed on to [Solver(...)].
    [None] for the policy: not given. *)
Record options : Type := Options {
  o_policy : option policy; o_timeout : lim; o_limit : lim; o_compile : bool }.
Definition default_options : options := Options None LNone LNone true.
(** The classes replace a missing policy by their own default. *)
Definition options_solver (dflt : policy) (o : options) : solver :=
  new_solver (arg_or (o_policy o) dflt) (o_timeout o) (o_limit o) (o_compile o).

(** [obj = Puzzle(...)] in a fresh program: the object and the state of the program. *)
Definition construct {A} (p : op A) : res (A * env) :=
  match p init_world with
  | (w, Ok a) => Ok (a, new_env w)
  | (_, Err ex) => Err ex
  end.

(** [obj = Puzzle(...); results = list(obj); stats = obj.get_stats()] for an [__iter__]
    that decodes each solution of [solver.solve(model)]: the results, the exception if
    one ended the program, and [stats.interrupt].
    (If a decoding raised, the solutions after it would not be computed; the theorems
    show that no decoding raises.) *)
Definition puzzle_run {A B} (clk : nat -> Z) (shuffle : list name -> list name) (fuel : nat)
           (init : op A) (decode : A -> subst -> res B) (sv : solver)
  : option (list B * option exn * option interrupt) :=
  match construct init with
  | Err ex => Some ([], Some ex, None)
  | Ok (obj, e) =>
      match solve_all clk shuffle fuel e sv no_args with
      | None => None
      | Some (ys, e', r) =>
          match mapM (decode obj) ys with
          | Ok bs => Some (bs, r, e_interrupt e')
          | Err ex => Some ([], Some ex, e_interrupt e')
          end
      end
  end.
