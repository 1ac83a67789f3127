(** A puzzle to whose model the user adds variables and constraints before iterating: the
    attribute [model] of ModelSolverBase, solver.py:453-455.  They are added one after the
    other. *)
From Verif Require Export Puzzle.
Open Scope string_scope.
Open Scope Z_scope.

(** [puzzle.model.add_int_variable(d, name=x)], [puzzle.model.add_constraint(<expression>)],
    or [puzzle.model.add_all_different_constraint([...])], model.py. *)
Inductive ustmt : Type :=
| UVar (x : name) (d : list Z)
| UForm (f : formula)
| UDiff (xs : list name).

Definition add_user (u : ustmt) : op unit :=
  match u with
  | UVar x d => do! _ := add_int_variable d (Some x) in op_ret tt
  | UForm f => add_formula f
  | UDiff xs => add_all_different_constraint xs
  end.

(** [puzzle = Puzzle(...)], then the statements; the object is that of the puzzle. *)
Definition with_user {A} (init : op A) (us : list ustmt) : op A :=
  do! obj := init in
  do! _ := op_for add_user us in
  op_ret obj.

(** [puzzle = Puzzle(...)], the statements, [list(puzzle)], for the classes that only
    differ in [init], [decode] and the default policy. *)
Definition user_run {A B} clk shuffle fuel (init : op A) (decode : A -> subst -> res B) (dflt : policy) (o : options) (us : list ustmt) :=
  puzzle_run clk shuffle fuel (with_user init us) decode (options_solver dflt o).
