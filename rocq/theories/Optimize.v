(** Model of src/satisfy/objective.py and of Solver.optimize / Solver.optimal_solution
    (src/satisfy/solver.py:403-433).

    [optimize] is a generator around [solve]; here it is run to the end by a caller that
    only collects the solutions (as [optimal_solution] does). *)
From Verif Require Export Solver.
Open Scope string_scope.
Open Scope Z_scope.

(** ** objective.py *)

(** Minimize / Maximize objects, objective.py:51-73. *)
Record objective : Type := Objective { o_expr : expr; o_max : bool }.

(** An element of the [objective] argument of [optimize]: an Objective or not. *)
Inductive oarg : Type := OObj (o : objective) | OOther.

(** A MinMaxConstraint object (objective.py:29-40): the constraint it is, and the
    identities of its Parameters [_not_set] and [_bound]. *)
Record minmax : Type := MinMax { mm_cons : constraint; mm_not_set : nat; mm_bound : nat }.

(** The expression [not_set | op(expression, bound)], objective.py:34; [op] is
    [operator.gt] for MaxConstraint and [operator.lt] for MinConstraint (43-50). *)
Definition bound_expression (o : objective) (not_set bound : expr) : res operand :=
  let! c := py_op (if o_max o then UGt else ULt) (OExpr (o_expr o)) (OExpr bound) in
  py_op UOr (OExpr not_set) c.

(** [make_constraint], objective.py:67-68, 72-73, and MinMaxConstraint.__init__ (30-34).
    The identity of a Parameter created in [w] is [w_npar w].  ExpressionConstraint
    refuses anything but an Expression (constraint.py:59-60). *)
Definition make_constraint (o : objective) : op minmax := fun w =>
  match add_parameter 1 None w with
  | (w1, Err ex) => (w1, Err ex)
  | (w1, Ok ns) =>
      match add_parameter 0 None w1 with
      | (w2, Err ex) => (w2, Err ex)
      | (w2, Ok b) =>
          match bound_expression o ns b with
          | Err ex => (w2, Err ex)
          | Ok (OInt _) => (w2, Err TypeError)
          | Ok (OExpr e) =>
              let '(c, w3) := new_constraint w2 (CExpr e) in
              (w3, Ok (MinMax c (w_npar w) (w_npar w1)))
          end
      end
  end.

(** [set_bound], objective.py:36-40. *)
Definition set_bound (w : world) (m : minmax) (v : Z) : world :=
  let w := set_param (set_param w (mm_not_set m) 0) (mm_bound m) v in
  match w_code w (c_id (mm_cons m)) with
  | Some _ => ccompile w (mm_cons m)
  | None => w
  end.

(** [add_solution], objective.py:60-62. *)
Definition add_solution (w : world) (o : objective) (m : minmax) (s : subst) : res world :=
  let! v := evaluate (w_par w) s (o_expr o) in Ok (set_bound w m v).

(** ** solver.py: optimize *)

(** The loop creating the constraints, solver.py:409-412. *)
Fixpoint make_constraints (os : list oarg) : op (list (objective * minmax)) := fun w =>
  match os with
  | [] => (w, Ok [])
  | OOther :: _ => (w, Err ValueError)
  | OObj o :: os' =>
      match make_constraint o w with
      | (w1, Err ex) => (w1, Err ex)
      | (w1, Ok m) =>
          match make_constraints os' w1 with
          | (w2, Err ex) => (w2, Err ex)
          | (w2, Ok oms) => (w2, Ok ((o, m) :: oms))
          end
      end
  end.

(** The body of the loop over the solutions, solver.py:416-417.  (If an evaluation raises,
    the changes already made by the previous objectives are not recorded.) *)
Fixpoint add_solutions (oms : list (objective * minmax)) (w : world) (s : subst) : res world :=
  match oms with
  | [] => Ok w
  | (o, m) :: oms' => let! w' := add_solution w o m s in add_solutions oms' w' s
  end.

Definition with_objectives (a : args) (oms : list (objective * minmax)) : args :=
  Args (x_timeout a) (x_limit a) (x_policy a)
       (x_additional a ++ map (fun p => mm_cons (snd p)) oms)%list.

(** [list(solver.optimize(model, objectives, ...))], solver.py:403-422: the solutions found,
    the final state, and how it ended.  If [add_solution] raises, the last solution of the
    list was found by [solve] but not yielded by [optimize]. *)
Definition optimize_all (clk : nat -> Z) (shuffle : list name -> list name) (fuel : nat)
           (e : env) (sv : solver) (os : list oarg) (a : args)
  : option (list subst * env * option exn) :=
  match make_constraints os (e_world e) with
  | (w, Err ex) => Some ([], set_world e w, Some ex)
  | (w, Ok oms) =>
      drain clk shuffle fuel (fun _ w s => add_solutions oms w s) 0 (set_world e w)
            (GInit sv (with_objectives a oms))
  end.

Fixpoint last_solution (ys : list subst) : option subst :=
  match ys with
  | [] => None
  | s :: ys' => match last_solution ys' with Some t => Some t | None => Some s end
  end.

(** [optimal_solution], solver.py:424-433: [is_optimal] and the solution, or an exception. *)
Definition optimal_solution (clk : nat -> Z) (shuffle : list name -> list name) (fuel : nat)
           (e : env) (sv : solver) (os : list oarg) (a : args)
  : option (env * res (bool * option subst)) :=
  match optimize_all clk shuffle fuel e sv os a with
  | None => None
  | Some (_, e', Some ex) => Some (e', Err ex)
  | Some (ys, e', None) =>
      let solution := last_solution ys in
      let is_optimal := match solution, e_interrupt e' with Some _, None => true | _, _ => false end in
      Some (e', Ok (is_optimal, solution))
  end.
