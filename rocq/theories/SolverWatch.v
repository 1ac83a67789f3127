(** Observing the search: which partial assignments it tries to extend.  The generator itself
    is the one of Solver.v ([micro]); only what is recorded is new. *)
From Verif Require Import Solver.
Open Scope string_scope.
Open Scope list_scope.
Open Scope Z_scope.

Section Watch.
Variable clk : nat -> Z.
Variable shuffle : list name -> list name.

(** The partial assignment with which the values of the next variable are tested, in an
    iteration of [while stack] that finds no filtered domain for this variable
    ([if domain is None], solver.py:234-258) and is not ended by the timeout (:235-238). *)
Definition extended (e : env) (g : gen) : list subst :=
  match g with
  | GLoop l c n =>
      match g_stack c with
      | (x :: _, s) :: _ =>
          match check_timeout clk e l, dget (g_doms c) x with
          | (_, None), None => [s]
          | _, _ => []
          end
      | _ => []
      end
  | _ => []
  end.

(** A [for] loop that only collects the solutions (as [drain] with [passive]), with the
    partial assignments extended meanwhile, in order. *)
Fixpoint watch (fuel : nat) (e : env) (g : gen) : option (list subst * list subst * env * option exn) :=
  match fuel with
  | O => None
  | S f =>
      match micro clk shuffle e g with
      | (e', g', EvNone) =>
          match watch f e' g' with
          | Some (ts, ys, e'', r) => Some (extended e g ++ ts, ys, e'', r)
          | None => None
          end
      | (e', g', EvYield s) =>
          match watch f e' g' with
          | Some (ts, ys, e'', r) => Some (extended e g ++ ts, s :: ys, e'', r)
          | None => None
          end
      | (e', g', EvStop) => Some (extended e g, [], e', None)
      | (e', g', EvRaise ex) => Some (extended e g, [], e', Some ex)
      end
  end.

(** [list(solver.solve(model, ...))], observed. *)
Definition solve_watched (fuel : nat) (e : env) (sv : solver) (a : args)
  : option (list subst * list subst * env * option exn) :=
  watch fuel e (GInit sv a).

(** The iterations of [while stack] (solver.py:234) of that loop: those that are begun, the one
    that the timeout ends included. *)
Definition iterates (g : gen) : nat :=
  match g with
  | GLoop _ c _ => match g_stack c with [] => 0%nat | _ => 1%nat end
  | _ => 0%nat
  end.

Fixpoint iterations (fuel : nat) (e : env) (g : gen) : nat :=
  match fuel with
  | O => 0%nat
  | S f =>
      (iterates g +
       match micro clk shuffle e g with
       | (e', g', EvNone) | (e', g', EvYield _) => iterations f e' g'
       | _ => 0%nat
       end)%nat
  end.

End Watch.
