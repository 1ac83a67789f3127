(** Observing an optimisation: which partial assignments are extended and which solutions are
    found, in one record.  The generator is the one of Solver.v ([micro]) and the loop over it the
    one of Optimize.v ([drain]); only what is recorded is new. *)
From Verif Require Import Optimize SolverWatch.
Open Scope string_scope.
Open Scope list_scope.
Open Scope Z_scope.

(** [Extends s]: the values of the next variable are tested together with [s]
    (solver.py:234-258); [Finds s]: [s] is yielded by [solve] (solver.py:268-283). *)
Inductive visit : Type := Extends (s : subst) | Finds (s : subst).

Section Observe.
Variable clk : nat -> Z.
Variable shuffle : list name -> list name.

(** [drain], with a record. *)
Fixpoint observe (fuel : nat) (consumer : nat -> world -> subst -> res world) (k : nat)
         (e : env) (g : gen) : option (list visit * env * option exn) :=
  match fuel with
  | O => None
  | S f =>
      let now := map Extends (extended clk e g) in
      match micro clk shuffle e g with
      | (e', g', EvNone) =>
          match observe f consumer k e' g' with
          | Some (vs, e'', r) => Some (now ++ vs, e'', r)
          | None => None
          end
      | (e', g', EvYield s) =>
          match consumer k (e_world e') s with
          | Err ex => Some (now ++ [Finds s], e', Some ex)
          | Ok w =>
              match observe f consumer (S k) (set_world e' w) g' with
              | Some (vs, e'', r) => Some (now ++ Finds s :: vs, e'', r)
              | None => None
              end
          end
      | (e', g', EvStop) => Some (now, e', None)
      | (e', g', EvRaise ex) => Some (now, e', Some ex)
      end
  end.

(** [list(solver.optimize(model, objectives, ...))], observed (solver.py:402-421). *)
Definition optimize_watched (fuel : nat) (e : env) (sv : solver) (os : list oarg) (a : args)
  : option (list visit * env * option exn) :=
  match make_constraints os (e_world e) with
  | (w, Err ex) => Some ([], set_world e w, Some ex)
  | (w, Ok oms) =>
      observe fuel (fun _ w s => add_solutions oms w s) 0 (set_world e w)
              (GInit sv (with_objectives a oms))
  end.

End Observe.
