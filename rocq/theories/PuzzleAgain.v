(** A puzzle object that is used several times: statements are added to its model, the limits
    and the policy of its solver are set, and it is iterated, possibly not to the end. *)
From Verif Require Export PuzzleUser.
Open Scope string_scope.
Open Scope Z_scope.

Section Again.
Context {B : Type}.
Variables (clk : nat -> Z) (decode : subst -> res B).

(** [for result in puzzle: ...], where [__iter__] is
    [for solution in self._solver.solve(self._model): yield <decode>] (solver.py:465-466 for
    cryptarithms, graph_labeling.py:25-32, nonogram.py:115-130, sudoku.py:87-101,
    tool/queens.py:37-46, tool/einstein_riddle.py:135-148); the body
    of the loop ends it with [break] when it has received the result number [n] (from 0), if
    [stop] is [Some n].  The results received, the final state, and the exception that ended
    the loop, if any.  A generator that is not resumed does nothing more: [solve] has no
    [finally] clause (solver.py:154-284). *)
Fixpoint watch (shuffle : list name -> list name) (fuel : nat) (stop : option nat) (e : env) (g : gen) : option (list B * env * option exn) :=
  match fuel with
  | O => None
  | S f =>
      match micro clk shuffle e g with
      | (e', g', EvNone) => watch shuffle f stop e' g'
      | (e', g', EvYield s) =>
          match decode s with
          | Err ex => Some ([], e', Some ex)
          | Ok b =>
              match stop with
              | Some O => Some ([b], e', None)
              | Some (S n) => match watch shuffle f (Some n) e' g' with Some (bs, e'', r) => Some (b :: bs, e'', r) | None => None end
              | None => match watch shuffle f None e' g' with Some (bs, e'', r) => Some (b :: bs, e'', r) | None => None end
              end
          end
      | (e', g', EvStop) => Some ([], e', None)
      | (e', g', EvRaise ex) => Some ([], e', Some ex)
      end
  end.

(** [puzzle.model.add_...(...)]; [puzzle.solver.timeout = t]; [puzzle.solver.limit = l]
    (solver.py:64-85); [puzzle.solver.var_selection_policy = p] (solver.py:57-62); a loop over
    the puzzle, in which [random.shuffle] is [shuffle]. *)
Inductive act : Type :=
| AAdd (u : ustmt)
| ATimeout (t : lim)
| ALimit (l : lim)
| APolicy (p : policy)
| ALoop (shuffle : list name -> list name) (fuel : nat) (stop : option nat).

(** The solver and the state after the statements, or the first exception.  [None]: a loop has
    not ended within its fuel. *)
Fixpoint play (sv : solver) (e : env) (acts : list act) : option (res (solver * env)) :=
  match acts with
  | [] => Some (Ok (sv, e))
  | AAdd u :: rest =>
      match add_user u (e_world e) with
      | (w, Ok _) => play sv (set_world e w) rest
      | (_, Err ex) => Some (Err ex)
      end
  | ATimeout t :: rest => play (Solver (s_policy sv) (lim_setter t) (s_limit sv) (s_compile sv)) e rest
  | ALimit l :: rest => play (Solver (s_policy sv) (s_timeout sv) (lim_setter l) (s_compile sv)) e rest
  | APolicy p :: rest => play (Solver p (s_timeout sv) (s_limit sv) (s_compile sv)) e rest
  | ALoop shuffle fuel stop :: rest =>
      match watch shuffle fuel stop e (GInit sv no_args) with
      | None => None
      | Some (_, _, Some ex) => Some (Err ex)
      | Some (_, e', None) => play sv e' rest
      end
  end.

(** [results = list(puzzle); stats = puzzle.get_stats()]. *)
Definition results (shuffle : list name -> list name) (fuel : nat) (sv : solver) (e : env) : option (list B * option exn * option interrupt) :=
  match watch shuffle fuel None e (GInit sv no_args) with
  | Some (bs, e', r) => Some (bs, r, e_interrupt e')
  | None => None
  end.
End Again.
