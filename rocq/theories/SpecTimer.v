(** Specification of a stopwatch: the measured intervals of a history of calls. *)
From Verif Require Import Solver.
Open Scope list_scope.
Open Scope Z_scope.

Inductive tcall : Type := CStart | CStop (count : Z) | CAbort.

(** A log: each call with the time at which it was made, oldest first.  Given the start of
    the interval being measured (if any), the finished intervals (start, end, count) and
    the interval still open at the end. *)
Fixpoint measured (open : option Z) (h : list (Z * tcall)) : list (Z * Z * Z) * option Z :=
  match h with
  | [] => ([], open)
  | (now, c) :: h' =>
      match open, c with
      | None, CStart => measured (Some now) h'
      | None, _ => measured None h'
      | Some b, CStart => measured (Some b) h'
      | Some b, CStop n => let (l, o) := measured None h' in ((b, now, n) :: l, o)
      | Some b, CAbort => let (l, o) := measured None h' in ((b, now, 0) :: l, o)
      end
  end.

Fixpoint total_time (l : list (Z * Z * Z)) : Z :=
  match l with [] => 0 | (b, c, _) :: l' => (c - b) + total_time l' end.
Fixpoint total_count (l : list (Z * Z * Z)) : Z :=
  match l with [] => 0 | (_, _, n) :: l' => n + total_count l' end.

(** One call on the model's Timer object: new state and raised exception. *)
Definition timer_call (now : Z) (c : tcall) (t : timer) : timer * option exn :=
  match c with
  | CStart => match timer_start now t with Ok t' => (t', None) | Err ex => (t, Some ex) end
  | CStop n => match timer_stop now n t with Ok (t', _) => (t', None) | Err ex => (t, Some ex) end
  | CAbort => (timer_abort now t, None)
  end.
Fixpoint timer_run (h : list (Z * tcall)) (t : timer) : timer :=
  match h with [] => t | (now, c) :: h' => timer_run h' (fst (timer_call now c t)) end.
