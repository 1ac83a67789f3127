(** Programs in which optimizations run beside enumerations, solver.py:403-422.

    [optimize] is a generator function: the call only makes the generator object.  At the first
    [next()] the objectives' constraints are made and [solve] is called (solver.py:405-415);
    every solution of that inner enumeration changes the bounds before it is passed on
    (solver.py:416-422).  The inner generator is a generator of Program.v that the program
    has no name for: enumerations and optimizations are numbered in the order in which the
    program makes them, and these numbers are the ones in [Next] and [Close]. *)
From Verif Require Export Program Optimize.
Open Scope string_scope.
Open Scope Z_scope.

(** A generator object made by [optimize]: not started; in the loop over generator [g], with
    the objectives and their constraints; or at its end. *)
Inductive ostate : Type :=
| ONew (os : list oarg) (a : args)
| ORun (g : nat) (oms : list (objective * minmax))
| OEnd.

(** The generators that the program has: those of [solve] and those of [optimize], the latter with
    [self] and [model] of the call. *)
Inductive handle : Type :=
| HSolve (g : nat)
| HOptimize (s i : nat) (st : ostate).

Record oprog : Type := OProg { q_base : prog; q_handles : nat -> handle; q_nhandles : nat }.

Definition init_oprog : oprog := OProg init_prog (fun _ => HOptimize 0 0 OEnd) 0.

(** Statements: those of Program.v, and [solver.optimize(model, objectives, ...)]. *)
Inductive oaction : Type :=
| Plain (x : action)
| Optimize (s i : nat) (os : list oarg) (a : args).

Definition with_base (q : oprog) (p : prog) : oprog := OProg p (q_handles q) (q_nhandles q).
Definition set_handle (q : oprog) (p : prog) (h : nat) (x : handle) : oprog :=
  OProg p (upd (q_handles q) h x) (q_nhandles q).
Definition new_handle (q : oprog) (p : prog) (x : handle) : oprog :=
  OProg p (upd (q_handles q) (q_nhandles q) x) (S (q_nhandles q)).

(** The loop over the objectives, solver.py:416-417. *)
Fixpoint add_each (p : prog) (i : nat) (oms : list (objective * minmax)) (sol : subst) : prog * res unit :=
  match oms with
  | [] => (p, Ok tt)
  | (o, m) :: oms' =>
      match add_solution (world_of p i) o m sol with
      | Err ex => (p, Err ex)
      | Ok w => add_each (put_world p i w) i oms' sol
      end
  end.

Section OptProgram.
Variable clk : nat -> Z.
(** [random.shuffle] during the first [next] of each generator of [solve], the inner ones included. *)
Variable shuffle : nat -> list name -> list name.

(** One round of the loop, solver.py:415-422: [next()] of the inner generator, then the bounds. *)
Definition round (fuel : nat) (q : oprog) (p : prog) (h s i g : nat) (oms : list (objective * minmax))
  : option (oprog * outcome) :=
  match step clk shuffle fuel p (Next g) with
  | None => None
  | Some (p', OEvent (EvYield sol)) =>
      match add_each p' i oms sol with
      | (p'', Ok _) => Some (set_handle q p'' h (HOptimize s i (ORun g oms)), OEvent (EvYield sol))
      | (p'', Err ex) => Some (set_handle q p'' h (HOptimize s i OEnd), OEvent (EvRaise ex))
      end
  | Some (p', o) => Some (set_handle q p' h (HOptimize s i OEnd), o)
  end.

(** [next()] of generator [h], made by [optimize]. *)
Definition onext (fuel : nat) (q : oprog) (h s i : nat) (st : ostate) : option (oprog * outcome) :=
  let p := q_base q in
  match st with
  | ONew os a =>
      match make_constraints os (world_of p i) with
      | (w, Err ex) => Some (set_handle q (put_world p i w) h (HOptimize s i OEnd), OEvent (EvRaise ex))
      | (w, Ok oms) =>
          let p1 := put_world p i w in
          match step clk shuffle fuel p1 (Solve s i (with_objectives a oms)) with
          | None => None
          | Some (p2, _) => round fuel q p2 h s i (p_ngens p1) oms
          end
      end
  | ORun g oms => round fuel q p h s i g oms
  | OEnd => Some (q, OEvent EvStop)
  end.

Definition ostep (fuel : nat) (q : oprog) (x : oaction) : option (oprog * outcome) :=
  let p := q_base q in
  let unbound := Some (q, ODone (Err NameError)) in
  match x with
  | Optimize s i os a =>
      if Nat.ltb s (p_nsolvers p) && Nat.ltb i (p_nmodels p)
      then Some (new_handle q p (HOptimize s i (ONew os a)), ODone (Ok tt))
      else unbound
  | Plain (Solve s i a) =>
      if Nat.ltb s (p_nsolvers p) && Nat.ltb i (p_nmodels p)
      then match step clk shuffle fuel p (Solve s i a) with
           | None => None
           | Some (p', o) => Some (new_handle q p' (HSolve (p_ngens p)), o)
           end
      else unbound
  | Plain (Next h) =>
      if Nat.ltb h (q_nhandles q)
      then match q_handles q h with
           | HSolve g => match step clk shuffle fuel p (Next g) with
                         | None => None
                         | Some (p', o) => Some (with_base q p', o)
                         end
           | HOptimize s i st => onext fuel q h s i st
           end
      else unbound
  | Plain (Close h) =>
      if Nat.ltb h (q_nhandles q)
      then match q_handles q h with
           | HSolve g => match step clk shuffle fuel p (Close g) with
                         | None => None
                         | Some (p', o) => Some (with_base q p', o)
                         end
           | HOptimize s i st => Some (set_handle q p h (HOptimize s i OEnd), ODone (Ok tt))
           end
      else unbound
  | Plain x => match step clk shuffle fuel p x with
               | None => None
               | Some (p', o) => Some (with_base q p', o)
               end
  end.

Fixpoint orun (fuel : nat) (q : oprog) (xs : list oaction) : option (list (oaction * outcome) * oprog) :=
  match xs with
  | [] => Some ([], q)
  | x :: xs' =>
      match ostep fuel q x with
      | None => None
      | Some (q', o) =>
          match orun fuel q' xs' with
          | None => None
          | Some (log, q'') => Some ((x, o) :: log, q'')
          end
      end
  end.

End OptProgram.
