(** Programs that use several Model and Solver objects and several running enumerations.

    Model.v and Solver.v describe one Model and one Solver; here a program has any number
    of each, made and used in any order.  Parameters and constraint objects are not owned
    by a model (constraint.py:16-17, expression.py:768-779): they are shared by all.  Each
    Solver object has its own options, [_timer] and [_interrupt] (solver.py:41-55,
    150-152).  [solve] is a generator function: the call only makes the generator object,
    and the options of the solver and the model are read at the first [next()]
    (solver.py:154-165).
    Simplification: a generator that is dropped is simply not called any more. *)
From Verif Require Export Solver.
Open Scope string_scope.
Open Scope Z_scope.

(** A Solver object, solver.py:41-55. *)
Record solver_obj : Type := SolverObj {
  so_opts : solver;
  so_timer : nat;                      (* _timer *)
  so_interrupt : option interrupt      (* _interrupt *)
}.

(** A generator object made by [solve]: not started, or as in Solver.v. *)
Inductive pgen : Type :=
| PNew (a : args)
| PRun (g : gen).

(** [go_solver], [go_model]: [self] and [model] of the call, solver.py:154. *)
Record gen_obj : Type := GenObj { go_solver : nat; go_model : nat; go_state : pgen }.

(** The objects of a program.  Objects are numbered in the order of creation; [p_n...]
    are the numbers of objects made so far. *)
Record prog : Type := Prog {
  p_par : nat -> Z;
  p_code : nat -> option code;
  p_npar : nat;
  p_ncon : nat;
  p_models : nat -> model;
  p_nmodels : nat;
  p_clk : nat;
  p_timers : nat -> timer;
  p_ntimers : nat;
  p_solvers : nat -> solver_obj;
  p_nsolvers : nat;
  p_gens : nat -> gen_obj;
  p_ngens : nat
}.

(** Before the first statement. *)
Definition init_prog : prog :=
  Prog (fun _ => 0) (fun _ => None) 0 0 (fun _ => empty_model) 0 0 (fun _ => new_timer) 0
       (fun _ => SolverObj default_solver 0 None) 0 (fun _ => GenObj 0 0 (PRun GDone)) 0.

(** What the methods of model [i] see and change. *)
Definition world_of (p : prog) (i : nat) : world :=
  World (p_par p) (p_code p) (p_npar p) (p_ncon p) (p_models p i).
Definition put_world (p : prog) (i : nat) (w : world) : prog :=
  Prog (w_par w) (w_code w) (w_npar w) (w_ncon w) (upd (p_models p) i (w_model w)) (p_nmodels p)
       (p_clk p) (p_timers p) (p_ntimers p) (p_solvers p) (p_nsolvers p) (p_gens p) (p_ngens p).

(** What an enumeration of model [i] by solver [s] sees and changes. *)
Definition env_of (p : prog) (s i : nat) : env :=
  Env (world_of p i) (p_clk p) (p_timers p) (p_ntimers p)
      (so_timer (p_solvers p s)) (so_interrupt (p_solvers p s)).
Definition put_env (p : prog) (s i : nat) (e : env) : prog :=
  let p := put_world p i (e_world e) in
  Prog (p_par p) (p_code p) (p_npar p) (p_ncon p) (p_models p) (p_nmodels p)
       (e_clk e) (e_timers e) (e_ntimers e)
       (upd (p_solvers p) s (SolverObj (so_opts (p_solvers p s)) (e_timer e) (e_interrupt e)))
       (p_nsolvers p) (p_gens p) (p_ngens p).

Definition set_opts (p : prog) (s : nat) (o : solver) : prog :=
  let v := p_solvers p s in
  Prog (p_par p) (p_code p) (p_npar p) (p_ncon p) (p_models p) (p_nmodels p)
       (p_clk p) (p_timers p) (p_ntimers p)
       (upd (p_solvers p) s (SolverObj o (so_timer v) (so_interrupt v)))
       (p_nsolvers p) (p_gens p) (p_ngens p).

Definition set_gen (p : prog) (g : nat) (x : pgen) : prog :=
  let o := p_gens p g in
  Prog (p_par p) (p_code p) (p_npar p) (p_ncon p) (p_models p) (p_nmodels p)
       (p_clk p) (p_timers p) (p_ntimers p) (p_solvers p) (p_nsolvers p)
       (upd (p_gens p) g (GenObj (go_solver o) (go_model o) x)) (p_ngens p).

(** Statements of a program. *)
Inductive action : Type :=
| NewModel                                      (* Model(), model.py:32-36 *)
| Call (i : nat) (a : api)                      (* a call on model [i] *)
| NewSolver (pl : policy) (timeout limit : lim) (compile : bool)   (* solver.py:41-55 *)
| SetTimeout (s : nat) (v : lim)                (* solver.py:71-75 *)
| SetLimit (s : nat) (v : lim)                  (* solver.py:81-85 *)
| SetPolicy (s : nat) (v : policy)              (* solver.py:61-65 *)
| SetCompile (s : nat) (v : bool)               (* solver.py:91-93 *)
| Solve (s i : nat) (a : args)                  (* solver.solve(model, ...), solver.py:154 *)
| Next (g : nat)                                (* next(generator) *)
| Close (g : nat)                               (* generator.close() *)
| GetStats (s : nat).                           (* solver.py:435-440 *)

Inductive outcome : Type :=
| ODone (r : res unit)
| OEvent (ev : event)
| OStats (st : Z * Z * option interrupt).

Section Program.
Variable clk : nat -> Z.
(** [random.shuffle] during the first [next] of each generator. *)
Variable shuffle : nat -> list name -> list name.

(** One statement.  [None]: the fuel is too small for [next].  A statement about an object
    that does not exist is about an unbound name: NameError. *)
Definition step (fuel : nat) (p : prog) (x : action) : option (prog * outcome) :=
  let unbound := Some (p, ODone (Err NameError)) in
  match x with
  | NewModel =>
      Some (Prog (p_par p) (p_code p) (p_npar p) (p_ncon p)
                 (upd (p_models p) (p_nmodels p) empty_model) (S (p_nmodels p))
                 (p_clk p) (p_timers p) (p_ntimers p) (p_solvers p) (p_nsolvers p) (p_gens p) (p_ngens p),
            ODone (Ok tt))
  | Call i a =>
      if Nat.ltb i (p_nmodels p) then
        let '(w, r) := run_api a (world_of p i) in Some (put_world p i w, ODone r)
      else unbound
  | NewSolver pl t l c =>
      Some (Prog (p_par p) (p_code p) (p_npar p) (p_ncon p) (p_models p) (p_nmodels p)
                 (p_clk p) (upd (p_timers p) (p_ntimers p) new_timer) (S (p_ntimers p))
                 (upd (p_solvers p) (p_nsolvers p) (SolverObj (new_solver pl t l c) (p_ntimers p) None))
                 (S (p_nsolvers p)) (p_gens p) (p_ngens p),
            ODone (Ok tt))
  | SetTimeout s v =>
      if Nat.ltb s (p_nsolvers p) then
        let o := so_opts (p_solvers p s) in
        Some (set_opts p s (Solver (s_policy o) (lim_setter v) (s_limit o) (s_compile o)), ODone (Ok tt))
      else unbound
  | SetLimit s v =>
      if Nat.ltb s (p_nsolvers p) then
        let o := so_opts (p_solvers p s) in
        Some (set_opts p s (Solver (s_policy o) (s_timeout o) (lim_setter v) (s_compile o)), ODone (Ok tt))
      else unbound
  | SetPolicy s v =>
      if Nat.ltb s (p_nsolvers p) then
        let o := so_opts (p_solvers p s) in
        Some (set_opts p s (Solver v (s_timeout o) (s_limit o) (s_compile o)), ODone (Ok tt))
      else unbound
  | SetCompile s v =>
      if Nat.ltb s (p_nsolvers p) then
        let o := so_opts (p_solvers p s) in
        Some (set_opts p s (Solver (s_policy o) (s_timeout o) (s_limit o) v), ODone (Ok tt))
      else unbound
  | Solve s i a =>
      if Nat.ltb s (p_nsolvers p) && Nat.ltb i (p_nmodels p) then
        Some (Prog (p_par p) (p_code p) (p_npar p) (p_ncon p) (p_models p) (p_nmodels p)
                   (p_clk p) (p_timers p) (p_ntimers p) (p_solvers p) (p_nsolvers p)
                   (upd (p_gens p) (p_ngens p) (GenObj s i (PNew a))) (S (p_ngens p)),
              ODone (Ok tt))
      else unbound
  | Next g =>
      if Nat.ltb g (p_ngens p) then
        let o := p_gens p g in
        let s := go_solver o in
        let i := go_model o in
        let start := match go_state o with
                     | PNew a => GInit (so_opts (p_solvers p s)) a
                     | PRun g => g
                     end in
        match next clk (shuffle g) fuel (env_of p s i) start with
        | None => None
        | Some (e, g', ev) => Some (set_gen (put_env p s i e) g (PRun g'), OEvent ev)
        end
      else unbound
  | Close g =>
      if Nat.ltb g (p_ngens p) then Some (set_gen p g (PRun GDone), ODone (Ok tt)) else unbound
  | GetStats s =>
      if Nat.ltb s (p_nsolvers p) then Some (p, OStats (get_stats (env_of p s 0))) else unbound
  end.

(** A program, run to its end; the outcome of every statement is recorded.  Exceptions are
    caught by the program. *)
Fixpoint run (fuel : nat) (p : prog) (xs : list action) : option (list (action * outcome) * prog) :=
  match xs with
  | [] => Some ([], p)
  | x :: xs' =>
      match step fuel p x with
      | None => None
      | Some (p', o) =>
          match run fuel p' xs' with
          | None => None
          | Some (log, p'') => Some ((x, o) :: log, p'')
          end
      end
  end.

End Program.
