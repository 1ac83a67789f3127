(** Specification vocabulary for programs with several models, solvers and enumerations. *)
From Verif Require Import Solver Program SpecSolve SpecIsolation SpecInterleave.
Open Scope list_scope.
Open Scope Z_scope.

(** The results of the calls of [next()] on generator [g]. *)
Definition results_of (g : nat) (log : list (action * outcome)) : list event :=
  flat_map (fun l => match l with
                     | (Next k, OEvent ev) => if Nat.eqb k g then [ev] else []
                     | _ => []
                     end) log.

(** The number of statements [next()] on generator [g]. *)
Definition next_calls (g : nat) (xs : list action) : nat :=
  List.length (filter (fun x => match x with Next k => Nat.eqb k g | _ => false end) xs).

(** Number of solutions among some results. *)
Definition solutions_in (evs : list event) : Z :=
  len (filter (fun ev => match ev with EvYield _ => true | _ => false end) evs).

(** The parameter objects of a constraint exist. *)
Definition body_known (p : prog) (b : cbody) : Prop :=
  forall e q, b = CExpr e -> uses q e -> (q < p_npar p)%nat.

(** [c] is an existing constraint object.  [B] gives the body of each constraint object, in
    order of creation. *)
Definition known (B : nat -> cbody) (p : prog) (c : constraint) : Prop :=
  (c_id c < p_ncon p)%nat /\ B (c_id c) = c_body c.

(** The constraint objects and parameters that a statement mentions exist. *)
Definition proper (B : nat -> cbody) (p : prog) (x : action) : Prop :=
  match x with
  | Call _ (AddConstraint (ABool b)) => B (p_ncon p) = CConst b
  | Call _ (AddConstraint (AExpr e)) => B (p_ncon p) = CExpr e /\ body_known p (CExpr e)
  | Call _ (AddConstraint (ACons c)) => known B p c
  | Call _ (CompileConstraint c) => known B p c
  | Call _ (AddAllDiff xs) => B (p_ncon p) = CAllDiff xs
  | Call _ (NewConstraint b) => B (p_ncon p) = b /\ body_known p b
  | Solve _ _ a => forall c, In c (x_additional a) -> known B p c
  | _ => True
  end.

Fixpoint proper_run (clk : nat -> Z) (shuffle : nat -> list name -> list name) (f : nat) (B : nat -> cbody)
         (p : prog) (xs : list action) : Prop :=
  match xs with
  | [] => True
  | x :: xs' =>
      proper B p x /\
      match step clk shuffle f p x with
      | Some (p', _) => proper_run clk shuffle f B p' xs'
      | None => True
      end
  end.

(** No parameter is assigned. *)
Definition assigns_nothing (x : action) : Prop :=
  match x with Call _ (SetParam _ _) => False | _ => True end.

(** No constraint is compiled, and no solver is told to. *)
Definition interprets (x : action) : Prop :=
  match x with
  | Call _ (CompileConstraint _) | NewSolver _ _ _ true | SetCompile _ true => False
  | _ => True
  end.

(** The statement is not a call on model [i]. *)
Definition leaves_model (i : nat) (x : action) : Prop :=
  match x with Call j _ => j <> i | _ => True end.

(** Generator [g] has been called, or closed. *)
Definition started_before (g : nat) (log : list (action * outcome)) : Prop :=
  (exists ev, In (Next g, OEvent ev) log) \/ In (Close g, ODone (Ok tt)) log.
(** In the log [pre ++ (Next g, OEvent ev) :: suf], the marked call starts generator [g] of
    solver [s], and no other generator of that solver is started afterwards.  [owner]: the
    solver of each generator. *)
Definition latest_start (owner : nat -> nat) (s : nat) (pre : list (action * outcome)) (g : nat)
           (suf : list (action * outcome)) : Prop :=
  owner g = s /\ ~ started_before g pre /\
  forall l1 k ev l2, suf = l1 ++ (Next k, OEvent ev) :: l2 -> owner k = s ->
    k = g \/ started_before k (pre ++ l1).

(** [INFINITY] stands for no bound. *)
Definition bound (v : lim) : lim := match v with LInfinity => LNone | _ => v end.

(** The options [o] of solver [s] after statement [x]. *)
Definition setting (s : nat) (o : solver) (x : action) : solver :=
  match x with
  | SetPolicy k v => if Nat.eqb k s then Solver v (s_timeout o) (s_limit o) (s_compile o) else o
  | SetTimeout k v => if Nat.eqb k s then Solver (s_policy o) (bound v) (s_limit o) (s_compile o) else o
  | SetLimit k v => if Nat.eqb k s then Solver (s_policy o) (s_timeout o) (bound v) (s_compile o) else o
  | SetCompile k v => if Nat.eqb k s then Solver (s_policy o) (s_timeout o) (s_limit o) v else o
  | _ => o
  end.
