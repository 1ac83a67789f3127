(** Specification vocabulary for programs with optimizations. *)
From Verif Require Import Solver Program OptProgram SpecSolve SpecIsolation SpecInterleave SpecProgram.
Open Scope list_scope.
Open Scope Z_scope.

(** The results of the calls of [next()] on generator [h]. *)
Definition oresults_of (h : nat) (log : list (oaction * outcome)) : list event :=
  flat_map (fun l => match l with
                     | (Plain (Next k), OEvent ev) => if Nat.eqb k h then [ev] else []
                     | _ => []
                     end) log.

(** The number of statements [next()] on generator [h]. *)
Definition onext_calls (h : nat) (xs : list oaction) : nat :=
  List.length (filter (fun x => match x with Plain (Next k) => Nat.eqb k h | _ => false end) xs).

(** [r] is a parameter that the running optimization [h] made for itself. *)
Definition hidden_by (q : oprog) (h : nat) (r : nat) : Prop :=
  exists s i g oms o m, q_handles q h = HOptimize s i (ORun g oms) /\ In (o, m) oms /\ (r = mm_not_set m \/ r = mm_bound m).
Definition hidden (q : oprog) (r : nat) : Prop := exists h, hidden_by q h r.

(** The parameters of the expression exist, and are the program's own. *)
Definition visible (q : oprog) (e : expr) : Prop :=
  forall r, uses r e -> (r < p_npar (q_base q))%nat /\ ~ hidden q r.
Definition visible_body (q : oprog) (b : cbody) : Prop := forall e, b = CExpr e -> visible q e.

(** The constraint objects and parameters that a statement mentions exist and are the
    program's own.  [B]: the bodies of all constraint objects, also of those made by
    [optimize] for some first objectives. *)
Definition oproper (B : nat -> cbody) (q : oprog) (x : oaction) : Prop :=
  match x with
  | Plain (Next h) =>
      forall s i os a os1 os2 w oms o m, q_handles q h = HOptimize s i (ONew os a) -> os = os1 ++ os2 ->
        make_constraints os1 (world_of (q_base q) i) = (w, Ok oms) -> In (o, m) oms -> B (c_id (mm_cons m)) = c_body (mm_cons m)
  | Optimize s i os a =>
      (forall c, In c (x_additional a) -> known B (q_base q) c /\ visible_body q (c_body c)) /\
      forall o, In (OObj o) os -> visible q (o_expr o)
  | Plain x => proper B (q_base q) x /\
      match x with
      | Call _ (AddConstraint (AExpr e)) => visible q e
      | Call _ (AddConstraint (ACons c)) => visible_body q (c_body c)
      | Call _ (NewConstraint b) => visible_body q b
      | Solve _ _ a => forall c, In c (x_additional a) -> visible_body q (c_body c)
      | _ => True
      end
  end.

Fixpoint oproper_run (clk : nat -> Z) (shuffle : nat -> list name -> list name) (f : nat) (B : nat -> cbody)
         (q : oprog) (xs : list oaction) : Prop :=
  match xs with
  | [] => True
  | x :: xs' =>
      oproper B q x /\
      match ostep clk shuffle f q x with
      | Some (q', _) => oproper_run clk shuffle f B q' xs'
      | None => True
      end
  end.

(** The statement assigns no parameter. *)
Definition assigns_none (x : oaction) : Prop :=
  match x with Plain y => assigns_nothing y | _ => True end.

(** No constraint is compiled, and no solver is told to. *)
Definition ointerprets (x : oaction) : Prop :=
  match x with Plain y => interprets y | _ => True end.

(** The statement is not a call on model [j]. *)
Definition leaves (j : nat) (x : oaction) : Prop :=
  match x with Plain y => leaves_model j y | _ => True end.

(** Generator [h] was made by [solve] or [optimize] of solver [s] with arguments [a], and has not
    been started. *)
Definition fresh (q : oprog) (h s : nat) (a : args) : Prop :=
  (exists g i, q_handles q h = HSolve g /\ p_gens (q_base q) g = GenObj s i (PNew a)) \/
  exists i os, q_handles q h = HOptimize s i (ONew os a).

(** The enumeration or optimization [h], not yet started, run to its end by itself.  (The inner
    enumeration of an optimization will be the generator number [p_ngens p].) *)
Definition by_itself (clk : nat -> Z) (shuffle : nat -> list name -> list name) (F : nat) (q : oprog) (h : nat)
  : option (list subst * env * option exn) :=
  let p := q_base q in
  match q_handles q h with
  | HSolve g =>
      match p_gens p g with
      | GenObj s i (PNew a) => solve_all clk (shuffle g) F (env_of p s i) (so_opts (p_solvers p s)) a
      | _ => None
      end
  | HOptimize s i (ONew os a) => optimize_all clk (shuffle (p_ngens p)) F (env_of p s i) (so_opts (p_solvers p s)) os a
  | _ => None
  end.

Definition objectives_of (q : oprog) (h : nat) : list oarg :=
  match q_handles q h with HOptimize _ _ (ONew os _) => os | _ => [] end.

(** Every objective has a value at [s]. *)
Definition valued (par : nat -> Z) (os : list oarg) (s : subst) : bool :=
  forallb (fun x => match x with
                    | OObj o => match evaluate par s (o_expr o) with Ok _ => true | Err _ => false end
                    | OOther => true
                    end) os.
