(** Specification: several enumerations of one solver advanced in any order. *)
From Verif Require Import Solver SpecSolve.
Open Scope list_scope.

(** A program that calls [next()] on generator number [j] for each [j] of the schedule;
    the result of each call is recorded. *)
Fixpoint play (clk : nat -> Z) (shuffle : nat -> list name -> list name) (f : nat) (sched : list nat)
         (e : env) (gs : nat -> gen) : option (list (nat * event) * env) :=
  match sched with
  | [] => Some ([], e)
  | j :: sched' =>
      match next clk (shuffle j) f e (gs j) with
      | None => None
      | Some (e', g', ev) =>
          match play clk shuffle f sched' e' (upd gs j g') with
          | None => None
          | Some (evs, e'') => Some ((j, ev) :: evs, e'')
          end
      end
  end.

(** The results of the calls on generator [j]. *)
Definition results (j : nat) (evs : list (nat * event)) : list event :=
  map snd (filter (fun p => Nat.eqb (fst p) j) evs).

(** Number of calls on generator [j]. *)
Definition calls (j : nat) (sched : list nat) : nat := count_occ Nat.eq_dec sched j.

(** Results of [n] calls of [next()] on a generator that yields [ys] and then ends with
    [r], according to the iterator protocol. *)
Fixpoint answers (n : nat) (ys : list subst) (r : option exn) : list event :=
  match n, ys with
  | O, _ => []
  | S n', s :: ys' => EvYield s :: answers n' ys' r
  | S n', [] => match r with Some ex => EvRaise ex | None => EvStop end :: repeat EvStop n'
  end.

(** Number of solutions received from generator [j]. *)
Definition received (j : nat) (evs : list (nat * event)) : Z :=
  Z.of_nat (length (filter (fun ev => match ev with EvYield _ => true | _ => false end) (results j evs))).

(** In the log [pre ++ (j, ev) :: suf], the marked call is the first one on [j] and no
    generator is called for the first time after it. *)
Definition last_start (pre : list (nat * event)) (j : nat) (suf : list (nat * event)) : Prop :=
  ~ In j (map fst pre) /\ forall i, In i (map fst suf) -> i = j \/ In i (map fst pre).

(** The next call on generator [i] meets its limit: it has been suspended since its last
    solution, and has yielded as many solutions as allowed. *)
Definition at_limit (lim_of : nat -> lim) (i : nat) (log : list (nat * event)) : Prop :=
  (exists evs s, results i log = evs ++ [EvYield s]) /\
  exists m, lim_of i = LNum m /\ (m <= received i log)%Z.
