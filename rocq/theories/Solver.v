(** Model of src/satisfy/utils.py (Timer) and src/satisfy/solver.py (Solver._setup, the
    variable selection policies, Solver.solve, Solver.get_stats).

    [solve] is a generator; it is modelled as a machine [micro] that runs the generator
    up to the next interesting point (one loop iteration, one resumption after a yield).
    All mutable state that generators share (the program's objects, the clock, the
    Timer objects, [solver._timer], [solver._interrupt]) is in [env].
    Simplifications: clock readings and timeouts are integers (ticks) instead of floats;
    the clock is an arbitrary sequence of readings. *)
From Verif Require Export Model.
Open Scope string_scope.
Open Scope Z_scope.

(** ** utils.py: Timer *)

(** utils.py:51-55. *)
Record timer : Type := Timer { t_elapsed : Z; t_start : option Z; t_count : Z }.
Definition new_timer : timer := Timer 0 None 0.

(** [running], utils.py:57-58. *)
Definition t_running (t : timer) : bool := match t_start t with Some _ => true | None => false end.

(** [start], utils.py:60-63; [now] is the value of [time.time()]. *)
Definition timer_start (now : Z) (t : timer) : res timer :=
  if t_running t then Err RuntimeError else Ok (Timer (t_elapsed t) (Some now) (t_count t)).

(** [stop(count)], utils.py:65-72: the new state and the returned interval. *)
Definition timer_stop (now count : Z) (t : timer) : res (timer * Z) :=
  match t_start t with
  | None => Err RuntimeError
  | Some s => Ok (Timer (t_elapsed t + (now - s)) None (t_count t + count), now - s)
  end.

(** [abort], utils.py:77-79. *)
Definition timer_abort (now : Z) (t : timer) : timer :=
  match timer_stop now 0 t with Ok (t', _) => t' | Err _ => t end.

(** [elapsed], utils.py:81-85. *)
Definition timer_elapsed (now : Z) (t : timer) : Z :=
  match t_start t with Some s => t_elapsed t + (now - s) | None => t_elapsed t end.

(** [stats], utils.py:87-90. *)
Definition timer_stats (t : timer) : Z * Z := (t_count t, t_elapsed t).

(** ** solver.py: options *)

(** VarSelectionPolicy, solver.py:29-37. *)
Inductive policy : Type :=
| ORDERED | REVERSED | RANDOM | GROUPS | MIN_BOUND | MAX_BOUND | MIN_CONSTRAINT | MAX_CONSTRAINT.

(** Values accepted for timeout and limit: None, a number, or INFINITY. *)
Inductive lim : Type := LNone | LNum (n : Z) | LInfinity.

(** Attributes of a Solver object. *)
Record solver : Type := Solver {
  s_policy : policy; s_timeout : lim; s_limit : lim; s_compile : bool }.

(** Setters of [timeout] and [limit], solver.py:71-75, 81-85. *)
Definition lim_setter (v : lim) : lim := match v with LInfinity => LNone | _ => v end.
(** [Solver(...)], solver.py:41-55. *)
Definition new_solver (p : policy) (timeout limit : lim) (compile : bool) : solver :=
  Solver p (lim_setter timeout) (lim_setter limit) compile.
Definition default_solver : solver := new_solver GROUPS LNone LNone true.

(** Keyword arguments of [solve], solver.py:154-159. *)
Record args : Type := Args {
  x_timeout : option lim; x_limit : option lim; x_policy : option policy;
  x_additional : list constraint }.
Definition no_args : args := Args None None None [].

Definition arg_or {A} (o : option A) (d : A) : A := match o with Some a => a | None => d end.

(** ** solver.py: _setup *)

Record setup : Type := Setup {
  u_doms : dict (list Z);            (* pure_variables *)
  u_cons : dict (list constraint);   (* var_constraints *)
  u_ad : dict (list name);           (* var_ad_constraints: sets, used for membership *)
  u_bounds : dict Z;                 (* var_bounds *)
  u_groups : list (list name);       (* groups *)
  u_vgroups : dict (list nat)        (* var_groups *)
}.

Fixpoint filterM {A} (f : A -> res bool) (l : list A) : res (list A) :=
  match l with
  | [] => Ok []
  | a :: l' => let! b := f a in let! r := filterM f l' in Ok (if b then a :: r else r)
  end.

(** The variables that are not parameters, with their domains, solver.py:97. *)
Fixpoint pure_variables (vs : dict vinfo) : dict (list Z) :=
  match vs with
  | [] => []
  | (x, VVar d) :: vs' => (x, d) :: pure_variables vs'
  | (x, VPar _) :: vs' => pure_variables vs'
  end.

(** [d[x].append(a)] on a defaultdict(list). *)
Definition dappend {A} (d : dict (list A)) (x : name) (a : A) : dict (list A) :=
  dset d x (dget_or d x [] ++ [a])%list.
(** [d[x].update(l)] on a defaultdict(set). *)
Definition dunion (d : dict (list name)) (x : name) (l : list name) : dict (list name) :=
  dset d x (dget_or d x [] ++ l)%list.

(** One iteration of the loop over the constraints, solver.py:104-132.  Returns also the
    world, since compilation stores the function in the constraint object. *)
Definition setup_step (compile : bool) (w : world) (u : setup) (c : constraint)
  : world * res setup :=
  let w := if compile then ccompile w c else w in
  let cv := c_vars c in
  let bounds := fold_left (fun b x => if dmem (u_doms u) x
                                      then dset b x (dget_or b x 0 + (Z.of_nat (length cv) - 1))
                                      else b) cv (u_bounds u) in
  match c_body c with
  | CAllDiff _ =>
      let gid := length (u_groups u) in
      (w, Ok (Setup (u_doms u) (u_cons u)
                (if Nat.ltb 1 (length cv)
                 then fold_left (fun d x => dunion d x (filter (fun y => negb (String.eqb y x)) cv)) cv (u_ad u)
                 else u_ad u)
                bounds (u_groups u ++ [cv])
                (fold_left (fun d x => dappend d x gid) cv (u_vgroups u))))
  | _ =>
      match cv with
      | [x] =>
          match dget (u_doms u) x with
          | Some dom =>
              match filterM (fun v => ceval w c [(x, v)]) dom with
              | Err e => (w, Err e)
              | Ok dom' => (w, Ok (Setup (dset (u_doms u) x dom') (u_cons u) (u_ad u) bounds
                                         (u_groups u) (u_vgroups u)))
              end
          | None => (w, Ok (Setup (u_doms u) (u_cons u) (u_ad u) bounds (u_groups u) (u_vgroups u)))
          end
      | _ =>
          (w, Ok (Setup (u_doms u) (fold_left (fun d x => dappend d x c) cv (u_cons u)) (u_ad u)
                        bounds (u_groups u) (u_vgroups u)))
      end
  end.

Fixpoint setup_loop (compile : bool) (w : world) (u : setup) (cs : list constraint)
  : world * res setup :=
  match cs with
  | [] => (w, Ok u)
  | c :: cs' =>
      match setup_step compile w u c with
      | (w', Ok u') => setup_loop compile w' u' cs'
      | (w', Err e) => (w', Err e)
      end
  end.

(** group_bounds / group_sizes, solver.py:133-137.  The values are never used; computing
    them raises KeyError for a name that is not a variable and ValueError for [max()] of
    an empty group. *)
Fixpoint check_groups (bounds : dict Z) (gs : list (list name)) : res unit :=
  match gs with
  | [] => Ok tt
  | g :: gs' =>
      if forallb (fun x => dmem bounds x) g then
        match g with [] => Err ValueError | _ => check_groups bounds gs' end
      else Err KeyError
  end.

(** [_setup], solver.py:95-148. *)
Definition do_setup (compile : bool) (w : world) (additional : list constraint)
  : world * res setup :=
  let pure := pure_variables (m_vars (w_model w)) in
  let u0 := Setup pure [] [] (map (fun p => (fst p, 0)) pure) [] [] in
  match setup_loop compile w u0 (m_cons (w_model w) ++ additional) with
  | (w', Err e) => (w', Err e)
  | (w', Ok u) =>
      match check_groups (u_bounds u) (u_groups u) with
      | Err e => (w', Err e)
      | Ok _ => (w', Ok u)
      end
  end.

(** ** Variable selection, solver.py:171-207 *)

(** Comparison of tuples of ints. *)
Fixpoint lex_leb (a b : list Z) : bool :=
  match a, b with
  | [], _ => true
  | _ :: _, [] => false
  | x :: a', y :: b' => (x <? y) || ((x =? y) && lex_leb a' b')
  end.

(** Python's [sorted(l, key=key)] is stable. *)
Fixpoint insert_by (key : name -> list Z) (x : name) (l : list name) : list name :=
  match l with
  | [] => [x]
  | y :: l' => if lex_leb (key x) (key y) then x :: l else y :: insert_by key x l'
  end.
Fixpoint sorted_by (key : name -> list Z) (l : list name) : list name :=
  match l with [] => [] | x :: l' => insert_by key x (sorted_by key l') end.
(** [sorted(l, key=key, reverse=True)] keeps the original order of equal elements. *)
Definition sorted_rev (key : name -> list Z) (l : list name) : list name :=
  rev (sorted_by key (rev l)).

(** [min(groups)] or -1, solver.py:184-188. *)
Definition group_prio (u : setup) (x : name) : Z :=
  match dget_or (u_vgroups u) x [] with
  | [] => -1
  | g :: gs => Z.of_nat (fold_left Nat.min gs g)
  end.

(** [len(model.get_var_domain(x))], the domain as declared. *)
Definition dom_size (m : model) (x : name) : Z :=
  match dget (m_vars m) x with Some (VVar d) => Z.of_nat (length d) | _ => 0 end.

Definition n_cons (u : setup) (x : name) : Z := Z.of_nat (length (dget_or (u_cons u) x [])).

(** [shuffle]: what [random.shuffle] does to the names.  var_sizes (solver.py:100) are the
    sizes of the declared domains. *)
Definition select_order (shuffle : list name -> list name) (p : policy) (m : model) (u : setup)
  : list name :=
  let names := dkeys (u_doms u) in
  match p with
  | ORDERED => names
  | REVERSED => rev names
  | RANDOM => shuffle names
  | GROUPS =>
      rev (sorted_rev (fun x => [group_prio u x; dget_or (u_bounds u) x 0; dom_size m x]) names)
  | MIN_BOUND => sorted_by (fun x => [dom_size m x]) names
  | MAX_BOUND => sorted_rev (fun x => [dom_size m x]) names
  | MIN_CONSTRAINT => sorted_by (fun x => [n_cons u x]) names
  | MAX_CONSTRAINT => sorted_rev (fun x => [n_cons u x]) names
  end.

(** ** The search loop *)

(** What the generator keeps in local variables. *)
Record ginfo : Type := GInfo {
  i_doms : dict (list Z);
  i_cons : dict (list constraint);
  i_ad : dict (list name)
}.

(** [stack] (top first) and [domains]. *)
Record cfg : Type := Cfg {
  g_stack : list (list name * subst);
  g_doms : dict (list Z)
}.

(** Inner loop over the constraints of the variable, solver.py:251-258. *)
Fixpoint no_unsatisfied (w : world) (cs : list constraint) (s : subst) : res bool :=
  match cs with
  | [] => Ok true
  | c :: cs' => let! u := unsatisfied w c s in if u then Ok false else no_unsatisfied w cs' s
  end.

(** Is the value acceptable?  solver.py:243-258. *)
Definition accept (w : world) (i : ginfo) (x : name) (s : subst) (v : Z) : res bool :=
  let s' := dset s x v in
  if existsb (fun y => match dget s' y with Some u => u =? v | None => false end)
             (dget_or (i_ad i) x [])
  then Ok false
  else no_unsatisfied w (dget_or (i_cons i) x []) s'.

(** The filtered domain of a variable, solver.py:240-258. *)
Definition filter_domain (w : world) (i : ginfo) (x : name) (s : subst) : res (list Z) :=
  match dget (i_doms i) x with
  | None => Err KeyError
  | Some dom => filterM (accept w i x s) dom
  end.

Inductive cres : Type :=
| CNext (c : cfg)                  (* back to the head of the loop *)
| CYield (s : subst) (c : cfg)     (* a solution *)
| CErr (e : exn).

(** [value = domain.pop(0)] and the rest of the iteration, solver.py:268-283. *)
Definition take_value (x : name) (rest : list name) (s : subst) (d : list Z)
           (stack : list (list name * subst)) (doms : dict (list Z)) : cres :=
  match d with
  | [] => CErr IndexError
  | v :: d' =>
      let s' := dset s x v in
      let doms' := dset doms x d' in
      match rest with
      | [] => CYield s' (Cfg stack doms')
      | _ => CNext (Cfg ((rest, s') :: stack) doms')
      end
  end.

(** One iteration of [while stack] after the timeout check, solver.py:234-283. *)
Definition core_step (w : world) (i : ginfo) (c : cfg) : cres :=
  match g_stack c with
  | [] => CErr IndexError
  | ([], _) :: _ => CErr IndexError
  | (x :: rest, s) :: stack =>
      match dget (g_doms c) x with
      | None =>
          match filter_domain w i x s with
          | Err e => CErr e
          | Ok [] => CNext (Cfg stack (g_doms c))
          | Ok d => take_value x rest s d (g_stack c) (dset (g_doms c) x d)
          end
      | Some [] => CNext (Cfg stack (ddel (g_doms c) x))
      | Some d => take_value x rest s d (g_stack c) (g_doms c)
      end
  end.

(** ** The generator *)

Inductive interrupt : Type := ILimit | ITimeout.

(** Shared mutable state.  [e_timers]: the Timer objects; [e_timer]: [solver._timer];
    [e_interrupt]: [solver._interrupt]; [e_clk]: number of clock readings so far. *)
Record env : Type := Env {
  e_world : world;
  e_clk : nat;
  e_timers : nat -> timer;
  e_ntimers : nat;
  e_timer : nat;
  e_interrupt : option interrupt
}.

(** A program that has just created its Solver ([_reset] in the constructor). *)
Definition new_env (w : world) : env := Env w 0 (fun _ => new_timer) 1 0 None.

Definition set_world (e : env) (w : world) : env :=
  Env w (e_clk e) (e_timers e) (e_ntimers e) (e_timer e) (e_interrupt e).
Definition set_timer (e : env) (r : nat) (t : timer) : env :=
  Env (e_world e) (e_clk e) (upd (e_timers e) r t) (e_ntimers e) (e_timer e) (e_interrupt e).
Definition set_interrupt (e : env) (x : interrupt) : env :=
  Env (e_world e) (e_clk e) (e_timers e) (e_ntimers e) (e_timer e) (Some x).
Definition tick (e : env) : env :=
  Env (e_world e) (S (e_clk e)) (e_timers e) (e_ntimers e) (e_timer e) (e_interrupt e).

(** [_reset], solver.py:150-152. *)
Definition reset (e : env) : env :=
  Env (e_world e) (e_clk e) (upd (e_timers e) (e_ntimers e) new_timer)
      (S (e_ntimers e)) (e_ntimers e) None.

(** Local state of one run of [solve].  [l_timer]: the local variable [timer]. *)
Record local : Type := Local {
  l_info : ginfo; l_timer : nat; l_timeout : lim; l_limit : lim }.

Inductive gen : Type :=
| GInit (sv : solver) (a : args)             (* not started *)
| GLoop (l : local) (c : cfg) (n : Z)        (* at the head of the loop; n = num_solutions *)
| GYield (l : local) (c : cfg) (n : Z)       (* suspended at the yield *)
| GDone.

Inductive event : Type :=
| EvNone
| EvYield (s : subst)
| EvStop                    (* StopIteration *)
| EvRaise (e : exn).

Section Generator.
Variable clk : nat -> Z.                       (* successive results of time.time() *)
Variable shuffle : list name -> list name.     (* random.shuffle *)

Definition do_start (e : env) (r : nat) : env * res unit :=
  match timer_start (clk (e_clk e)) (e_timers e r) with
  | Ok t => (tick (set_timer e r t), Ok tt)
  | Err ex => (e, Err ex)
  end.
Definition do_stop (e : env) (r : nat) : env * res unit :=
  match timer_stop (clk (e_clk e)) 1 (e_timers e r) with
  | Ok (t, _) => (tick (set_timer e r t), Ok tt)
  | Err ex => (e, Err ex)
  end.
Definition do_abort (e : env) (r : nat) : env :=
  let t := e_timers e r in
  if t_running t then tick (set_timer e r (timer_abort (clk (e_clk e)) t)) else e.

(** From the first [next()] to the head of the loop, solver.py:155-226. *)
Definition begin (e : env) (sv : solver) (a : args) : env * gen * event :=
  let e := reset e in
  let m := w_model (e_world e) in
  if negb (m_solvable m) then (e, GDone, EvStop)
  else
    match do_setup (s_compile sv) (e_world e) (x_additional a) with
    | (w, Err ex) => (set_world e w, GDone, EvRaise ex)
    | (w, Ok u) =>
        let e := set_world e w in
        match select_order shuffle (arg_or (x_policy a) (s_policy sv)) m u with
        | [] => (e, GDone, EvStop)
        | names =>
            match do_start e (e_timer e) with
            | (e', Err ex) => (e', GDone, EvRaise ex)
            | (e', Ok _) =>
                (e', GLoop (Local (GInfo (u_doms u) (u_cons u) (u_ad u)) (e_timer e)
                                  (arg_or (x_timeout a) (s_timeout sv))
                                  (arg_or (x_limit a) (s_limit sv)))
                           (Cfg [(names, [])] []) 0, EvNone)
            end
        end
    end.

(** The timeout check at the head of the loop, solver.py:228-232: [Some ev] if the
    generator ends here. *)
Definition check_timeout (e : env) (l : local) : env * option event :=
  match l_timeout l with
  | LNone => (e, None)
  | LNum t =>
      let el := timer_elapsed (clk (e_clk e)) (e_timers e (l_timer l)) in
      let e := tick e in
      if t <? el then (set_interrupt e ITimeout, Some EvStop) else (e, None)
  | LInfinity => (tick e, Some (EvRaise TypeError))      (* float > Infinity() *)
  end.

Definition micro (e : env) (g : gen) : env * gen * event :=
  match g with
  | GInit sv a => begin e sv a
  | GLoop l c n =>
      match g_stack c with
      | [] => (e, GDone, EvStop)
      | _ =>
          match check_timeout e l with
          | (e', Some ev) => (e', GDone, ev)
          | (e', None) =>
              match core_step (e_world e') (l_info l) c with
              | CErr ex => (e', GDone, EvRaise ex)
              | CNext c' => (e', GLoop l c' n, EvNone)
              | CYield s c' =>
                  match do_stop e' (l_timer l) with
                  | (e'', Err ex) => (e'', GDone, EvRaise ex)
                  | (e'', Ok _) => (e'', GYield l c' (n + 1), EvYield s)
                  end
              end
          end
      end
  | GYield l c n =>
      let resume (e : env) :=
        match do_start e (l_timer l) with
        | (e', Err ex) => (e', GDone, EvRaise ex)
        | (e', Ok _) => (e', GLoop l c n, EvNone)
        end in
      match l_limit l with
      | LNone => resume e
      | LNum m => if m <=? n then (set_interrupt (do_abort e (l_timer l)) ILimit, GDone, EvStop)
                  else resume e
      | LInfinity => (e, GDone, EvRaise TypeError)       (* int >= Infinity() *)
      end
  | GDone => (e, GDone, EvStop)
  end.

(** [next(generator)]: run up to a yield or the end. *)
Fixpoint next (fuel : nat) (e : env) (g : gen) : option (env * gen * event) :=
  match fuel with
  | O => None
  | S f =>
      match micro e g with
      | (e', g', EvNone) => next f e' g'
      | r => Some r
      end
  end.

(** A [for] loop over the generator whose body is [consumer]: it may change the objects of
    the program, or raise.  Result: the solutions received, the final state and how the
    loop ended ([None]: normally). *)
Fixpoint drain (fuel : nat) (consumer : nat -> world -> subst -> res world) (k : nat)
         (e : env) (g : gen) : option (list subst * env * option exn) :=
  match fuel with
  | O => None
  | S f =>
      match micro e g with
      | (e', g', EvNone) => drain f consumer k e' g'
      | (e', g', EvYield s) =>
          match consumer k (e_world e') s with
          | Err ex => Some ([s], e', Some ex)
          | Ok w => match drain f consumer (S k) (set_world e' w) g' with
                    | Some (ys, e'', r) => Some (s :: ys, e'', r)
                    | None => None
                    end
          end
      | (e', g', EvStop) => Some ([], e', None)
      | (e', g', EvRaise ex) => Some ([], e', Some ex)
      end
  end.

End Generator.

(** A consumer that only collects the solutions. *)
Definition passive : nat -> world -> subst -> res world := fun _ w _ => Ok w.

(** [list(solver.solve(model, ...))]. *)
Definition solve_all (clk : nat -> Z) (shuffle : list name -> list name) (fuel : nat)
           (e : env) (sv : solver) (a : args) : option (list subst * env * option exn) :=
  drain clk shuffle fuel passive 0 e (GInit sv a).

(** [get_stats], solver.py:435-440: count, elapsed, interrupt. *)
Definition get_stats (e : env) : Z * Z * option interrupt :=
  (t_count (e_timers e (e_timer e)), t_elapsed (e_timers e (e_timer e)), e_interrupt e).
