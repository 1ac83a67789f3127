(** Model of [Solver._solve_forbidden], src/satisfy/solver.py:285-400: a variant of [solve] that
    keeps, for each variable, the values taken by the variables it must differ from.  It is private and
    nothing in the repository calls it.  Sets of names are lists (the order does not matter). *)
From Verif Require Export Solver.
Open Scope string_scope.
Open Scope Z_scope.

(** [forbidden], solver.py:328: for each variable, the values of others. *)
Definition forb := dict (dict Z).

(** [for c_var in var_ad_constraints[var_name]: forbidden[c_var].pop(var_name, None)], solver.py:347-348. *)
Fixpoint fb_pop (x : name) (cs : list name) (fb : forb) : res forb :=
  match cs with
  | [] => Ok fb
  | c :: cs' => match dget fb c with
                | None => Err KeyError
                | Some d => fb_pop x cs' (dset fb c (ddel d x))
                end
  end.

(** [for c_var in ...: forbidden[c_var][var_name] = value], solver.py:383-384. *)
Fixpoint fb_push (x : name) (v : Z) (cs : list name) (fb : forb) : res forb :=
  match cs with
  | [] => Ok fb
  | c :: cs' => match dget fb c with
                | None => Err KeyError
                | Some d => fb_push x v cs' (dset fb c (dset d x v))
                end
  end.

(** The filtered domain, solver.py:352-365. *)
Definition fb_domain (w : world) (i : ginfo) (x : name) (s : subst) (fb : forb) : res (list Z) :=
  match dget fb x with
  | None => Err KeyError
  | Some d =>
      match dget (i_doms i) x with
      | None => Err KeyError
      | Some dom => filterM (fun v => if zmem v (map snd d) then Ok false
                                      else no_unsatisfied w (dget_or (i_cons i) x []) (dset s x v)) dom
      end
  end.

Inductive fres : Type :=
| FNext (c : cfg) (fb : forb)
| FSol (s : subst)
| FErr (e : exn).

(** [value = domain.pop(0)] and the rest of the iteration, solver.py:378-390. *)
Definition fb_take (i : ginfo) (x : name) (rest : list name) (s : subst) (d : list Z)
           (stack : list (list name * subst)) (doms : dict (list Z)) (fb : forb) : fres :=
  match d with
  | [] => FErr IndexError
  | v :: d' =>
      let s' := dset s x v in
      match rest with
      | [] => FSol s'
      | _ => match fb_push x v (filter (fun y => memb y rest) (dget_or (i_ad i) x [])) fb with
             | Err e => FErr e
             | Ok fb' => FNext (Cfg ((rest, s') :: stack) (dset doms x d')) fb'
             end
      end
  end.

(** One iteration of [while stack] after the timeout check, solver.py:341-390. *)
Definition fb_step (w : world) (i : ginfo) (c : cfg) (fb : forb) : fres :=
  match g_stack c with
  | [] => FErr IndexError
  | ([], _) :: _ => FErr IndexError
  | (x :: rest, s) :: stack =>
      match fb_pop x (dget_or (i_ad i) x []) fb with
      | Err e => FErr e
      | Ok fb =>
          match dget (g_doms c) x with
          | None =>
              match fb_domain w i x s fb with
              | Err e => FErr e
              | Ok [] => FNext (Cfg stack (g_doms c)) fb
              | Ok d => fb_take i x rest s d (g_stack c) (dset (g_doms c) x d) fb
              end
          | Some [] => FNext (Cfg stack (ddel (g_doms c) x)) fb
          | Some d => fb_take i x rest s d (g_stack c) (g_doms c) fb
          end
      end
  end.

(** The order of the variables, solver.py:297-318: the other policies are not considered. *)
Definition fb_policy (p : policy) : policy :=
  match p with GROUPS => GROUPS | RANDOM => RANDOM | REVERSED => REVERSED | _ => ORDERED end.

Section Run.
Variable clk : nat -> Z.
Variable shuffle : list name -> list name.

(** The loop, solver.py:331-400, with its own Timer object [t].  After the first yield, [limit]
    (line 395) is not defined: NameError. *)
Fixpoint fb_loop (fuel : nat) (e : env) (t : timer) (timeout : lim) (i : ginfo) (c : cfg) (fb : forb)
  : option (list subst * env * option exn) :=
  match fuel with
  | O => None
  | S f =>
      match g_stack c with
      | [] => Some ([], e, None)
      | _ =>
          let go (e : env) :=
            match fb_step (e_world e) i c fb with
            | FErr ex => Some ([], e, Some ex)
            | FNext c' fb' => fb_loop f e t timeout i c' fb'
            | FSol s => Some ([s], tick e, Some NameError)
            end in
          match timeout with
          | LNone => go e
          | LNum n => if n <? timer_elapsed (clk (e_clk e)) t
                      then Some ([], set_interrupt (tick (tick e)) ITimeout, None)
                      else go (tick e)
          | LInfinity => Some ([], tick e, Some TypeError)
          end
      end
  end.

(** [list(solver._solve_forbidden(model, ...))]: neither [_reset] nor [model.solvable()] is called. *)
Definition forbidden_all (fuel : nat) (e : env) (sv : solver) (a : args) : option (list subst * env * option exn) :=
  match do_setup (s_compile sv) (e_world e) (x_additional a) with
  | (w, Err ex) => Some ([], set_world e w, Some ex)
  | (w, Ok u) =>
      let names := select_order shuffle (fb_policy (arg_or (x_policy a) (s_policy sv))) (w_model (e_world e)) u in
      let e := set_world e w in
      fb_loop fuel (tick e) (Timer 0 (Some (clk (e_clk e))) 0) (arg_or (x_timeout a) (s_timeout sv))
              (GInfo (u_doms u) (u_cons u) (u_ad u)) (Cfg [(names, [])] []) (map (fun x => (x, [])) names)
  end.
End Run.
