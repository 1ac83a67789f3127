(** The dicts and lists of a running [solve], as objects with an identity: solver.py:219-290.

    [Solver.v] has values where Python has objects.  Here [substitution], the lists in
    [domains] and the domains that the user gave to [add_int_variable] (model.py:76-87 stores
    the object, not a copy) are objects which can be changed wherever they are known: the
    caller of [solve] receives the very object [substitution] and knows its own domain lists.
    Simplifications: domains are tuples, ranges or lists; the body of the loop changes dicts
    and lists only (calls on the model are in Solver.v and Program.v); [_setup] reads all
    domains before the loop, so that only the identity of the domains matters afterwards. *)
From Verif Require Export Solver.
Open Scope string_scope.
Open Scope Z_scope.

(** Dict and list objects, and how many there are. *)
Record heap : Type := Heap {
  h_dicts : nat -> subst; h_ndicts : nat;
  h_lists : nat -> list Z; h_nlists : nat }.

Definition set_dict (H : heap) (r : nat) (s : subst) : heap := Heap (upd (h_dicts H) r s) (h_ndicts H) (h_lists H) (h_nlists H).
Definition set_list (H : heap) (r : nat) (l : list Z) : heap := Heap (h_dicts H) (h_ndicts H) (upd (h_lists H) r l) (h_nlists H).
(** [{...}], [d.copy()], [[]]: a new object at the end. *)
Definition new_dict (H : heap) (s : subst) : nat * heap :=
  (h_ndicts H, Heap (upd (h_dicts H) (h_ndicts H) s) (S (h_ndicts H)) (h_lists H) (h_nlists H)).
Definition new_list (H : heap) : nat * heap :=
  (h_nlists H, Heap (h_dicts H) (h_ndicts H) (upd (h_lists H) (h_nlists H) []) (S (h_nlists H))).

(** A domain: a tuple or range, or a list object. *)
Inductive dobj : Type := Frozen (l : list Z) | Shared (r : nat).
Definition elements (H : heap) (o : dobj) : list Z := match o with Frozen l => l | Shared r => h_lists H r end.

(** [home]: the list objects among the domains of the model.  What the model's variables
    look like now. *)
Definition object_of (home : dict dobj) (x : name) (d : list Z) : dobj := match dget home x with Some o => o | None => Frozen d end.
Definition current_vars (home : dict dobj) (H : heap) (vs : dict vinfo) : dict vinfo :=
  map (fun p => match snd p with VVar d => (fst p, VVar (elements H (object_of home (fst p) d))) | VPar r => (fst p, VPar r) end) vs.
Definition current_world (home : dict dobj) (H : heap) (w : world) : world :=
  set_model w (Model (current_vars home H (m_vars (w_model w))) (m_cons (w_model w)) (m_solvable (w_model w))).

(** [stack] and [domains] of objects; [variables[...].domain]. *)
Record hcfg : Type := HCfg { k_stack : list (list name * nat); k_doms : dict nat }.

Inductive hres : Type :=
| HNext (c : hcfg)
| HYield (r : nat) (c : hcfg)      (* [yield substitution]: the object *)
| HErr (e : exn).

(** The loop over the values of a domain, solver.py:243-258: [r] is [substitution], which is
    changed for each value, [d] is the list [domain]. *)
Fixpoint hfilter (w : world) (ad : list name) (cs : list constraint) (x : name) (r d : nat) (vals : list Z) (H : heap) : heap * res unit :=
  match vals with
  | [] => (H, Ok tt)
  | v :: vals' =>
      let H := set_dict H r (dset (h_dicts H r) x v) in
      if existsb (fun y => match dget (h_dicts H r) y with Some u => u =? v | None => false end) ad
      then hfilter w ad cs x r d vals' H
      else match no_unsatisfied w cs (h_dicts H r) with
           | Err ex => (H, Err ex)
           | Ok true => hfilter w ad cs x r d vals' (set_list H d (h_lists H d ++ [v])%list)
           | Ok false => hfilter w ad cs x r d vals' H
           end
  end.

(** [value = domain.pop(0)] and the rest of the iteration, solver.py:268-283. *)
Definition htake (H : heap) (x : name) (rest : list name) (r d : nat) (stack : list (list name * nat)) (doms : dict nat) : heap * hres :=
  match h_lists H d with
  | [] => (H, HErr IndexError)
  | v :: l =>
      let H := set_list H d l in
      let H := set_dict H r (dset (h_dicts H r) x v) in
      match rest with
      | [] => (H, HYield r (HCfg stack doms))
      | _ => (H, HNext (HCfg ((rest, r) :: stack) doms))
      end
  end.

(** One iteration, solver.py:234-283. *)
Definition hstep (w : world) (i : ginfo) (objs : dict dobj) (H : heap) (c : hcfg) : heap * hres :=
  match k_stack c with
  | [] => (H, HErr IndexError)
  | ([], _) :: _ => (H, HErr IndexError)
  | (x :: rest, s) :: stack =>
      let '(r, H) := new_dict H (h_dicts H s) in                     (* substitution.copy() *)
      match dget (k_doms c) x with
      | None =>
          let '(d, H) := new_list H in
          match dget objs x with
          | None => (H, HErr KeyError)
          | Some o =>
              match hfilter w (dget_or (i_ad i) x []) (dget_or (i_cons i) x []) x r d (elements H o) H with
              | (H, Err ex) => (H, HErr ex)
              | (H, Ok _) =>
                  match h_lists H d with
                  | [] => (H, HNext (HCfg stack (k_doms c)))
                  | _ => htake H x rest r d (k_stack c) (dset (k_doms c) x d)
                  end
              end
          end
      | Some d =>
          match h_lists H d with
          | [] => (H, HNext (HCfg stack (ddel (k_doms c) x)))
          | _ => htake H x rest r d (k_stack c) (k_doms c)
          end
      end
  end.

(** ** The generator *)
Inductive hgen : Type :=
| KInit (sv : solver) (a : args)
| KLoop (l : local) (objs : dict dobj) (c : hcfg) (n : Z)
| KYield (l : local) (objs : dict dobj) (c : hcfg) (n : Z)
| KDone.

Inductive hevent : Type := KNone | KGive (r : nat) | KStop | KRaise (e : exn).

(** [_setup] replaces the domain of a variable by a new tuple if a constraint has no other
    variable, solver.py:118-126; otherwise [variables[x].domain] is the user's object. *)
Definition replaced (cs : list constraint) (x : name) : bool :=
  existsb (fun c => match c_body c, c_vars c with CAllDiff _, _ => false | _, [y] => String.eqb x y | _, _ => false end) cs.
Definition loop_objects (home : dict dobj) (cs : list constraint) (doms : dict (list Z)) : dict dobj :=
  map (fun p => (fst p, if replaced cs (fst p) then Frozen (snd p) else object_of home (fst p) (snd p))) doms.

Section Generator.
Variable clk : nat -> Z.
Variable shuffle : list name -> list name.
Variable home : dict dobj.

(** As [micro] of Solver.v. *)
Definition hmicro (e : env) (H : heap) (g : hgen) : env * heap * hgen * hevent :=
  match g with
  | KInit sv a =>
      match begin clk shuffle (set_world e (current_world home H (e_world e))) sv a with
      | (e', GLoop l c n, _) =>
          let '(r, H') := new_dict H [] in                             (* stack.append((var_names, {})) *)
          let cs := (m_cons (w_model (e_world e)) ++ x_additional a)%list in
          (e', H', KLoop l (loop_objects home cs (i_doms (l_info l))) (HCfg (map (fun p => (fst p, r)) (g_stack c)) []) n, KNone)
      | (e', _, EvRaise ex) => (e', H, KDone, KRaise ex)
      | (e', _, _) => (e', H, KDone, KStop)
      end
  | KLoop l objs c n =>
      match k_stack c with
      | [] => (e, H, KDone, KStop)
      | _ =>
          match check_timeout clk e l with
          | (e', Some (EvRaise ex)) => (e', H, KDone, KRaise ex)
          | (e', Some _) => (e', H, KDone, KStop)
          | (e', None) =>
              match hstep (e_world e') (l_info l) objs H c with
              | (H', HErr ex) => (e', H', KDone, KRaise ex)
              | (H', HNext c') => (e', H', KLoop l objs c' n, KNone)
              | (H', HYield r c') =>
                  match do_stop clk e' (l_timer l) with
                  | (e'', Err ex) => (e'', H', KDone, KRaise ex)
                  | (e'', Ok _) => (e'', H', KYield l objs c' (n + 1), KGive r)
                  end
              end
          end
      end
  | KYield l objs c n =>
      let resume (e : env) :=
        match do_start clk e (l_timer l) with
        | (e', Err ex) => (e', H, KDone, KRaise ex)
        | (e', Ok _) => (e', H, KLoop l objs c n, KNone)
        end in
      match l_limit l with
      | LNone => resume e
      | LNum m => if m <=? n then (set_interrupt (do_abort clk e (l_timer l)) ILimit, H, KDone, KStop) else resume e
      | LInfinity => (e, H, KDone, KRaise TypeError)
      end
  | KDone => (e, H, KDone, KStop)
  end.

(** [for solution in solver.solve(model, ...): body]: [body] is given the objects received so
    far, the newest first, and may change the heap.  Result: the objects received with their
    contents at that time, and the final state. *)
Fixpoint hloop (fuel : nat) (body : list nat -> heap -> heap) (given : list nat) (e : env) (H : heap) (g : hgen)
  : option (list (nat * subst) * heap * env * option exn) :=
  match fuel with
  | O => None
  | S f =>
      match hmicro e H g with
      | (e', H', g', KNone) => hloop f body given e' H' g'
      | (e', H', g', KGive r) =>
          match hloop f body (r :: given) e' (body (r :: given) H') g' with
          | Some (ys, H2, e2, o) => Some ((r, h_dicts H' r) :: ys, H2, e2, o)
          | None => None
          end
      | (e', H', g', KStop) => Some ([], H', e', None)
      | (e', H', g', KRaise ex) => Some ([], H', e', Some ex)
      end
  end.

End Generator.
