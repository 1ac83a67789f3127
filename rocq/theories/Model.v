(** Model of src/satisfy/constraint.py and src/satisfy/model.py.

    The mutable objects of a program - parameter values, the compiled function held by
    each ExpressionConstraint, and the Model object - live in a [world] that is threaded
    through the API functions.  Simplifications: one Model object; domains are finite
    lists of ints (not one-shot iterators); names are ASCII; log messages are dropped. *)
From Verif Require Export PyText.
Open Scope string_scope.
Open Scope Z_scope.

(** ** constraint.py *)

(** ConstConstraint (42-55), ExpressionConstraint (58-88), AllDifferentConstraint (91-96). *)
Inductive cbody : Type :=
| CConst (b : bool)
| CExpr (e : expr)
| CAllDiff (xs : list name).

(** A constraint object; [c_id] is the object identity. *)
Record constraint : Type := Constraint { c_id : nat; c_body : cbody }.

(** [vars()], constraint.py:16-17, 33-34: a frozenset.  Its iteration order is
    unspecified; no caller's result depends on it. *)
Definition c_vars (c : constraint) : list name :=
  match c_body c with
  | CConst _ => []
  | CExpr e => vars e
  | CAllDiff xs => dedup xs
  end.

(** ** model.py: state *)

(** VariableInfo (model.py:26): [VVar dom] for a Variable, [VPar p] for a Parameter
    (domain None); [p] is the identity of the Parameter object. *)
Inductive vinfo : Type :=
| VVar (dom : list Z)
| VPar (p : nat).

Record model : Type := Model {
  m_vars : dict vinfo;          (* _variables, an OrderedDict *)
  m_cons : list constraint;     (* _constraints *)
  m_solvable : bool             (* __solvable *)
}.

(** [Model()], model.py:32-36. *)
Definition empty_model : model := Model [] [] true.

(** The objects of the program.  [w_code]: [_evaluate_function] of the constraint object
    with that identity.  [w_npar], [w_ncon]: next fresh identities. *)
Record world : Type := World {
  w_par : nat -> Z;
  w_code : nat -> option code;
  w_npar : nat;
  w_ncon : nat;
  w_model : model
}.

Definition set_model (w : world) (m : model) : world :=
  World (w_par w) (w_code w) (w_npar w) (w_ncon w) m.

Definition upd {A} (f : nat -> A) (k : nat) (a : A) : nat -> A :=
  fun j => if Nat.eqb j k then a else f j.

(** [parameter.value = v], expression.py:777-779. *)
Definition set_param (w : world) (p : nat) (v : Z) : world :=
  World (upd (w_par w) p v) (w_code w) (w_npar w) (w_ncon w) (w_model w).

(** ** constraint.py: evaluation *)

Fixpoint zmem (v : Z) (l : list Z) : bool :=
  match l with [] => false | w :: l' => (v =? w) || zmem v l' end.

(** [set(values)]; only its size is used. *)
Fixpoint zset (l : list Z) : list Z :=
  match l with [] => [] | v :: l' => if zmem v l' then zset l' else v :: zset l' end.

(** AllDifferentConstraint.evaluate, constraint.py:92-93. *)
Definition ad_evaluate (xs : list name) (s : subst) : res bool :=
  let! vs := mapM (fun x => match dget s x with Some v => Ok v | None => Err KeyError end) xs in
  Ok (Nat.eqb (length (zset vs)) (length xs)).

(** [constraint.evaluate(substitution)] as a truth value: constraint.py:47-48, 76-80
    (the compiled function, if there is one, is called with keyword arguments), 92-93. *)
Definition ceval (w : world) (c : constraint) (s : subst) : res bool :=
  match c_body c with
  | CConst b => Ok b
  | CExpr e =>
      let! v := match w_code w (c_id c) with
                | None => evaluate (w_par w) s e
                | Some f => call_code f s
                end in
      Ok (truthy v)
  | CAllDiff xs => ad_evaluate (dedup xs) s
  end.

(** [unsatisfied], constraint.py:23-27. *)
Definition unsatisfied (w : world) (c : constraint) (s : subst) : res bool :=
  if forallb (fun x => dmem s x) (c_vars c)
  then let! b := ceval w c s in Ok (negb b)
  else Ok false.

(** [compile], constraint.py:36-37 (nothing), 69-70. *)
Definition ccompile (w : world) (c : constraint) : world :=
  match c_body c with
  | CExpr e => World (w_par w) (upd (w_code w) (c_id c) (Some (as_function (w_par w) e)))
                     (w_npar w) (w_ncon w) (w_model w)
  | _ => w
  end.

(** Creating a constraint object (constructors, constraint.py:16-17, 59-64): a fresh
    object without compiled function. *)
Definition new_constraint (w : world) (b : cbody) : constraint * world :=
  (Constraint (w_ncon w) b,
   World (w_par w) (upd (w_code w) (w_ncon w) None) (w_npar w) (S (w_ncon w)) (w_model w)).

(** ** model.py: operations.  Every operation returns the new world and a result; the
    steps are in the order of the code, so a failing operation keeps whatever it had
    already changed. *)

Definition op (A : Type) : Type := world -> world * res A.

(** The regular expression [^[a-zA-Z]\w*$] used with [match] (model.py:30, 48); [$] also
    matches before a final newline. *)
Definition newline : ascii := ascii_of_nat 10.
Fixpoint word_chars_nl (s : string) : bool :=
  match s with
  | "" => true
  | String c s' =>
      if isname_char c then word_chars_nl s'
      else Ascii.eqb c newline && match s' with "" => true | _ => false end
  end.
Definition good_name (x : string) : bool :=
  match x with
  | "" => false
  | String c s => isalpha c && word_chars_nl s
  end.

Fixpoint has_dup (l : list Z) : bool :=
  match l with [] => false | v :: l' => zmem v l' || has_dup l' end.

(** [_get_variable] / [_get_parameter], model.py:51-68: the name to use.  (The assertion
    on ":" cannot fail once the regular expression matches.) *)
Definition choose_name (m : model) (prefix : string) (nm : option string) : res string :=
  match nm with
  | None => Ok (prefix ++ str_nat (length (m_vars m)))
  | Some x =>
      if good_name x then
        if dmem (m_vars m) x then Err ValueError else Ok x
      else Err ValueError
  end.

(** [add_parameter], model.py:70-75; returns the Parameter object. *)
Definition add_parameter (value : Z) (nm : option string) : op expr := fun w =>
  match choose_name (w_model w) "_p" nm with
  | Err e => (w, Err e)
  | Ok x =>
      let p := w_npar w in
      let m := w_model w in
      (World (upd (w_par w) p value) (w_code w) (S p) (w_ncon w)
             (Model (dset (m_vars m) x (VPar p)) (m_cons m) (m_solvable m)),
       Ok (Param p x))
  end.

(** [add_int_variable], model.py:77-87; returns the Variable object. *)
Definition add_int_variable (dom : list Z) (nm : option string) : op expr := fun w =>
  if has_dup dom then (w, Err ValueError)
  else match choose_name (w_model w) "_v" nm with
       | Err e => (w, Err e)
       | Ok x =>
           let m := w_model w in
           (set_model w (Model (dset (m_vars m) x (VVar dom)) (m_cons m) (m_solvable m)),
            Ok (Var x))
       end.

(** [add_bool_variable], model.py:89-90. *)
Definition add_bool_variable (nm : option string) : op expr := add_int_variable [0; 1] nm.

(** [set_solvable], model.py:95-96: assigns the unrelated attribute [__unsolvable]. *)
Definition set_solvable (b : bool) : op unit := fun w => (w, Ok tt).

(** Argument of [add_constraint]: a bool, an Expression, a Constraint object, or
    something else. *)
Inductive carg : Type :=
| ABool (b : bool)
| AExpr (e : expr)
| ACons (c : constraint)
| AOther.

(** Body of [add_constraint] once the argument is a constraint object, model.py:105-117. *)
Definition add_constraint_obj (c : constraint) : op unit := fun w =>
  let m := w_model w in
  let var_names := c_vars c in
  let append (m : model) (w : world) : world * res unit :=
    if forallb (fun x => dmem (m_vars m) x) var_names
    then (set_model w (Model (m_vars m) (m_cons m ++ [c]) (m_solvable m)), Ok tt)
    else (w, Err ValueError) in
  match var_names with
  | [] =>
      match ceval w c [] with
      | Err e => (w, Err e)
      | Ok true => (w, Ok tt)
      | Ok false =>
          let m' := Model (m_vars m) (m_cons m) false in
          append m' (set_model w m')
      end
  | _ => append m w
  end.

(** [add_constraint], model.py:98-117. *)
Definition add_constraint (a : carg) : op unit := fun w =>
  match a with
  | ABool b => let '(c, w') := new_constraint w (CConst b) in add_constraint_obj c w'
  | AExpr e => let '(c, w') := new_constraint w (CExpr e) in add_constraint_obj c w'
  | ACons c => add_constraint_obj c w
  | AOther => (w, Err TypeError)
  end.

(** [add_all_different_constraint], model.py:119-120, given the variables' names. *)
Definition add_all_different_constraint (xs : list name) : op unit := fun w =>
  let '(c, w') := new_constraint w (CAllDiff xs) in add_constraint (ACons c) w'.

(** [get_var_domain], model.py:122-127 (KeyError for an unknown name; [None] for a
    parameter). *)
Definition get_var_domain (m : model) (x : name) : res (option (list Z)) :=
  match dget (m_vars m) x with
  | None => Err KeyError
  | Some (VVar d) => Ok (Some d)
  | Some (VPar _) => Ok None
  end.

(** A program before its first API call. *)
Definition init_world : world := World (fun _ => 0) (fun _ => None) 0 0 empty_model.

(** ** Histories of API calls *)

Inductive api : Type :=
| AddInt (dom : list Z) (nm : option string)
| AddBool (nm : option string)
| AddParameter (v : Z) (nm : option string)
| AddConstraint (a : carg)
| AddAllDiff (xs : list name)
| SetSolvable (b : bool)
| SetParam (p : nat) (v : Z)
| NewConstraint (b : cbody)        (* the user builds a Constraint object *)
| CompileConstraint (c : constraint).   (* done by a compiling solve, solver.py:106 *)

Definition drop {A} (r : world * res A) : world * res unit :=
  (fst r, match snd r with Ok _ => Ok tt | Err e => Err e end).

Definition run_api (a : api) : op unit := fun w =>
  match a with
  | AddInt d nm => drop (add_int_variable d nm w)
  | AddBool nm => drop (add_bool_variable nm w)
  | AddParameter v nm => drop (add_parameter v nm w)
  | AddConstraint a => add_constraint a w
  | AddAllDiff xs => add_all_different_constraint xs w
  | SetSolvable b => set_solvable b w
  | SetParam p v => (set_param w p v, Ok tt)
  | NewConstraint b => (snd (new_constraint w b), Ok tt)
  | CompileConstraint c => (ccompile w c, Ok tt)
  end.

(** The world after a sequence of calls (failing calls are caught by the caller). *)
Fixpoint run_history (h : list api) (w : world) : world :=
  match h with
  | [] => w
  | a :: h' => run_history h' (fst (run_api a w))
  end.
