(** Model of [print_model], src/satisfy/tool/demo_utils.py:8-14, called by the programs with
    [show_model].  A call of [print] is the text it is given, as in DemoPrint.v.  The model
    keeps the values of a domain; the object that was given to [add_int_variable] is a
    parameter [dom] here.  Names are ASCII. *)
From Verif Require Export DemoPrint Nonogram.
Open Scope string_scope.
Open Scope Z_scope.

(** Domain objects used in the repository: a tuple (model.py:90), a list
    (nonogram.py:36), a set, with its values in iteration order (sudoku.py:44), a range
    (tool/queens.py:17). *)
Inductive dobj : Type :=
| DTuple (l : list Z) | DList (l : list Z) | DSet (l : list Z) | DRange (start stop : Z).

(** The values found by iterating over the object. *)
Definition dvalues (d : dobj) : list Z :=
  match d with
  | DTuple l | DList l | DSet l => l
  | DRange start stop => map (fun i => start + Z.of_nat i) (seq 0 (Z.to_nat (stop - start)))
  end.

(** [str(domain)]. *)
Definition str_dobj (d : dobj) : string :=
  match d with
  | DTuple [v] => "(" ++ str_int v ++ ",)"
  | DTuple l => "(" ++ sjoin ", " (map str_int l) ++ ")"
  | DList l => "[" ++ sjoin ", " (map str_int l) ++ "]"
  | DSet [] => "set()"
  | DSet l => "{" ++ sjoin ", " (map str_int l) ++ "}"
  | DRange start stop => "range(" ++ str_int start ++ ", " ++ str_int stop ++ ")"
  end.

(** [repr(name)] of a name accepted by the model: letters, digits, underscores and possibly a
    final newline. *)
Fixpoint repr_chars (s : string) : string :=
  match s with
  | EmptyString => ""
  | String c s' => if Ascii.eqb c newline then "\n" ++ repr_chars s' else String c (repr_chars s')
  end.
Definition repr_name (x : name) : string := "'" ++ repr_chars x ++ "'".

(** ["{:4d}".format(i)] *)
Definition pad4 (i : nat) : string :=
  String.concat "" (repeat " " (4 - String.length (str_nat i))) ++ str_nat i.

(** [str(constraint)]: constraint.py:54-55, 87-88; AllDifferentConstraint has only [__repr__],
    constraint.py:95-96. *)
Definition str_constraint (c : constraint) : string :=
  match c_body c with
  | CConst b => if b then "True" else "False"
  | CExpr e => str_expr e
  | CAllDiff xs => "AllDifferentConstraint([" ++ sjoin ", " (map repr_name (sorted_strings (dedup xs))) ++ "])"
  end.

(** demo_utils.py:11. *)
Definition variable_line (dom : name -> dobj) (p : nat * (name * vinfo)) : string :=
  " " ++ pad4 (fst p) ++ ") " ++ repr_name (fst (snd p)) ++ " domain: " ++
  match snd (snd p) with VVar _ => str_dobj (dom (fst (snd p))) | VPar _ => "None" end.

(** demo_utils.py:14. *)
Definition constraint_line (p : nat * constraint) : string :=
  " " ++ pad4 (fst p) ++ ") " ++ str_constraint (snd p).

(** [print_model], demo_utils.py:8-14. *)
Definition print_model (dom : name -> dobj) (m : model) : list string :=
  ((String newline "=== model variables: ===" :: map (variable_line dom) (enumerate (m_vars m)))
   ++ (String newline "=== model constraints: ===" :: map constraint_line (enumerate (m_cons m))))%list.
