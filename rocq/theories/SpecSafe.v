(** The fragment of expressions for which the generated Python text is faithful.
    It is syntactic and independent of the parser: it says in which contexts the
    unparenthesised forms ([a or b], [not a], [-5], [-(a)]) may appear, and that the
    text under [-( )] and [abs( )], which is produced by [__str__] instead of
    [py_expr], uses only symbols that mean the same in both. *)
From Verif Require Import Py Expr PyText SpecFormula.
Open Scope string_scope.
Open Scope Z_scope.

(** Python identifiers (ASCII) that are neither keywords nor one of the names used by
    the generated code. *)
Fixpoint all_name_chars (s : string) : bool :=
  match s with "" => true | String c s' => isname_char c && all_name_chars s' end.
Definition identifier (x : string) : bool :=
  match x with "" => false | String c s => isname_start c && all_name_chars s end.
(** The keywords of Python 3. *)
Definition reserved : list string :=
  ["and"; "or"; "not"; "lambda"; "False"; "None"; "True"; "as"; "assert"; "async"; "await"; "break"; "class";
   "continue"; "def"; "del"; "elif"; "else"; "except"; "finally"; "for"; "from";
   "global"; "if"; "import"; "in"; "is"; "nonlocal"; "pass"; "raise"; "return";
   "try"; "while"; "with"; "yield"].
Definition name_ok (x : string) : bool :=
  identifier x && negb (memb x reserved)
  && negb (memb x ["sum"; "prod"; "abs"; "__dummy_kwargs"]).

(** How tightly the text of an expression binds: 0 = [a or b], 2 = [not a],
    9 = leading minus sign, 11 = number, name, call or parenthesised text. *)
Definition tightness (e : expr) : nat :=
  match e with
  | Bin OOr _ _ => 0
  | Not _ => 2
  | Neg _ | Param _ _ => 9
  | Const z => if z <? 0 then 9 else 11
  | _ => 11
  end.

(** What an operand position requires. *)
Definition left_needs (o : binop) : nat :=
  match o with OOr => 0 | OAnd => 2 | OPow => 11 | _ => 9 end.
Definition right_needs (o : binop) : nat :=
  match o with OOr => 0 | OAnd => 2 | _ => 9 end.

(** No [/], [&], [|], [not] or parameter: [__str__] and [py_expr] coincide. *)
Fixpoint str_safe (e : expr) : bool :=
  match e with
  | Const _ | Var _ => true
  | Param _ _ | Not _ => false
  | Neg e1 | Abs e1 => str_safe e1
  | Bin o l r =>
      match o with ODiv | OAnd | OOr => false | _ => true end && str_safe l && str_safe r
  | Sum es _ | Prod es _ => forallb str_safe es
  end.

(** Sums and products with at least three printed values (the operators never build
    smaller ones). *)
Definition three_values (k : acckind) (es : list expr) (c : Z) : bool :=
  Nat.leb 3 (length es + (if Z.eqb c (neutral k) then 0 else 1)).

Fixpoint safe (e : expr) : bool :=
  match e with
  | Const _ | Param _ _ => true
  | Var x => name_ok x
  | Neg e1 | Abs e1 => str_safe e1 && safe e1
  | Not e1 => Nat.leb 2 (tightness e1) && safe e1
  | Bin o l r =>
      Nat.leb (left_needs o) (tightness l) && Nat.leb (right_needs o) (tightness r)
      && safe l && safe r
  | Sum es c => three_values KSum es c && forallb safe es
  | Prod es c => three_values KProd es c && forallb safe es
  end.

(** The same idea for formulas as written by the user.  [f_str]: nothing that prints
    differently under [-( )]/[abs( )].  [f_arith]: everything except a disjunction
    below another operator; [f_safe] also allows disjunctions at the top. *)
Fixpoint f_str (f : formula) : bool :=
  match f with
  | FInt _ | FVar _ => true
  | FPar _ _ => false
  | FNeg g | FAbs g => f_str g
  | FBin u g h =>
      match u with UDiv | UAnd | UOr => false | _ => true end && f_str g && f_str h
  | FSum gs => forallb f_str gs
  end.

Fixpoint f_arith (f : formula) : bool :=
  match f with
  | FInt _ | FPar _ _ => true
  | FVar x => name_ok x
  | FNeg g | FAbs g => f_str g && f_arith g
  | FBin u g h =>
      match u with
      | UOr => false
      | USub =>                                (* [0 - h] builds [-(h)] *)
          f_str h || match g with FVar _ | FPar _ _ => true | FInt n => negb (n =? 0) | _ => false end
      | UPow => match g with FVar _ => true | FInt n => 0 <=? n | _ => false end
      | _ => true
      end && f_arith g && f_arith h
  | FSum gs => forallb f_arith gs
  end.

Fixpoint f_safe (f : formula) : bool :=
  match f with
  | FBin UOr g h => f_safe g && f_safe h
  | _ => f_arith f
  end.

(** No operator that can fail on integers ([/], [%], [**]). *)
Fixpoint total (e : expr) : bool :=
  match e with
  | Const _ | Var _ | Param _ _ => true
  | Neg e1 | Abs e1 | Not e1 => total e1
  | Bin o l r =>
      match o with ODiv | OMod | OPow => false | _ => true end && total l && total r
  | Sum es _ | Prod es _ => forallb total es
  end.
