(** [repr] of expressions, constraints and objectives, and what Python does with the text. *)
From Verif Require Export DemoMore Optimize.
Open Scope string_scope.
Open Scope Z_scope.

(** [type(self).__name__] of the binary operators, expression.py:484-596. *)
Definition bin_class (o : binop) : string :=
  match o with
  | OAdd => "Add" | OMul => "Mul" | OSub => "Sub" | ODiv => "Div" | OMod => "Mod" | OPow => "Pow"
  | OEq => "Eq" | ONe => "Ne" | OLt => "Lt" | OLe => "Le" | OGt => "Gt" | OGe => "Ge"
  | OAnd => "And" | OOr => "Or"
  end.

(** [__repr__], expression.py:218-219 (Const), 349-352 (Collection), 670-674 (Accumulation),
    760-763 (Variable, and Parameter which inherits it). *)
Fixpoint repr_expr (e : expr) : string :=
  match e with
  | Const z => "Const(" ++ str_int z ++ ")"
  | Var x => "Variable(" ++ py_repr x ++ ")"
  | Param _ x => "Parameter(" ++ py_repr x ++ ")"
  | Neg e1 => "Neg(" ++ repr_expr e1 ++ ")"
  | Abs e1 => "Abs(" ++ repr_expr e1 ++ ")"
  | Not e1 => "Not(" ++ repr_expr e1 ++ ")"
  | Bin o l r => bin_class o ++ "(" ++ repr_expr l ++ ", " ++ repr_expr r ++ ")"
  | Sum es c => "Sum(" ++ sjoin ", " (map repr_expr es) ++ ", const=" ++ str_int c ++ ")"
  | Prod es c => "Prod(" ++ sjoin ", " (map repr_expr es) ++ ", const=" ++ str_int c ++ ")"
  end.

(** [__repr__] of the constraints: constraint.py:51-52, 84-85, 93-94 ([sorted] of a frozenset). *)
Definition repr_constraint (c : cbody) : string :=
  match c with
  | CConst b => "ConstConstraint(" ++ (if b then "True" else "False") ++ ")"
  | CExpr e => "ExpressionConstraint(" ++ repr_expr e ++ ")"
  | CAllDiff xs => "AllDifferentConstraint([" ++ sjoin ", " (map py_repr (sorted_strings (dedup xs))) ++ "])"
  end.

(** [Objective.__repr__], objective.py:26-27. *)
Definition repr_objective (o : objective) : string :=
  (if o_max o then "Maximize" else "Minimize") ++ "(" ++ repr_expr (o_expr o) ++ ")".

(** ** [eval(repr(e))], where the names of the classes are defined *)

(** A Python expression made of ints, strs and calls, possibly with a keyword argument [const]. *)
Inductive pytree : Type :=
| TInt (z : Z)
| TText (s : string)
| TCall (f : string) (args : list pytree) (const : option Z).

(** Values of arguments. *)
Inductive pyval : Type :=
| VInt (z : Z)
| VText (s : string)
| VExpr (e : expr).

(** [Expression.coerce] in the constructors of operators, expression.py:47-52, 320; a Const of a
    str is not represented. *)
Definition coerce_val (v : pyval) : res expr :=
  match v with VInt z => Ok (Const z) | VExpr e => Ok e | VText _ => Err TypeError end.

(** [iter(expression)]: only Collections have [__iter__], expression.py:335-336. *)
Definition iterate (v : pyval) : res (list expr) :=
  match v with
  | VExpr (Neg e) | VExpr (Abs e) | VExpr (Not e) => Ok [e]
  | VExpr (Bin _ l r) => Ok [l; r]
  | VExpr (Sum es _) | VExpr (Prod es _) => Ok es
  | _ => Err TypeError
  end.

(** The names that the [class] statements of the binary operators define, expression.py:484-596. *)
Definition binop_of (f : string) : option binop :=
  option_map snd (find (fun d => String.eqb f (fst d))
    [("Add", OAdd); ("Mul", OMul); ("Sub", OSub); ("Div", ODiv); ("Mod", OMod); ("Pow", OPow);
     ("Eq", OEq); ("Ne", ONe); ("Lt", OLt); ("Le", OLe); ("Gt", OGt); ("Ge", OGe); ("And", OAnd); ("Or", OOr)]).

(** A call of a class: the parameters are [Const(value)], [Variable(name)],
    [Parameter(name, value)], [UnOp(operand)] (419), [BinOp(left_operand, right_operand)] (459),
    [Accumulation(expressions, const=None)] (625); a call with other arguments is a TypeError. *)
Definition call (f : string) (args : list pyval) (const : option Z) : res expr :=
  let unary (mk : expr -> expr) :=
    match args, const with [v], None => let! e := coerce_val v in Ok (mk e) | _, _ => Err TypeError end in
  let accumulation (k : acckind) :=
    match args, const with
    | [v], Some c => let! es := iterate v in Ok (acc_init k es c)
    | [v], None => let! es := iterate v in Ok (acc_init k es (neutral k))
    | _, _ => Err TypeError
    end in
  if String.eqb f "Const" then match args, const with [VInt z], None => Ok (Const z) | _, _ => Err TypeError end
  else if String.eqb f "Variable" then match args, const with [VText s], None => Ok (Var s) | _, _ => Err TypeError end
  else if String.eqb f "Parameter" then Err TypeError
  else if String.eqb f "Neg" then unary Neg
  else if String.eqb f "Abs" then unary Abs
  else if String.eqb f "Not" then unary Not
  else if String.eqb f "Sum" then accumulation KSum
  else if String.eqb f "Prod" then accumulation KProd
  else match binop_of f with
       | Some o =>
           match args, const with
           | [l; r], None => let! l := coerce_val l in let! r := coerce_val r in Ok (Bin o l r)
           | _, _ => Err TypeError
           end
       | None => Err NameError
       end.

Fixpoint eval (t : pytree) : res pyval :=
  match t with
  | TInt z => Ok (VInt z)
  | TText s => Ok (VText s)
  | TCall f args const =>
      let! vs := (fix go (l : list pytree) : res (list pyval) :=
                    match l with
                    | [] => Ok []
                    | t1 :: l' => let! v := eval t1 in let! vs := go l' in Ok (v :: vs)
                    end) args in
      let! e := call f vs const in
      Ok (VExpr e)
  end.
