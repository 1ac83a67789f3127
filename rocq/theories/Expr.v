(** Model of src/satisfy/expression.py: expression classes, operator
    overloading, the simplifier, [vars], [evaluate], [equals].
    Printing and compilation are in PyText.v. *)
From Verif Require Export Py.

(** Concrete BinOp subclasses, expression.py:484-604. *)
Inductive binop : Type :=
| OAdd | OMul | OSub | ODiv | OMod | OPow
| OEq | ONe | OLt | OLe | OGt | OGe | OAnd | OOr.

(** Expression objects.
    - [Const]     expression.py:201-310
    - [Var]       expression.py:734-766 (class Variable)
    - [Param]     expression.py:769-792; [p] is the object identity, used to look
                  up the mutable [_value]; [x] is the name
    - [Neg]/[Abs] expression.py:433-452, [Not] 607-618
    - [Bin]       expression.py:455-604
    - [Sum]/[Prod] expression.py:621-731; [c] is [_const]
    Simplification: constants are ints (bools are identified with 0/1). *)
Inductive expr : Type :=
| Const (z : Z)
| Var (x : name)
| Param (p : nat) (x : name)
| Neg (e : expr)
| Abs (e : expr)
| Not (e : expr)
| Bin (o : binop) (l r : expr)
| Sum (es : list expr) (c : Z)
| Prod (es : list expr) (c : Z).

(** Values of the Parameter objects, by identity. *)
Definition pstore := nat -> Z.

(** [_op] methods, expression.py:488-601.  [and]/[or] return one of the operands. *)
Definition bin_op (o : binop) (a b : Z) : res Z :=
  match o with
  | OAdd => Ok (a + b)
  | OMul => Ok (a * b)
  | OSub => Ok (a - b)
  | ODiv => py_floordiv a b
  | OMod => py_mod a b
  | OPow => py_pow a b
  | OEq => Ok (b2z (a =? b))
  | ONe => Ok (b2z (negb (a =? b)))
  | OLt => Ok (b2z (a <? b))
  | OLe => Ok (b2z (a <=? b))
  | OGt => Ok (b2z (b <? a))
  | OGe => Ok (b2z (b <=? a))
  | OAnd => Ok (if truthy a then b else a)
  | OOr => Ok (if truthy a then a else b)
  end.

(** [evaluate], expression.py:215 (Const), 751 (Variable), 788 (Parameter),
    434/445/611 (UnOps), 474 (BinOp: both operands are evaluated first),
    667 (Accumulation: [sum]/[prod] over the evaluated elements, from [_const]). *)
Fixpoint evaluate (ps : pstore) (s : subst) (e : expr) {struct e} : res Z :=
  match e with
  | Const z => Ok z
  | Var x => match dget s x with Some v => Ok v | None => Err EvaluationError end
  | Param p _ => Ok (ps p)
  | Neg e1 => let! v := evaluate ps s e1 in Ok (- v)
  | Abs e1 => let! v := evaluate ps s e1 in Ok (Z.abs v)
  | Not e1 => let! v := evaluate ps s e1 in Ok (b2z (negb (truthy v)))
  | Bin o l r =>
      let! a := evaluate ps s l in
      let! b := evaluate ps s r in
      bin_op o a b
  | Sum es c =>
      (fix go (l : list expr) (acc : Z) : res Z :=
         match l with
         | [] => Ok acc
         | e1 :: l' => let! v := evaluate ps s e1 in go l' (acc + v)
         end) es c
  | Prod es c =>
      (fix go (l : list expr) (acc : Z) : res Z :=
         match l with
         | [] => Ok acc
         | e1 :: l' => let! v := evaluate ps s e1 in go l' (acc * v)
         end) es c
  end.

(** [vars()], expression.py:33, 205, 321-326 (Collection caches the names in order
    of first occurrence), 747 (Variable), 785 (Parameter: none). *)
Fixpoint vars (e : expr) : list name :=
  match e with
  | Const _ => []
  | Var x => [x]
  | Param _ _ => []
  | Neg e1 | Abs e1 | Not e1 => dedup (vars e1)
  | Bin _ l r => dedup (vars l ++ vars r)
  | Sum es _ | Prod es _ => dedup (flat_map vars es)
  end.

(** [free_vars(substitution)], expression.py:205, 344, 422 (UnOp delegates to its
    operand), 747, 782 (Parameter.free_vars takes no argument, so the call made by
    UnOp.free_vars raises TypeError). *)
Fixpoint free_vars (s : subst) (e : expr) : res (list name) :=
  match e with
  | Const _ => Ok []
  | Var x => Ok (if dmem s x then [] else [x])
  | Param _ _ => Err TypeError
  | Neg e1 | Abs e1 | Not e1 => free_vars s e1
  | Bin _ _ _ | Sum _ _ | Prod _ _ => Ok (filter (fun x => negb (dmem s x)) (vars e))
  end.

(** ** Sum / Prod *)

Inductive acckind : Type := KSum | KProd.

(** [__neutral_element__], [__absorbing_element__] (None for Sum), [op]. *)
Definition neutral (k : acckind) : Z := match k with KSum => 0 | KProd => 1 end.
Definition absorbs (k : acckind) (v : Z) : bool :=
  match k with KSum => false | KProd => v =? 0 end.
Definition acc_op (k : acckind) (a b : Z) : Z :=
  match k with KSum => a + b | KProd => a * b end.
Definition mk_acc (k : acckind) (es : list expr) (c : Z) : expr :=
  match k with KSum => Sum es c | KProd => Prod es c end.

(** [_has_same_type]: the elements and constant if [e] is an accumulation of kind [k]. *)
Definition as_acc (k : acckind) (e : expr) : option (list expr * Z) :=
  match k, e with
  | KSum, Sum es c => Some (es, c)
  | KProd, Prod es c => Some (es, c)
  | _, _ => None
  end.
(** [isinstance(expression, Accumulation) and len(expression) == 0]. *)
Definition as_empty_acc (e : expr) : option Z :=
  match e with Sum [] c => Some c | Prod [] c => Some c | _ => None end.

(** Loop of [Accumulation.__init__], expression.py:631-654; returns (const, elist). *)
Fixpoint acc_loop (k : acckind) (es : list expr) (const : Z) (elist : list expr)
  : Z * list expr :=
  match es with
  | [] => (const, elist)
  | e :: rest =>
      match e with
      | Const v =>
          if v =? neutral k then acc_loop k rest const elist
          else if absorbs k v then (0, [])
          else acc_loop k rest (acc_op k const v) elist
      | _ =>
          match as_empty_acc e with
          | Some c => acc_loop k rest (acc_op k const c) elist
          | None =>
              match as_acc k e with
              | Some (es', c) =>
                  if absorbs k c then (0, [])
                  else acc_loop k rest
                         (if c =? neutral k then const else acc_op k const c)
                         (elist ++ es')
              | None => acc_loop k rest const (elist ++ [e])
              end
          end
      end
  end.

(** [Sum(expressions, const)] / [Prod(...)], expression.py:625-656. *)
Definition acc_init (k : acckind) (es : list expr) (const : Z) : expr :=
  let '(c, elist) := acc_loop k es const [] in mk_acc k elist c.

(** ** Operands of overloaded operators: Python ints or Expression objects. *)
Inductive operand : Type :=
| OInt (n : Z)
| OExpr (e : expr).

(** [Expression.coerce], expression.py:47-52. *)
Definition coerce (o : operand) : expr :=
  match o with OInt n => Const n | OExpr e => e end.

(** [isinstance(other, Const)] and its value. *)
Definition as_const (o : operand) : option Z :=
  match o with OExpr (Const v) => Some v | _ => None end.

(** First loop of [_make_accumulate], expression.py:362-367. *)
Definition expand (k : acckind) (o : operand) : list expr :=
  match k, o with
  | KSum, OExpr (Bin OAdd l r) => [l; r]
  | KProd, OExpr (Bin OMul l r) => [l; r]
  | _, _ => [coerce o]
  end.

(** Second loop of [_make_accumulate], expression.py:368-392. *)
Fixpoint macc_loop (k : acckind) (es : list expr) (const : Z) (elist : list expr)
  : Z * list expr :=
  match es with
  | [] => (const, elist)
  | e :: rest =>
      match e with
      | Const v =>
          if v =? neutral k then macc_loop k rest const elist
          else if absorbs k v then (0, [])
          else let const' := acc_op k const v in
               if absorbs k const' then (const', [])
               else macc_loop k rest const' elist
      | _ =>
          match as_acc k e with
          | Some ([], c) => macc_loop k rest (acc_op k const c) elist
          | Some (es', c) =>
              if c =? neutral k then macc_loop k rest const (elist ++ es')
              else let const' := acc_op k const c in
                   if absorbs k const' then (const', [])
                   else macc_loop k rest const' (elist ++ es')
          | None => macc_loop k rest const (elist ++ [e])
          end
      end
  end.

Definition acc_binop (k : acckind) : binop :=
  match k with KSum => OAdd | KProd => OMul end.

(** [_make_accumulate], expression.py:360-407, for the two-element calls made by
    [_make_prod]/[_make_sum] (410-415).  [const is neutral_element] is modelled as
    integer equality (0 and 1 are cached by CPython). *)
Definition make_acc (k : acckind) (l r : operand) : expr :=
  let '(const, elist) := macc_loop k (expand k l ++ expand k r) (neutral k) [] in
  match elist with
  | [] => Const const
  | [e] => if const =? neutral k then e else Bin (acc_binop k) (Const const) e
  | [e1; e2] =>
      if const =? neutral k then Bin (acc_binop k) e1 e2 else acc_init k elist const
  | _ => if const =? neutral k then acc_init k elist (neutral k)
         else acc_init k elist const
  end.

(** ** Operator methods.  [l] is [self]. *)

(** [__add__], expression.py:89-92 and 227-233. *)
Definition expr_add (l : expr) (r : operand) : res operand :=
  match l with
  | Const v =>
      if v =? 0 then Ok (OExpr (coerce r))
      else match as_const r with
           | Some w => Ok (OExpr (Const (v + w)))
           | None => Ok (OExpr (make_acc KSum (OExpr l) r))
           end
  | _ =>
      match as_const r with
      | Some w => if w =? 0 then Ok (OExpr l)
                  else Ok (OExpr (make_acc KSum (OExpr l) r))
      | None => Ok (OExpr (make_acc KSum (OExpr l) r))
      end
  end.

(** [__sub__], expression.py:94-97 and 235-241. *)
Definition expr_sub (l : expr) (r : operand) : res operand :=
  match l with
  | Const v =>
      if v =? 0 then Ok (OExpr (Neg (coerce r)))
      else match as_const r with
           | Some w => Ok (OExpr (Const (v - w)))
           | None => Ok (OExpr (Bin OSub l (coerce r)))
           end
  | _ =>
      match as_const r with
      | Some w => if w =? 0 then Ok (OExpr l) else Ok (OExpr (Bin OSub l (coerce r)))
      | None => Ok (OExpr (Bin OSub l (coerce r)))
      end
  end.

(** [__mul__], expression.py:99-105 and 243-250. *)
Definition expr_mul (l : expr) (r : operand) : res operand :=
  match l with
  | Const v =>
      if v =? 0 then Ok (OExpr l)
      else if v =? 1 then Ok (OExpr (coerce r))
      else match as_const r with
           | Some w => Ok (OExpr (Const (v * w)))
           | None => Ok (OExpr (make_acc KProd (OExpr l) r))
           end
  | _ =>
      match as_const r with
      | Some w => if w =? 0 then Ok (OExpr (Const w))
                  else if w =? 1 then Ok (OExpr l)
                  else Ok (OExpr (make_acc KProd (OExpr l) r))
      | None => Ok (OExpr (make_acc KProd (OExpr l) r))
      end
  end.

(** [__truediv__]/[__div__], expression.py:107-111, 124-125 and 252-258. *)
Definition expr_div (l : expr) (r : operand) : res operand :=
  match l with
  | Const v =>
      if v =? 0 then Ok (OExpr l)
      else match as_const r with
           | Some w => let! q := py_floordiv v w in Ok (OExpr (Const q))
           | None => Ok (OExpr (Bin ODiv l (coerce r)))
           end
  | _ =>
      match as_const r with
      | Some w => if w =? 1 then Ok (OExpr l) else Ok (OExpr (Bin ODiv l (coerce r)))
      | None => Ok (OExpr (Bin ODiv l (coerce r)))
      end
  end.

(** [__mod__], expression.py:113-114 and 267-270. *)
Definition expr_mod (l : expr) (r : operand) : res operand :=
  match l, as_const r with
  | Const v, Some w => let! q := py_mod v w in Ok (OExpr (Const q))
  | _, _ => Ok (OExpr (Bin OMod l (coerce r)))
  end.

(** [__pow__], expression.py:116-122 and 260-265. *)
Definition expr_pow (l : expr) (r : operand) : res operand :=
  match l with
  | Const v =>
      if v =? 1 then Ok (OExpr l)
      else match as_const r with
           | Some w => let! q := py_pow v w in Ok (OExpr (Const q))
           | None => Ok (OExpr (Bin OPow l (coerce r)))
           end
  | _ =>
      match as_const r with
      | Some w => if w =? 0 then Ok (OExpr (Const 1))
                  else if w =? 1 then Ok (OExpr l)
                  else Ok (OExpr (Bin OPow l (coerce r)))
      | None => Ok (OExpr (Bin OPow l (coerce r)))
      end
  end.

(** Comparison methods [__eq__] ... [__ge__], expression.py:127-143 and 272-300:
    two Consts give a Python int, anything else a BinOp. *)
Definition expr_cmp (o : binop) (l : expr) (r : operand) : res operand :=
  match l, as_const r with
  | Const v, Some w => let! b := bin_op o v w in Ok (OInt b)
  | _, _ => Ok (OExpr (Bin o l (coerce r)))
  end.

(** [__and__]/[__or__], expression.py:145-149 and 302-310. *)
Definition expr_logic (o : binop) (l : expr) (r : operand) : res operand :=
  match l, as_const r with
  | Const v, Some w => let! b := bin_op o v w in Ok (OInt b)
  | _, _ => Ok (OExpr (Bin o l (coerce r)))
  end.

(** Reflected comparison used by Python when the left operand is an int, or when
    the right operand's class is a proper subclass of the left one's
    (Variable op Parameter). *)
Definition swap_cmp (o : binop) : binop :=
  match o with OLt => OGt | OGt => OLt | OLe => OGe | OGe => OLe | o' => o' end.

Definition is_var_param (l r : expr) : bool :=
  match l, r with Var _, Param _ _ => true | _, _ => false end.

(** ** Python's binary operators on operands (dispatch rules of the language). *)

Inductive uop : Type :=
| UAdd | USub | UMul | UDiv | UFloorDiv | UMod | UPow
| UEq | UNe | ULt | ULe | UGt | UGe | UAnd | UOr.

Definition cmp_of (u : uop) : option binop :=
  match u with
  | UEq => Some OEq | UNe => Some ONe | ULt => Some OLt | ULe => Some OLe
  | UGt => Some OGt | UGe => Some OGe | _ => None
  end.

(** Both operands are Python ints: ordinary Python.  Bitwise [&] and [|];
    true division gives a float. *)
Definition int_op (u : uop) (a b : Z) : res operand :=
  match u with
  | UAdd => Ok (OInt (a + b))
  | USub => Ok (OInt (a - b))
  | UMul => Ok (OInt (a * b))
  | UDiv => if b =? 0 then Err ZeroDivisionError else Err FloatResult
  | UFloorDiv => let! q := py_floordiv a b in Ok (OInt q)
  | UMod => let! q := py_mod a b in Ok (OInt q)
  | UPow => let! q := py_pow a b in Ok (OInt q)
  | UEq => Ok (OInt (b2z (a =? b)))
  | UNe => Ok (OInt (b2z (negb (a =? b))))
  | ULt => Ok (OInt (b2z (a <? b)))
  | ULe => Ok (OInt (b2z (a <=? b)))
  | UGt => Ok (OInt (b2z (b <? a)))
  | UGe => Ok (OInt (b2z (b <=? a)))
  | UAnd => Ok (OInt (Z.land a b))
  | UOr => Ok (OInt (Z.lor a b))
  end.

(** The left operand is an Expression: its own method is tried first, except for
    comparisons of a Variable with a Parameter (subclass priority rule). *)
Definition expr_op (u : uop) (l : expr) (r : operand) : res operand :=
  match u with
  | UAdd => expr_add l r
  | USub => expr_sub l r
  | UMul => expr_mul l r
  | UDiv => expr_div l r
  | UFloorDiv => Err TypeError          (* no __floordiv__ *)
  | UMod => expr_mod l r
  | UPow => expr_pow l r
  | UAnd => expr_logic OAnd l r
  | UOr => expr_logic OOr l r
  | _ =>
      match cmp_of u with
      | Some o =>
          match r with
          | OExpr re => if is_var_param l re
                        then expr_cmp (swap_cmp o) re (OExpr l)
                        else expr_cmp o l r
          | OInt _ => expr_cmp o l r
          end
      | None => Err TypeError
      end
  end.

(** int on the left, Expression on the right: reflected methods,
    expression.py:155-198.  [__rtruediv__] (167-168) evaluates
    [self.coerce(other) // self] and Expression has no [__floordiv__], so it raises
    TypeError.  Comparisons use the swapped method of the right operand
    (the [__rlt__]... methods of lines 176-192 are never called by Python). *)
Definition int_expr_op (u : uop) (n : Z) (r : expr) : res operand :=
  match u with
  | UAdd => expr_add (Const n) (OExpr r)
  | USub => expr_sub (Const n) (OExpr r)
  | UMul => expr_mul (Const n) (OExpr r)
  | UDiv => Err TypeError
  | UFloorDiv => Err TypeError
  | UMod => expr_mod (Const n) (OExpr r)
  | UPow => expr_pow (Const n) (OExpr r)
  | UAnd => Ok (OExpr (Bin OAnd (Const n) r))
  | UOr => Ok (OExpr (Bin OOr (Const n) r))
  | _ => match cmp_of u with
         | Some o => expr_cmp (swap_cmp o) r (OInt n)
         | None => Err TypeError
         end
  end.

Definition py_op (u : uop) (a b : operand) : res operand :=
  match a, b with
  | OInt x, OInt y => int_op u x y
  | OExpr l, _ => expr_op u l b
  | OInt x, OExpr r => int_expr_op u x r
  end.

(** Unary operators [-], [+], [abs], expression.py:79-86. *)
Definition py_neg (a : operand) : operand :=
  match a with OInt n => OInt (- n) | OExpr e => OExpr (Neg e) end.
Definition py_pos (a : operand) : operand := a.
Definition py_abs (a : operand) : operand :=
  match a with OInt n => OInt (Z.abs n) | OExpr e => OExpr (Abs e) end.

(** Truth value of an operand ([bool(x)], [if x], [not x]): ints as usual; an
    Expression has no [__bool__], so Collections use [__len__]
    (expression.py:338) and the other classes are always true. *)
Definition py_bool (o : operand) : bool :=
  match o with
  | OInt n => truthy n
  | OExpr e =>
      match e with
      | Sum es _ | Prod es _ => negb (Nat.eqb (length es) 0)
      | _ => true
      end
  end.

(** [equals], expression.py:208, 332, 740.  Collection.equals compares elements
    with [==], i.e. builds Eq objects (or ints for two Consts) and takes their
    truth value. *)
Definition same_class (a b : expr) : bool :=
  match a, b with
  | Const _, Const _ | Var _, Var _ | Param _ _, Param _ _
  | Neg _, Neg _ | Abs _, Abs _ | Not _, Not _
  | Sum _ _, Sum _ _ | Prod _ _, Prod _ _ => true
  | Bin o _ _, Bin o' _ _ =>
      match o, o' with
      | OAdd, OAdd | OMul, OMul | OSub, OSub | ODiv, ODiv | OMod, OMod | OPow, OPow
      | OEq, OEq | ONe, ONe | OLt, OLt | OLe, OLe | OGt, OGt | OGe, OGe
      | OAnd, OAnd | OOr, OOr => true
      | _, _ => false
      end
  | _, _ => false
  end.
Definition elements (e : expr) : list expr :=
  match e with
  | Const _ | Var _ | Param _ _ => []
  | Neg e1 | Abs e1 | Not e1 => [e1]
  | Bin _ l r => [l; r]
  | Sum es _ | Prod es _ => es
  end.
Definition elem_eq_truth (a b : expr) : bool :=
  match py_op UEq (OExpr a) (OExpr b) with Ok o => py_bool o | Err _ => false end.
Definition equals (a b : expr) : bool :=
  same_class a b &&
  match a, b with
  | Const v, Const w => v =? w
  | Var x, Var y => String.eqb x y
  | Param _ x, Param _ y => String.eqb x y
  | _, _ =>
      Nat.eqb (length (elements a)) (length (elements b)) &&
      forallb (fun '(x, y) => elem_eq_truth x y) (combine (elements a) (elements b))
  end.
