(** Python's [and], [or], [not] and chained comparisons applied to operands.  These operators
    cannot be overloaded: they use the truth values of the objects ([py_bool], Expr.v).
    [__not__] (expression.py:151-152) is not a special method of Python and never called. *)
From Verif Require Export Expr.
Open Scope Z_scope.

(** [a and b], [a or b]; [b] is evaluated only if needed. *)
Definition py_and (a : operand) (b : res operand) : res operand := if py_bool a then b else Ok a.
Definition py_or (a : operand) (b : res operand) : res operand := if py_bool a then Ok a else b.
(** [not a]: a bool. *)
Definition py_not (a : operand) : operand := OInt (b2z (negb (py_bool a))).
(** [a u b u' c], which is [a u b and b u' c]. *)
Definition py_chain (u u' : uop) (a b c : operand) : res operand :=
  let! r := py_op u a b in py_and r (py_op u' b c).
