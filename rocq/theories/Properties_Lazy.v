(** Property theorems about compiled evaluations that raise (C72). *)
From Verif Require Import Py Expr PyText SpecFormula SpecSafe SpecLazy ExprFacts LazyFacts.
Open Scope string_scope.
Open Scope list_scope.
Open Scope Z_scope.

(** C72: a compiled expression of the safe class evaluates from left to right, raising what
    the first failing operation raises, except that [&] and [|] skip their second operand
    when the first one decides. *)
Theorem C72_short_circuit : forall ps s e,
  safe e = true -> (forall x, occurs x e -> dmem s x = true) ->
  call_code (as_function ps e) s = lazy ps s e.
Proof. exact compiled_lazy. Qed.
Print Assumptions C72_short_circuit.

(** [(x != 0) & (10 / x > 2) | (1 % y == 0)]: the division by [x] is skipped, then [1 % y]
    raises. *)
Example C72_case :
  let e := Bin OOr (Bin OAnd (Bin ONe (Var "x") (Const 0)) (Bin OGt (Bin ODiv (Const 10) (Var "x")) (Const 2)))
                   (Bin OEq (Bin OMod (Const 1) (Var "y")) (Const 0)) in
  safe e = true /\ (forall x, occurs x e -> dmem [("x", 0); ("y", 1)] x = true) /\
  call_code (as_function (fun _ => 0) e) [("x", 0); ("y", 1)] = Ok 1 /\
  evaluate (fun _ => 0) [("x", 0); ("y", 1)] e = Err ZeroDivisionError /\
  call_code (as_function (fun _ => 0) e) [("x", 0); ("y", 0)] = Err ZeroDivisionError.
Proof.
  intros e. split; [reflexivity|]. split.
  - intros x Hx. apply vars_occurs in Hx. vm_compute in Hx. decompose [or] Hx; subst; try contradiction; reflexivity.
  - repeat split; vm_compute; reflexivity.
Qed.

(** Without [&] and [|] the compiled function returns or raises exactly what [evaluate] does. *)
Theorem C72_errors : forall ps s e,
  safe e = true -> no_logic e = true -> (forall x, occurs x e -> dmem s x = true) ->
  call_code (as_function ps e) s = evaluate ps s e.
Proof. exact compiled_errors. Qed.
Print Assumptions C72_errors.

(** [sum([x, 10 % y, 2 ** (-x)])]: the first operation that fails decides. *)
Example C72_errors_case :
  let e := Sum [Var "x"; Bin OMod (Const 10) (Var "y"); Bin OPow (Const 2) (Var "z")] 5 in
  safe e = true /\ no_logic e = true /\
  evaluate (fun _ => 0) [("x", 1); ("y", 0); ("z", -1)] e = Err ZeroDivisionError /\
  call_code (as_function (fun _ => 0) e) [("x", 1); ("y", 0); ("z", -1)] = Err ZeroDivisionError /\
  evaluate (fun _ => 0) [("x", 1); ("y", 4); ("z", 3)] e = Ok 16.
Proof. repeat split; vm_compute; reflexivity. Qed.

(** With [&] it need not: [(x != 0) & (10 / x > 2)] at [x = 0] raises when interpreted and is
    false when compiled. *)
Theorem C72_interpreted_raises : exists ps s e, safe e = true /\ (forall x, occurs x e -> dmem s x = true) /\
  evaluate ps s e = Err ZeroDivisionError /\ call_code (as_function ps e) s = Ok 0.
Proof. exact short_circuit. Qed.
Print Assumptions C72_interpreted_raises.

(** A variable missing from the keyword arguments is a TypeError, needed or not. *)
Theorem C72_missing : forall ps s e x, safe e = true -> occurs x e -> dmem s x = false ->
  call_code (as_function ps e) s = Err TypeError.
Proof. exact compiled_unbound. Qed.
Print Assumptions C72_missing.

Example C72_missing_case :
  let e := Bin OAnd (Const 0) (Bin OEq (Var "x") (Var "y")) in
  safe e = true /\ dmem [("x", 1)] "y" = false /\ call_code (as_function (fun _ => 0) e) [("x", 1)] = Err TypeError.
Proof. repeat split; vm_compute; reflexivity. Qed.
