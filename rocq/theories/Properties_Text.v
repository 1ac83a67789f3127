(** Property theorems about compiled expressions (C05, C06). *)
From Verif Require Import Py Expr PyText SpecFormula SpecSafe CompileFacts CodeFacts SafeFacts TextProps.

(** C05, at the level of expression objects: on the safe fragment the compiled function
    called with the substitution as keyword arguments returns the interpreted value.
    Missing from the full statement: expressions outside the fragment (see the
    refutations below) and evaluations that raise. *)
Theorem C05_compiled_agrees_partial : forall ps s e v,
  safe e = true -> evaluate ps s e = Ok v -> call_code (as_function ps e) s = Ok v.
Proof. exact compiled_agrees. Qed.
Print Assumptions C05_compiled_agrees_partial.

(** A sum with a product, a parameter and a comparison; all values printed. *)
Example C05_case :
  let ps := fun _ : nat => -4 in
  let s := [("x", 3); ("y", 5); ("z", 0)]%string in
  let e := Bin OAnd (Bin OLt (Sum [Var "x"; Prod [Var "y"; Var "x"; Param 0 "p"] 2; Var "z"] (-7)) (Abs (Var "y")))
                    (Not (Bin OEq (Var "z") (Const 1))) in
  safe e = true /\ evaluate ps s e = Ok 1 /\ call_code (as_function ps e) s = Ok 1 /\
  py_source ps e = "lambda x, y, z, **__dummy_kwargs: (((sum([-7, x, prod([2, y, x, -4]), z]) < abs(y)) and not (z == 1)))"%string.
Proof. repeat split; vm_compute; reflexivity. Qed.

(** C05, at the level of formulas written by the user: for formulas of the safe class
    the compiled function computes the mathematical meaning of the formula. *)
Theorem C05_compiled_formula_partial : forall ps a s f e v,
  f_safe f = true -> build f = Ok (OExpr e) -> binds s a (fvars f) ->
  meaning ps a f = Some v -> call_code (as_function ps e) s = Ok v.
Proof. exact compiled_formula. Qed.
Print Assumptions C05_compiled_formula_partial.

(** [(2*x + y - 3 <= 10) & (x % 2 == 0)] *)
Example C05_formula_case :
  let f := FBin UAnd (FBin ULe (FBin USub (FBin UAdd (FBin UMul (FInt 2) (FVar "x")) (FVar "y")) (FInt 3)) (FInt 10))
                     (FBin UEq (FBin UMod (FVar "x") (FInt 2)) (FInt 0)) in
  f_safe f = true /\ meaning (fun _ => 0) (fun x => if String.eqb x "x" then 4 else 5) f = Some 1 /\
  exists e, build f = Ok (OExpr e) /\ call_code (as_function (fun _ => 0) e) [("x", 4); ("y", 5)]%string = Ok 1.
Proof.
  intros f. split; [reflexivity|]. split; [reflexivity|].
  eexists. split; [reflexivity|vm_compute; reflexivity].
Qed.

(** C05 fails for a conjunction one of whose sides is a disjunction:
    [(a | b) & c] is compiled as [a or b and c]. *)
Theorem C05_or_inside_and_refuted : exists ps s f e v w,
  build f = Ok (OExpr e) /\ f = FBin UAnd (FBin UOr (FVar "a") (FVar "b")) (FVar "c") /\
  evaluate ps s e = Ok v /\ call_code (as_function ps e) s = Ok w /\ truthy v <> truthy w.
Proof. exact or_and_refuted. Qed.
Print Assumptions C05_or_inside_and_refuted.

(** ... and for [-( )] / [abs( )] around a conjunction, whose text comes from [__str__]
    and contains the bitwise [&] instead of [and]. *)
Theorem C05_abs_of_and_refuted : exists ps s f e v w,
  build f = Ok (OExpr e) /\ f = FAbs (FBin UAnd (FVar "x") (FInt 2)) /\
  evaluate ps s e = Ok v /\ call_code (as_function ps e) s = Ok w /\ truthy v <> truthy w.
Proof. exact abs_and_refuted. Qed.
Print Assumptions C05_abs_of_and_refuted.

(** ... and for powers of a negated base: [(-x) ** 2] is compiled as [-(x) ** 2]. *)
Theorem C05_pow_of_neg_refuted : exists ps s f e v w,
  build f = Ok (OExpr e) /\ f = FBin UPow (FNeg (FVar "x")) (FInt 2) /\
  evaluate ps s e = Ok v /\ call_code (as_function ps e) s = Ok w /\ v <> w.
Proof. exact pow_neg_refuted. Qed.
Print Assumptions C05_pow_of_neg_refuted.

(** ... and for [not] on the left of a comparison: [Not(x) == y] is compiled as
    [not x == y]. *)
Theorem C05_not_inside_eq_refuted : exists ps s e v w,
  e = Bin OEq (Not (Var "x")) (Var "y") /\
  evaluate ps s e = Ok v /\ call_code (as_function ps e) s = Ok w /\ truthy v <> truthy w.
Proof. exact not_eq_refuted. Qed.
Print Assumptions C05_not_inside_eq_refuted.

(** C06.  When the generated source does not compile, the function returned cannot be
    called the way constraints call it: [x == Not(y)] evaluates but calling the fallback
    raises TypeError. *)
Theorem C06_fallback_refuted : exists ps s e v ex,
  compile ps e = Err ex /\ evaluate ps s e = Ok v /\ call_code (as_function ps e) s = Err TypeError.
Proof. exact fallback_refuted. Qed.
Print Assumptions C06_fallback_refuted.

(** The same for the plainest expression when the variable's name, which the model
    accepts, is a Python keyword. *)
Theorem C06_keyword_name_refuted : exists ps s f e v ex,
  f = FBin UEq (FVar "in") (FInt 1) /\ build f = Ok (OExpr e) /\
  compile ps e = Err ex /\ evaluate ps s e = Ok v /\ call_code (as_function ps e) s = Err TypeError.
Proof. exact keyword_refuted. Qed.
Print Assumptions C06_keyword_name_refuted.

(** And for every expression and every keyword of Python 3. *)
Theorem C06_keywords : forall ps e x, (forall y, occurs y e -> identifier y = true) -> In x reserved -> occurs x e -> as_function ps e = Fallback.
Proof. exact keyword_fallback. Qed.
Print Assumptions C06_keywords.

Example C06_keywords_case : let e := Bin OLt (Var "as") (Bin OAdd (Var "y") (Const 1)) in
  (forall y, occurs y e -> identifier y = true) /\ In "as"%string reserved /\ occurs "as" e /\ List.length reserved = 35%nat.
Proof.
  split; [|split; [cbn; auto 10|split; [constructor; constructor|reflexivity]]].
  intros y H. repeat match goal with H : occurs _ _ |- _ => inversion H; subst; clear H end; reflexivity.
Qed.

(** C06.  What does hold: on the safe fragment compilation never fails, so the fallback
    is never taken.  Missing: a working fallback. *)
Theorem C06_no_fallback_needed_partial : forall ps e,
  safe e = true -> exists args body, as_function ps e = Compiled args body.
Proof. exact safe_compiles. Qed.
Print Assumptions C06_no_fallback_needed_partial.

Example C06_case : safe (Bin OOr (Bin OGe (Var "x") (Const (-1))) (Not (Var "y"))) = true.
Proof. reflexivity. Qed.
