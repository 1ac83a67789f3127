(** Property theorems about what Python makes of the generated text (C80, C06, C57). *)
From Verif Require Import Py Expr PyText SpecFormula SpecSafe Solver SpecSolve SpecReading SpecSays SolverCases HistoryFacts ReadingFacts ReadingProps ReadingSolve.
Open Scope string_scope.
Open Scope list_scope.
Open Scope Z_scope.

(** C80: for every expression, faithful or not, the compiled function has the reading of
    [SpecReading] as its body and the variables as its arguments; when there is no reading
    the source does not compile. *)
Theorem C80_reading : forall ps e, readable e = true ->
  as_function ps e = match reading ps e with Some a => Compiled (vars e) a | None => Fallback end.
Proof. exact as_function_reading. Qed.
Print Assumptions C80_reading.

(** [(Not(a) | -b) ** (c | Not(Not(2)))] with parameters [b] and [c]: every unparenthesised form at once. *)
Example C80_reading_case :
  let ps := fun _ : nat => -3 in
  let e := Bin OPow (Bin OOr (Not (Var "a")) (Neg (Param 0 "b"))) (Bin OOr (Param 0 "c") (Not (Not (Const 2)))) in
  readable e = true /\
  py_source ps e = "lambda a, **__dummy_kwargs: ((not a or -(b) ** -3 or not not 2))" /\
  reading ps e = Some (AOr (AOr (ANot (AName "a")) (ANeg (ABin PPow (AName "b") (ANeg (ANum 3))))) (ANot (ANot (ANum 2)))).
Proof. repeat split; vm_compute; reflexivity. Qed.
Example C80_no_reading_case :
  let e := Abs (Bin OAdd (Var "x") (Not (Var "y"))) in
  readable e = true /\ py_expr (fun _ => 0) e = "abs((x + ^y))" /\ reading (fun _ => 0) e = None /\ as_function (fun _ => 0) e = Fallback.
Proof. repeat split; vm_compute; reflexivity. Qed.

(** Calling it with a substitution. *)
Theorem C80_call : forall ps s e, readable e = true ->
  call_code (as_function ps e) s =
  match reading ps e with
  | Some a => if forallb (fun x => dmem s x) (vars e) then aeval (filter (fun b => memb (fst b) (vars e)) s) a else Err TypeError
  | None => Err TypeError
  end.
Proof. exact call_reading. Qed.
Print Assumptions C80_call.

(** A parameter below a minus sign is printed as a name, which is not bound: NameError. *)
Example C80_call_case :
  let e := Bin OLt (Var "x") (Neg (Param 0 "p")) in
  readable e = true /\ evaluate (fun _ => 1) [("x", 2)] e = Ok 0 /\
  call_code (as_function (fun _ => 1) e) [("x", 2)] = Err NameError.
Proof. repeat split; vm_compute; reflexivity. Qed.

(** A disjunction as an operand: the operator takes only its neighbour.  [(a | b) o c] is
    compiled as [a | (b o c)], and [a o (b | c)] as [(a o b) | c]. *)
Theorem C80_disjunction_left : forall ps o a b c, o <> OOr ->
  readable a = true -> readable b = true -> readable c = true -> disjunction b = false -> disjunction c = false ->
  as_function ps (Bin o (Bin OOr a b) c) = as_function ps (Bin OOr a (Bin o b c)).
Proof. exact or_left. Qed.
Print Assumptions C80_disjunction_left.
Theorem C80_disjunction_right : forall ps o a b c, o <> OOr ->
  readable a = true -> readable b = true -> readable c = true -> disjunction a = false -> disjunction b = false ->
  as_function ps (Bin o a (Bin OOr b c)) = as_function ps (Bin OOr (Bin o a b) c).
Proof. exact or_right. Qed.
Print Assumptions C80_disjunction_right.

(** The two expressions differ, e.g. [(x | y) == z]. *)
Example C80_disjunction_case :
  let e := Bin OEq (Bin OOr (Var "x") (Var "y")) (Var "z") in
  let s := [("x", 1); ("y", 0); ("z", 5)] in
  readable e = true /\ evaluate (fun _ => 0) s e = Ok 0 /\ call_code (as_function (fun _ => 0) e) s = Ok 1 /\
  evaluate (fun _ => 0) s (Bin OOr (Var "x") (Bin OEq (Var "y") (Var "z"))) = Ok 1.
Proof. repeat split; vm_compute; reflexivity. Qed.

(** [Not] applies to as much as possible: [Not(a | b)] is compiled as [Not(a) | b] and
    [Not(a) o b] as [Not(a o b)]. *)
Theorem C80_not_disjunction : forall ps a b, readable a = true -> readable b = true ->
  as_function ps (Not (Bin OOr a b)) = as_function ps (Bin OOr (Not a) b).
Proof. exact not_or. Qed.
Print Assumptions C80_not_disjunction.
Theorem C80_not_operand : forall ps o a b, tight_op o = true ->
  readable a = true -> readable b = true -> disjunction a = false -> disjunction b = false ->
  as_function ps (Bin o (Not a) b) = as_function ps (Not (Bin o a b)).
Proof. exact not_tight. Qed.
Print Assumptions C80_not_operand.

Example C80_not_case :
  let s := [("x", 0); ("y", 1)] in
  evaluate (fun _ => 0) s (Not (Bin OOr (Var "x") (Var "y"))) = Ok 0 /\
  call_code (as_function (fun _ => 0) (Not (Bin OOr (Var "x") (Var "y")))) s = Ok 1 /\
  evaluate (fun _ => 0) s (Bin OSub (Not (Var "x")) (Var "y")) = Ok 0 /\
  call_code (as_function (fun _ => 0) (Bin OSub (Not (Var "x")) (Var "y"))) s = Ok 0 /\
  evaluate (fun _ => 0) s (Bin OAdd (Not (Var "x")) (Var "y")) = Ok 2 /\
  call_code (as_function (fun _ => 0) (Bin OAdd (Not (Var "x")) (Var "y"))) s = Ok 0.
Proof. repeat split; vm_compute; reflexivity. Qed.

(** [(-x) ** n] is compiled as [-(x ** n)]. *)
Theorem C80_negative_base : forall ps x n, name_ok x = true ->
  as_function ps (Bin OPow (Neg (Var x)) (Const n)) = as_function ps (Neg (Bin OPow (Var x) (Const n))).
Proof. exact negative_base. Qed.
Print Assumptions C80_negative_base.
Example C80_negative_base_case :
  call_code (as_function (fun _ => 0) (Bin OPow (Neg (Var "x")) (Const 2))) [("x", 3)] = Ok (-9).
Proof. vm_compute. reflexivity. Qed.

(** C06.  Exactly which expressions fall back: those with a [Not] below [-( )] or [abs( )],
    or at the beginning of the right operand of an operator other than [&] and [|]. *)
Theorem C06_fallback_iff : forall ps e, readable e = true -> (as_function ps e = Fallback <-> compiles e = false).
Proof. exact fallback_iff. Qed.
Print Assumptions C06_fallback_iff.

Example C06_fallback_iff_case :
  compiles (Bin OEq (Var "x") (Bin OOr (Not (Var "y")) (Var "z"))) = false /\
  compiles (Bin OEq (Bin OAnd (Var "x") (Not (Var "y"))) (Bin OOr (Var "z") (Not (Var "y")))) = true.
Proof. split; reflexivity. Qed.

(** In particular no formula written with Python's operators does: [Not] can only be built
    by calling its class ([__not__] is not a hook of Python). *)
Theorem C06_formula_compiles : forall ps f e, f_readable f = true -> build f = Ok (OExpr e) ->
  exists body, as_function ps e = Compiled (vars e) body.
Proof. exact formula_compiles. Qed.
Print Assumptions C06_formula_compiles.

(** [(x | -(y & 1)) ** 2 <= sum([x, 3, x / 2])]: misread, but compiled. *)
Example C06_formula_case :
  let f := FBin ULe (FBin UPow (FBin UOr (FVar "x") (FNeg (FBin UAnd (FVar "y") (FInt 1)))) (FInt 2))
                    (FSum [FVar "x"; FInt 3; FBin UDiv (FVar "x") (FInt 2)]) in
  f_readable f = true /\ exists e, build f = Ok (OExpr e) /\
  py_expr (fun _ => 0) e = "((x or -((y & 1)) ** 2) <= sum([3, x, (x // 2)]))".
Proof. split; [reflexivity|]. eexists. split; vm_compute; reflexivity. Qed.

(** C57, what holds instead for a compiling solver: the solutions are exactly the
    assignments that make the texts of the constraints true, as Python reads them,
    faithful or not. *)
Theorem C57_compiled : forall clk shuffle f e sv a ys e' r,
  let m := w_model (e_world e) in let cs := all_cons m a in
  valid shuffle e a -> s_compile sv = true -> all_readable cs ->
  solve_all clk shuffle f e sv a = Some (ys, e', r) ->
  (forall s, In s ys -> solves (says (w_par (e_world e))) m cs s) /\
  (unlimited sv a -> m_solvable m = true -> has_variable m -> groups_ok m cs -> no_text_error (w_par (e_world e)) m cs ->
   r = None /\ e_interrupt e' = None /\
   forall t, solves (says (w_par (e_world e))) m cs t -> exists s, In s ys /\ same_dict s t).
Proof. exact solutions_say. Qed.
Print Assumptions C57_compiled.

(** C06, what holds instead: a constraint over the variables whose text does not compile
    leaves no solution. *)
Theorem C06_no_solution : forall clk shuffle f e sv a ys e' r c x,
  let m := w_model (e_world e) in let cs := all_cons m a in
  valid shuffle e a -> s_compile sv = true -> all_readable cs ->
  In c cs -> concerns m c -> c_body c = CExpr x -> compiles x = false ->
  solve_all clk shuffle f e sv a = Some (ys, e', r) -> ys = [].
Proof. exact unreadable_no_solution. Qed.
Print Assumptions C06_no_solution.

(** [(x | y) == z] is solved as [x or y == z]. *)
Definition w_text (c : expr) : world :=
  run_history [AddInt [0; 1] (Some "x"); AddInt [0; 1] (Some "y"); AddInt [1; 2] (Some "z"); AddConstraint (AExpr c)] init_world.
Definition e_text (c : expr) : env := new_env (w_text c).
Example C57_compiled_case :
  let c := Bin OEq (Bin OOr (Var "x") (Var "y")) (Var "z") in
  let m := w_model (w_text c) in
  valid noshuffle (e_text c) no_args /\ s_compile (new_solver ORDERED LNone LNone true) = true /\ all_readable (all_cons m no_args) /\
  m_solvable m = true /\ has_variable m /\ groups_ok m (all_cons m no_args) /\
  view (solve_all clk0 noshuffle 200 (e_text c) (new_solver ORDERED LNone LNone true) no_args) =
    Some ([[("x", 0); ("y", 1); ("z", 1)]; [("x", 1); ("y", 0); ("z", 1)]; [("x", 1); ("y", 0); ("z", 2)];
           [("x", 1); ("y", 1); ("z", 1)]; [("x", 1); ("y", 1); ("z", 2)]], None).
Proof.
  cbn zeta.
  split; [|split; [reflexivity|split; [|split; [reflexivity|split; [|split]]]]].
  - apply valid_reachable with (B := fun _ => CExpr (Bin OEq (Bin OOr (Var "x") (Var "y")) (Var "z")))
      (h := [AddInt [0; 1] (Some "x"); AddInt [0; 1] (Some "y"); AddInt [1; 2] (Some "z");
             AddConstraint (AExpr (Bin OEq (Bin OOr (Var "x") (Var "y")) (Var "z")))]).
    + cbn [genuine]. repeat split; vm_compute; reflexivity.
    + reflexivity.
    + intros c [].
    + exact (proj1 small_valid).
  - intros c e0. vm_compute. intros [<-|[]] E. injection E as <-. reflexivity.
  - exists "x", [0; 1]. vm_compute. auto.
  - intros c xs. vm_compute. intros [<-|[]] E. discriminate.
  - vm_compute. reflexivity.
Qed.

(** [abs(Not(x)) == y] does not compile. *)
Example C06_no_solution_case :
  let c := Bin OEq (Abs (Not (Var "x"))) (Var "y") in
  compiles c = false /\ readable c = true /\
  view (solve_all clk0 noshuffle 200 (e_text c) (new_solver ORDERED LNone LNone true) no_args) = Some ([], Some TypeError) /\
  view (solve_all clk0 noshuffle 200 (e_text c) (new_solver ORDERED LNone LNone false) no_args) =
    Some ([[("x", 0); ("y", 1); ("z", 1)]; [("x", 0); ("y", 1); ("z", 2)]; [("x", 1); ("y", 0); ("z", 1)]; [("x", 1); ("y", 0); ("z", 2)]], None).
Proof. repeat split; vm_compute; reflexivity. Qed.
