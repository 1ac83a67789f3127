(** Remaining lemmas behind Properties_Text.v. *)
From Verif Require Import Py Expr PyText SpecFormula SpecSafe CompileFacts SafeFacts ParseFacts.
Open Scope string_scope.
Open Scope Z_scope.

Lemma or_and_refuted : exists ps s f e v w,
  build f = Ok (OExpr e) /\ f = FBin UAnd (FBin UOr (FVar "a") (FVar "b")) (FVar "c") /\
  evaluate ps s e = Ok v /\ call_code (as_function ps e) s = Ok w /\ truthy v <> truthy w.
Proof.
  exists (fun _ => 0), [("a", 1); ("b", 0); ("c", 0)]. do 4 eexists.
  split; [|split; [reflexivity|]]; [reflexivity|]. vm_compute. repeat split. discriminate.
Qed.

Lemma abs_and_refuted : exists ps s f e v w,
  build f = Ok (OExpr e) /\ f = FAbs (FBin UAnd (FVar "x") (FInt 2)) /\
  evaluate ps s e = Ok v /\ call_code (as_function ps e) s = Ok w /\ truthy v <> truthy w.
Proof.
  exists (fun _ => 0), [("x", 1)]. do 4 eexists.
  split; [|split; [reflexivity|]]; [reflexivity|]. vm_compute. repeat split. discriminate.
Qed.

Lemma pow_neg_refuted : exists ps s f e v w,
  build f = Ok (OExpr e) /\ f = FBin UPow (FNeg (FVar "x")) (FInt 2) /\
  evaluate ps s e = Ok v /\ call_code (as_function ps e) s = Ok w /\ v <> w.
Proof.
  exists (fun _ => 0), [("x", 3)]. do 4 eexists.
  split; [|split; [reflexivity|]]; [reflexivity|]. vm_compute. repeat split. discriminate.
Qed.

Lemma not_eq_refuted : exists ps s e v w,
  e = Bin OEq (Not (Var "x")) (Var "y") /\
  evaluate ps s e = Ok v /\ call_code (as_function ps e) s = Ok w /\ truthy v <> truthy w.
Proof.
  exists (fun _ => 0), [("x", 0); ("y", 2)]. do 3 eexists.
  split; [reflexivity|]. vm_compute. repeat split. discriminate.
Qed.

Lemma fallback_refuted : exists ps s e v ex,
  compile ps e = Err ex /\ evaluate ps s e = Ok v /\ call_code (as_function ps e) s = Err TypeError.
Proof.
  exists (fun _ => 0), [("x", 0); ("y", 1)], (Bin OEq (Var "x") (Not (Var "y"))).
  do 2 eexists. vm_compute. repeat split.
Qed.

Lemma keyword_refuted : exists ps s f e v ex,
  f = FBin UEq (FVar "in") (FInt 1) /\ build f = Ok (OExpr e) /\
  compile ps e = Err ex /\ evaluate ps s e = Ok v /\ call_code (as_function ps e) s = Err TypeError.
Proof.
  exists (fun _ => 0), [("in", 1)]. do 4 eexists. split; [reflexivity|]. split; [reflexivity|].
  vm_compute. repeat split.
Qed.

Lemma safe_compiles ps e :
  safe e = true -> exists args body, as_function ps e = Compiled args body.
Proof. intros H. unfold as_function. rewrite (compile_safe ps e H). eauto. Qed.
