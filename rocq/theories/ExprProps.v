(** Proofs of the statements collected in Properties_Expr.v. *)
From Verif Require Import Py Expr SpecFormula ExprFacts.

Lemma truthy_arith_logic u a b v :
  (u = UAnd \/ u = UOr) -> arith u a b = Some v ->
  truthy v = match u with UAnd => truthy a && truthy b | _ => truthy a || truthy b end.
Proof.
  intros [->| ->] H; simpl in H; inversion H; subst; unfold truthy; destruct (a =? 0) eqn:Ha;
    simpl; rewrite ?Ha; simpl; try reflexivity; destruct (b =? 0); reflexivity.
Qed.

Lemma neg_abs_ok ps s o v :
  oval ps s o = Ok v ->
  oval ps s (py_neg o) = Ok (- v) /\ oval ps s (py_abs o) = Ok (Z.abs v) /\
  oval ps s (py_pos o) = Ok v.
Proof.
  destruct o; simpl; intros H; [inversion H; subst; auto|]. rewrite H. simpl; auto.
Qed.

Lemma equals_refl e : equals e e = true.
Proof.
  unfold equals.
  assert (Hc : same_class e e = true) by (destruct e; try reflexivity; destruct o; reflexivity).
  rewrite Hc.
  assert (Hel : forall es, Nat.eqb (length es) (length es) &&
      forallb (fun '(x, y) => elem_eq_truth x y) (combine es es) = true).
  { intros es. rewrite Nat.eqb_refl. simpl. induction es as [|a es IH]; [reflexivity|].
    simpl. rewrite IH, andb_true_r. unfold elem_eq_truth. simpl.
    destruct a; simpl; try reflexivity. rewrite Z.eqb_refl. reflexivity. }
  rewrite andb_true_l. destruct e; try apply Z.eqb_refl; try apply String.eqb_refl; apply Hel.
Qed.

Lemma equals_atoms a b ps s :
  (match a with Const _ | Var _ => True | _ => False end) ->
  equals a b = true -> evaluate ps s a = evaluate ps s b.
Proof.
  destruct a, b; simpl; try contradiction; try discriminate; intros _ H.
  - apply Z.eqb_eq in H. now subst.
  - apply String.eqb_eq in H. now subst.
Qed.

Lemma arith_ok ps s u a b va vb v o :
  In u [UAdd; USub; UMul; UDiv; UFloorDiv; UMod; UPow] ->
  oval ps s a = Ok va -> oval ps s b = Ok vb -> arith u va vb = Some v ->
  py_op u a b = Ok o -> oval ps s o = Ok v.
Proof.
  intros Hu Ha Hb Hv Ho. apply (py_op_ok ps s u a b va vb v o Ha Hb Hv Ho).
  simpl in Hu. destruct u; try exact I; intuition discriminate.
Qed.

Lemma compare_ok ps s u a b va vb v o :
  In u [UEq; UNe; ULt; ULe; UGt; UGe] ->
  oval ps s a = Ok va -> oval ps s b = Ok vb -> arith u va vb = Some v ->
  py_op u a b = Ok o -> oval ps s o = Ok v.
Proof.
  intros Hu Ha Hb Hv Ho. apply (py_op_ok ps s u a b va vb v o Ha Hb Hv Ho).
  simpl in Hu. destruct u; try exact I; intuition discriminate.
Qed.

Lemma logic_ok ps s u a b va vb v o :
  (u = UAnd \/ u = UOr) -> is_int a && is_int b = false ->
  oval ps s a = Ok va -> oval ps s b = Ok vb -> arith u va vb = Some v ->
  py_op u a b = Ok o ->
  oval ps s o = Ok v /\
  truthy v = match u with UAnd => truthy va && truthy vb | _ => truthy va || truthy vb end.
Proof.
  intros Hu Hi Ha Hb Hv Ho. split.
  - apply (py_op_ok ps s u a b va vb v o Ha Hb Hv Ho). destruct u; auto.
  - now apply truthy_arith_logic.
Qed.

Lemma collapsed_logic :
  exists f g of og o ps s vf vg,
    build f = Ok of /\ build g = Ok og /\ oval ps s of = Ok vf /\ oval ps s og = Ok vg /\
    truthy vf && truthy vg = true /\ build (FBin UAnd f g) = Ok o /\ oval ps s o = Ok 0.
Proof.
  (* [x * (0 * x) == y * (0 * y)]: both sides are simplified to Const(0) *)
  exists (FBin UEq (FBin UMul (FInt 0) (FVar "x")) (FBin UMul (FInt 0) (FVar "y"))).
  exists (FInt 2). do 3 eexists. exists (fun _ => 0), []. do 2 eexists.
  repeat split; vm_compute; reflexivity.
Qed.

Lemma vars_spec ps e :
  NoDup (vars e) /\
  (forall x, In x (vars e) <-> occurs x e) /\
  (forall s, (forall x, In x (vars e) -> dget s x <> None) -> evaluate ps s e <> Err EvaluationError) /\
  (forall s s', (forall x, In x (vars e) -> dget s x = dget s' x) -> evaluate ps s e = evaluate ps s' e).
Proof.
  split; [apply vars_NoDup|]. split; [intros x; apply vars_occurs|]. split.
  - intros s H. apply evaluate_bound. intros x Hx. apply H. now apply vars_occurs.
  - intros s s' H. apply evaluate_agree. intros x Hx. apply H. now apply vars_occurs.
Qed.

Lemma build_vars f o x :
  build f = Ok o -> In x (match o with OInt _ => [] | OExpr e => vars e end) -> In x (fvars f).
Proof.
  intros Hb Hx. apply (build_occurs x f o Hb). destruct o; simpl in *; [contradiction|].
  now apply vars_occurs.
Qed.

Lemma equals_wrong :
  exists a b ps s, equals a b = true /\ evaluate ps s a = Ok 3 /\ evaluate ps s b = Ok 7.
Proof.
  exists (Bin OAdd (Var "x") (Var "y")), (Bin OAdd (Var "z") (Var "w")), (fun _ => 0).
  exists [("x", 1); ("y", 2); ("z", 3); ("w", 4)]%string.
  repeat split; vm_compute; reflexivity.
Qed.

Lemma expr_div_int ps s e n v :
  evaluate ps s e = Ok v -> n <> 0 ->
  exists o, py_op UDiv (OExpr e) (OInt n) = Ok o /\ oval ps s o = Ok (v / n).
Proof.
  intros He Hn.
  assert (Ha : arith UDiv v n = Some (v / n)).
  { simpl. now rewrite (proj2 (Z.eqb_neq n 0) Hn). }
  destruct (py_op_total ps s UDiv (OExpr e) (OInt n) v n _ He eq_refl Ha eq_refl) as (o & Ho).
  exists o. split; [assumption|].
  exact (py_op_ok ps s UDiv (OExpr e) (OInt n) v n _ o He eq_refl Ha Ho I).
Qed.
