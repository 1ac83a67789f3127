(** Formulas of the safe class build safe expressions: the operators keep sums and
    products in a normal form that prints at least three values. *)
From Verif Require Import Dec PyText SpecFormula SpecSafe ExprFacts PyTextFacts CompileFacts.
Open Scope list_scope.
Open Scope Z_scope.

(** ** Generic facts about the accumulation loops *)

Section Loops.
Variable k : acckind.
Variables Q R : expr -> Prop.
Hypothesis QR : forall e, Q e -> (forall z, e <> Const z) -> as_acc k e = None -> R e.
Hypothesis QS : forall es c, Q (mk_acc k es c) -> Forall R es.

Lemma macc_loop_Forall es : forall const elist,
  Forall Q es -> Forall R elist -> Forall R (snd (macc_loop k es const elist)).
Proof.
  induction es as [|e es IH]; intros const elist HQ HR; [exact HR|].
  inversion HQ as [|? ? Hq HQ']; subst.
  assert (Hgen : (forall z, e <> Const z) ->
    Forall R (snd match as_acc k e with
          | Some ([], c) => macc_loop k es (acc_op k const c) elist
          | Some (es', c) =>
              if c =? neutral k then macc_loop k es const (elist ++ es')
              else if absorbs k (acc_op k const c) then (acc_op k const c, [])
                   else macc_loop k es (acc_op k const c) (elist ++ es')
          | None => macc_loop k es const (elist ++ [e])
          end)).
  { intros Hn. destruct (as_acc k e) as [[es' c]|] eqn:Ea.
    - apply as_acc_inv in Ea. subst e. specialize (QS _ _ Hq).
      assert (HR' : Forall R (elist ++ es')) by now apply Forall_app.
      destruct es' as [|e' es']; [apply IH; assumption|].
      destruct (c =? neutral k); [apply IH; assumption|].
      destruct (absorbs k (acc_op k const c)); [constructor|]. apply IH; assumption.
    - apply IH; [assumption|]. apply Forall_app. split; [assumption|]. constructor; [|constructor].
      now apply QR. }
  destruct e; try (apply Hgen; intros; discriminate).
  cbn [macc_loop]. destruct (z =? neutral k); [apply IH; assumption|].
  destruct (absorbs k z); [constructor|].
  destruct (absorbs k (acc_op k const z)); [constructor|]. apply IH; assumption.
Qed.
End Loops.

(** Elements of normal accumulations. *)
Definition elem_ok (k : acckind) (e : expr) : Prop :=
  (forall z, e <> Const z) /\ as_acc k e = None /\ as_empty_acc e = None.

Lemma acc_loop_copy k es : forall const elist,
  Forall (elem_ok k) es -> acc_loop k es const elist = (const, elist ++ es).
Proof.
  induction es as [|e es IH]; intros const elist H; [simpl; now rewrite app_nil_r|].
  inversion H as [|? ? (H1 & H2 & H3) H']; subst.
  assert (Hgen : match as_empty_acc e with
          | Some c => acc_loop k es (acc_op k const c) elist
          | None =>
              match as_acc k e with
              | Some (es', c) =>
                  if absorbs k c then (0, [])
                  else acc_loop k es (if c =? neutral k then const else acc_op k const c) (elist ++ es')
              | None => acc_loop k es const (elist ++ [e])
              end
          end = (const, elist ++ e :: es)).
  { rewrite H3, H2, IH by assumption. now rewrite <- app_assoc. }
  destruct e; try exact Hgen. now destruct (H1 z).
Qed.

(** ** Normal form *)

Definition elemb (k : acckind) (e : expr) : bool :=
  Nat.leb 9 (tightness e) &&
  match e, k with Const _, _ => false | Sum _ _, KSum => false | Prod _ _, KProd => false | _, _ => true end.

Fixpoint nf (e : expr) : bool :=
  match e with
  | Const _ | Var _ | Param _ _ => true
  | Neg e1 | Abs e1 | Not e1 => nf e1
  | Bin _ l r => nf l && nf r
  | Sum es c => forallb (fun e => elemb KSum e && nf e) es
  | Prod es c => forallb (fun e => elemb KProd e && nf e) es
  end.

Definition good (e : expr) : Prop := safe e = true /\ nf e = true.
Definition tight (e : expr) : Prop := good e /\ Nat.le 9 (tightness e).

Lemma safe_acc k es c : safe (mk_acc k es c) = three_values k es c && forallb safe es.
Proof. destruct k; reflexivity. Qed.
Lemma nf_acc k es c : nf (mk_acc k es c) = forallb (fun e => elemb k e && nf e) es.
Proof. destruct k; reflexivity. Qed.
Lemma str_acc k es c : str_safe (mk_acc k es c) = forallb str_safe es.
Proof. destruct k; reflexivity. Qed.
Lemma tight_acc k es c : tightness (mk_acc k es c) = 11%nat.
Proof. destruct k; reflexivity. Qed.

Lemma elemb_ok k e : elemb k e = true -> safe e = true -> elem_ok k e.
Proof.
  intros H Hs. unfold elemb in H. apply andb_true_iff in H. destruct H as [_ H].
  assert (He : as_empty_acc e = None).
  { destruct (as_empty_acc e) as [c|] eqn:E; [|reflexivity].
    apply as_empty_acc_inv in E. destruct E as (k' & ->). rewrite safe_acc in Hs.
    apply andb_true_iff in Hs. destruct Hs as [Hs _]. exfalso. unfold three_values in Hs.
    destruct (c =? neutral k'); discriminate. }
  split; [|split; [|assumption]]; destruct e; destruct k; try discriminate; reflexivity.
Qed.

Definition welem (k : acckind) (e : expr) : Prop := tight e /\ elemb k e = true.

Lemma tight_elems k es c : tight (mk_acc k es c) -> Forall (welem k) es.
Proof.
  intros [[Hs Hn] _]. rewrite safe_acc in Hs. rewrite nf_acc in Hn.
  apply andb_true_iff in Hs. destruct Hs as [_ Hs]. rewrite forallb_forall in Hs, Hn.
  apply Forall_forall. intros e He. specialize (Hs e He). specialize (Hn e He). simpl in Hn.
  apply andb_true_iff in Hn. destruct Hn as [Hb Hn].
  repeat split; try assumption. unfold elemb in Hb. apply andb_true_iff in Hb. destruct Hb as [Hb _].
  now apply Nat.leb_le.
Qed.

Lemma tight_elem k e : tight e -> (forall z, e <> Const z) -> as_acc k e = None -> welem k e.
Proof.
  intros Ht Hc Ha. split; [assumption|]. destruct Ht as [_ Ht].
  unfold elemb. apply andb_true_iff. split; [now apply Nat.leb_le|].
  destruct e; destruct k; try reflexivity; try discriminate Ha; now destruct (Hc z).
Qed.

Lemma tight_const z : tight (Const z).
Proof. split; [split; reflexivity|]. simpl. destruct (z <? 0); lia. Qed.

Lemma tight_bin o l r :
  match o with OOr | OPow => False | _ => True end -> tight l -> tight r -> tight (Bin o l r).
Proof.
  intros Ho [[Hl1 Hl2] Hl3] [[Hr1 Hr2] Hr3].
  assert (Hn : Nat.leb (left_needs o) (tightness l) = true).
  { apply Nat.leb_le. destruct o; try contradiction; simpl; lia. }
  assert (Hn' : Nat.leb (right_needs o) (tightness r) = true).
  { apply Nat.leb_le. destruct o; try contradiction; simpl; lia. }
  split; [split|].
  - cbn [safe]. now rewrite Hn, Hn', Hl1, Hr1.
  - cbn [nf]. now rewrite Hl2, Hr2.
  - destruct o; try contradiction; simpl; lia.
Qed.

Lemma tight_acc_init k es c :
  Forall (welem k) es -> three_values k es c = true -> tight (acc_init k es c).
Proof.
  intros H H3. unfold acc_init. rewrite acc_loop_copy.
  - simpl app. rewrite Forall_forall in H. split; [split|].
    + rewrite safe_acc, H3. apply forallb_forall. intros e He. apply (H e He).
    + rewrite nf_acc. apply forallb_forall. intros e He. destruct (H e He) as [[[_ Hn] _] Hb].
      now rewrite Hb, Hn.
    + rewrite tight_acc. lia.
  - eapply Forall_impl; [|exact H]. intros e [[[Hs _] _] Hb]. now apply elemb_ok.
Qed.

Definition op_ok (o : operand) : Prop := tight (coerce o).

Lemma expand_Forall (P : expr -> Prop) k o :
  (forall l r, P (Bin (acc_binop k) l r) -> P l /\ P r) ->
  P (coerce o) -> Forall P (expand k o).
Proof.
  intros Hb H.
  assert (Hd : Forall P [coerce o]) by (constructor; [assumption|constructor]).
  destruct k, o as [n|[z|x|p x|e|e|e|[] l r|es c|es c]]; try exact Hd;
    simpl in H; apply Hb in H; destruct H; repeat constructor; assumption.
Qed.

Lemma tight_bin_inv k l r : tight (Bin (acc_binop k) l r) -> tight l /\ tight r.
Proof.
  intros [[Hs Hn] _]. cbn [safe nf] in *. rewrite !andb_true_iff in *.
  rewrite !Nat.leb_le in Hs. destruct k; simpl in Hs; repeat split; tauto.
Qed.

Lemma tight_make_acc k l r : op_ok l -> op_ok r -> tight (make_acc k l r).
Proof.
  intros Hl Hr. unfold make_acc.
  pose proof (macc_loop_Forall k tight (welem k) (tight_elem k) (tight_elems k)
                (expand k l ++ expand k r) (neutral k) []) as H.
  destruct (macc_loop k (expand k l ++ expand k r) (neutral k) []) as [const elist].
  simpl in H. specialize (H ltac:(apply Forall_app; split; (apply expand_Forall; [apply tight_bin_inv|assumption]))
                            (Forall_nil _)).
  assert (Hbin : forall a b, tight a -> tight b -> tight (Bin (acc_binop k) a b)).
  { intros a b. apply tight_bin. destruct k; exact I. }
  destruct elist as [|e1 [|e2 [|e3 es]]].
  - apply tight_const.
  - inversion H as [|? ? [H1 _] _]; subst. destruct (const =? neutral k); [assumption|].
    apply Hbin; [apply tight_const|assumption].
  - inversion H as [|? ? [H1 _] H']; subst. inversion H' as [|? ? [H2 _] _]; subst.
    destruct (const =? neutral k) eqn:E; [now apply Hbin|].
    apply tight_acc_init; [assumption|]. unfold three_values. now rewrite E.
  - destruct (const =? neutral k) eqn:E; apply tight_acc_init; try assumption;
      unfold three_values; apply Nat.leb_le; simpl length; lia.
Qed.

(** ** The printing-safe property *)

Lemma str_make_acc k l r :
  str_safe (coerce l) = true -> str_safe (coerce r) = true -> str_safe (make_acc k l r) = true.
Proof.
  intros Hl Hr. unfold make_acc.
  set (P := fun e => str_safe e = true).
  assert (HS : forall es c, P (mk_acc k es c) -> Forall P es).
  { intros es c H. unfold P in H. rewrite str_acc in H. now apply Forall_forall, forallb_forall. }
  pose proof (macc_loop_Forall k P P (fun e H _ _ => H) HS (expand k l ++ expand k r) (neutral k) []) as H.
  destruct (macc_loop k (expand k l ++ expand k r) (neutral k) []) as [const elist].
  simpl in H.
  assert (Hb : forall a b, P (Bin (acc_binop k) a b) -> P a /\ P b).
  { intros a b Hab. unfold P in *. destruct k; simpl in Hab; now apply andb_true_iff in Hab. }
  specialize (H ltac:(apply Forall_app; split; apply expand_Forall; auto) (Forall_nil _)).
  assert (Hbin : forall a b, P a -> P b -> P (Bin (acc_binop k) a b)).
  { intros a b Ha Hb'. unfold P in *. destruct k; simpl; now rewrite Ha, Hb'. }
  assert (Hinit : forall c, P (acc_init k elist c)).
  { intros c. unfold acc_init, P.
    assert (Hl' : forall es c acc, Forall P es -> Forall P acc -> Forall P (snd (acc_loop k es c acc))).
    { clear - HS. induction es as [|e es IH]; intros c acc H1 H2; [exact H2|].
      inversion H1; subst.
      assert (Hgen : Forall P (snd match as_empty_acc e with
          | Some d => acc_loop k es (acc_op k c d) acc
          | None =>
              match as_acc k e with
              | Some (es', d) =>
                  if absorbs k d then (0, [])
                  else acc_loop k es (if d =? neutral k then c else acc_op k c d) (acc ++ es')
              | None => acc_loop k es c (acc ++ [e])
              end
          end)).
      { destruct (as_empty_acc e); [now apply IH|].
        destruct (as_acc k e) as [[es' d]|] eqn:Ea.
        - destruct (absorbs k d); [constructor|]. apply IH; [assumption|]. apply Forall_app. split; [assumption|].
          apply as_acc_inv in Ea. subst. eapply HS; eassumption.
        - apply IH; [assumption|]. apply Forall_app. split; [assumption|]. now constructor. }
      destruct e; try exact Hgen. cbn [acc_loop].
      destruct (z =? neutral k); [now apply IH|]. destruct (absorbs k z); [constructor|]. now apply IH. }
    specialize (Hl' elist c [] H (Forall_nil _)). destruct (acc_loop k elist c []) as [c' el].
    simpl in Hl'. rewrite str_acc. apply forallb_forall. now apply Forall_forall. }
  destruct elist as [|e1 [|e2 [|e3 es]]].
  - reflexivity.
  - inversion H; subst. destruct (const =? neutral k); [assumption|]. now apply Hbin.
  - inversion H as [|? ? ? H']; subst. inversion H'; subst.
    destruct (const =? neutral k); [now apply Hbin|]. apply Hinit.
  - destruct (const =? neutral k); apply Hinit.
Qed.

(** ** Operators *)

Definition stro (o : operand) : Prop := str_safe (coerce o) = true.

Lemma stro_py_op u a b o :
  match u with UDiv | UAnd | UOr => False | _ => True end ->
  stro a -> stro b -> py_op u a b = Ok o -> stro o.
Proof.
  intros Hu Ha Hb H. unfold stro in *.
  assert (Hacc : forall k l r, str_safe (coerce l) = true -> str_safe (coerce r) = true ->
                 str_safe (coerce (OExpr (make_acc k l r))) = true) by (intros; now apply str_make_acc).
  assert (Hadd : forall l r o, str_safe l = true -> str_safe (coerce r) = true ->
                 expr_add l r = Ok o -> str_safe (coerce o) = true).
  { intros l r o' Hl Hr E. unfold expr_add in E. destruct l;
      repeat match type of E with context [if ?c then _ else _] => destruct c end;
      try destruct (as_const r); repeat match type of E with context [if ?c then _ else _] => destruct c end;
      inversion E; subst; auto. }
  assert (Hbin : forall op l r, match op with ODiv | OAnd | OOr => False | _ => True end ->
                 str_safe l = true -> str_safe r = true -> str_safe (Bin op l r) = true).
  { intros op l r Hop Hl Hr. simpl. rewrite Hl, Hr. destruct op; try contradiction; reflexivity. }
  assert (Hsub : forall l r o, str_safe l = true -> str_safe (coerce r) = true ->
                 expr_sub l r = Ok o -> str_safe (coerce o) = true).
  { intros l r o' Hl Hr E. unfold expr_sub in E. destruct l;
      repeat match type of E with context [if ?c then _ else _] => destruct c end;
      try destruct (as_const r); repeat match type of E with context [if ?c then _ else _] => destruct c end;
      inversion E; subst; auto; simpl coerce; now apply Hbin. }
  assert (Hmul : forall l r o, str_safe l = true -> str_safe (coerce r) = true ->
                 expr_mul l r = Ok o -> str_safe (coerce o) = true).
  { intros l r o' Hl Hr E. unfold expr_mul in E. destruct l;
      repeat match type of E with context [if ?c then _ else _] => destruct c end;
      try destruct (as_const r); repeat match type of E with context [if ?c then _ else _] => destruct c end;
      inversion E; subst; auto. }
  assert (Hmod : forall l r o, str_safe l = true -> str_safe (coerce r) = true ->
                 expr_mod l r = Ok o -> str_safe (coerce o) = true).
  { intros l r o' Hl Hr E. unfold expr_mod, py_mod in E. destruct l; try destruct (as_const r) as [w|];
      simpl in E; try destruct (w =? 0); inversion E; subst; simpl coerce; try reflexivity; now apply Hbin. }
  assert (Hpow : forall l r o, str_safe l = true -> str_safe (coerce r) = true ->
                 expr_pow l r = Ok o -> str_safe (coerce o) = true).
  { intros l r o' Hl Hr E. unfold expr_pow in E. destruct l;
      repeat match type of E with context [if ?c then _ else _] => destruct c end;
      try (inversion E; subst; auto; fail);
      (destruct (as_const r) as [w|];
       [try (unfold py_pow in E; destruct (w <? 0);
             repeat match type of E with context [if ?c then _ else _] => destruct c end);
        repeat match type of E with context [if ?c then _ else _] => destruct c end;
        inversion E; subst; auto; simpl coerce; now apply Hbin
       |inversion E; subst; simpl coerce; now apply Hbin]). }
  assert (Hcmp : forall op l r o, match op with OEq | ONe | OLt | OLe | OGt | OGe => True | _ => False end ->
                 str_safe l = true -> str_safe (coerce r) = true ->
                 expr_cmp op l r = Ok o -> str_safe (coerce o) = true).
  { intros op l r o' Hop Hl Hr E. unfold expr_cmp in E.
    assert (Hop' : match op with ODiv | OAnd | OOr => False | _ => True end) by now destruct op.
    destruct l; try (inversion E; subst; simpl coerce; apply Hbin; assumption).
    destruct (as_const r); [|inversion E; subst; simpl coerce; apply Hbin; assumption].
    destruct (bin_op op z z0); inversion E; subst; reflexivity. }
  destruct a as [x|l].
  - destruct b as [y|r].
    + (* int, int *) destruct u; simpl in H; try contradiction;
        try (inversion H; subst; reflexivity).
      * unfold py_floordiv in H. destruct (y =? 0); inversion H; subst; reflexivity.
      * unfold py_mod in H. destruct (y =? 0); inversion H; subst; reflexivity.
      * unfold py_pow in H. destruct (y <? 0); [destruct (x =? 0)|]; inversion H; subst; reflexivity.
    + destruct u; cbn [py_op int_expr_op cmp_of] in H; try contradiction; try discriminate;
        first [eapply Hadd; [| |exact H]; [reflexivity|exact Hb]
              |eapply Hsub; [| |exact H]; [reflexivity|exact Hb]
              |eapply Hmul; [| |exact H]; [reflexivity|exact Hb]
              |eapply Hmod; [| |exact H]; [reflexivity|exact Hb]
              |eapply Hpow; [| |exact H]; [reflexivity|exact Hb]
              |eapply Hcmp; [| | |exact H]; [exact I|exact Hb|reflexivity]].
  - simpl in Ha. destruct u; cbn [py_op expr_op cmp_of] in H; try contradiction; try discriminate;
        try first [eapply Hadd; [| |exact H]; [exact Ha|exact Hb]
              |eapply Hsub; [| |exact H]; [exact Ha|exact Hb]
              |eapply Hmul; [| |exact H]; [exact Ha|exact Hb]
              |eapply Hmod; [| |exact H]; [exact Ha|exact Hb]
              |eapply Hpow; [| |exact H]; [exact Ha|exact Hb]];
      (destruct b as [y|r];
       [eapply Hcmp; [| | |exact H]; [exact I|exact Ha|exact Hb]
       |destruct (is_var_param l r);
        eapply Hcmp; try exact H; simpl; auto]).
Qed.

Lemma stro_build f : forall o, f_str f = true -> build f = Ok o -> stro o.
Proof.
  induction f as [n|x|p x|g IH|g IH|u g h IHg IHh|gs IH] using formula_ind'; intros o Hf H.
  - inversion H; reflexivity.
  - inversion H; reflexivity.
  - discriminate.
  - simpl in *. destruct (build g) as [a|]; [|discriminate]. inversion H; subst.
    specialize (IH a Hf eq_refl). destruct a; [reflexivity|exact IH].
  - simpl in *. destruct (build g) as [a|]; [|discriminate]. inversion H; subst.
    specialize (IH a Hf eq_refl). destruct a; [reflexivity|exact IH].
  - simpl in *. rewrite !andb_true_iff in Hf. destruct Hf as [[Hu Hg] Hh].
    destruct (build g) as [a|]; [|discriminate]. destruct (build h) as [b|]; [|discriminate]. simpl in H.
    eapply stro_py_op; [|exact (IHg a Hg eq_refl)|exact (IHh b Hh eq_refl)|exact H].
    destruct u; try discriminate; exact I.
  - cbn [build f_str] in *.
    assert (Hacc : stro (OInt 0)) by reflexivity. revert Hacc H. generalize (OInt 0) as acc.
    induction gs as [|g gs IHgs]; intros acc Hacc H; [inversion H; subst; assumption|].
    inversion IH as [|? ? IHg IH']; subst. simpl in Hf. apply andb_true_iff in Hf. destruct Hf as [Hg Hf].
    destruct (build g) as [a|] eqn:Eg; [|discriminate]. cbn [bind] in H.
    destruct (py_op UAdd acc a) as [acc'|] eqn:E; [|discriminate]. cbn [bind] in H.
    eapply IHgs; [assumption|assumption| |exact H].
    eapply stro_py_op; [|exact Hacc|exact (IHg a Hg eq_refl)|exact E]. exact I.
Qed.

Lemma tight_neg e : tight e -> str_safe e = true -> tight (Neg e).
Proof. intros [[H1 H2] _] Hs. split; [split|]; simpl; rewrite ?Hs, ?H1; auto with arith. Qed.
Lemma tight_abs e : tight e -> str_safe e = true -> tight (Abs e).
Proof. intros [[H1 H2] _] Hs. split; [split|]; simpl; rewrite ?Hs, ?H1; auto with arith. Qed.

Definition nonzero (o : operand) : Prop := coerce o <> Const 0.
Definition powbase (o : operand) : Prop := tightness (coerce o) = 11%nat.

Lemma op_ok_py_op u a b o :
  u <> UOr ->
  (u = USub -> stro b \/ nonzero a) ->
  (u = UPow -> powbase a) ->
  op_ok a -> op_ok b -> py_op u a b = Ok o -> op_ok o.
Proof.
  intros Hu Hz Hp Ha Hb H. unfold op_ok in *.
  assert (Hacc : forall k l r, op_ok l -> op_ok r -> tight (coerce (OExpr (make_acc k l r))))
    by (intros; now apply tight_make_acc).
  assert (Hc : forall z, tight (Const z)) by apply tight_const.
  assert (Hbin : forall op l r, match op with OOr | OPow => False | _ => True end ->
                 tight l -> tight r -> tight (Bin op l r)) by (intros; now apply tight_bin).
  assert (Hbpow : forall l r, tightness l = 11%nat -> tight l -> tight r -> tight (Bin OPow l r)).
  { intros l r Ht [[H1 H2] H3] [[H4 H5] H6]. split; [split|].
    - cbn [safe left_needs right_needs]. rewrite Ht, H1, H4.
      rewrite Nat.leb_refl, !andb_true_r. now apply Nat.leb_le.
    - cbn [nf]. now rewrite H2, H5.
    - simpl. lia. }
  assert (Hadd : forall l r o, tight l -> tight (coerce r) -> expr_add l r = Ok o -> tight (coerce o)).
  { intros l r o' Hl Hr E. unfold expr_add in E. destruct l;
      repeat match type of E with context [if ?c then _ else _] => destruct c end;
      try destruct (as_const r); repeat match type of E with context [if ?c then _ else _] => destruct c end;
      inversion E; subst; auto; apply Hc. }
  assert (Hsub : forall l r o, (str_safe (coerce r) = true \/ l <> Const 0) ->
                 tight l -> tight (coerce r) -> expr_sub l r = Ok o -> tight (coerce o)).
  { intros l r o' Hor Hl Hr E.
    destruct l;
      try (cbn [expr_sub] in E; destruct (as_const r) as [w|]; [destruct (w =? 0)|];
           inversion E; subst; auto; simpl coerce; apply Hbin; auto; fail).
    unfold expr_sub in E. destruct (Z.eqb_spec z 0) as [->|Hne].
    - inversion E; subst. simpl. apply tight_neg; [assumption|]. destruct Hor as [Hs|Hs]; [assumption|congruence].
    - destruct (as_const r); inversion E; subst; simpl coerce; [apply Hc|apply Hbin; auto]. }
  assert (Hmul : forall l r o, tight l -> tight (coerce r) -> expr_mul l r = Ok o -> tight (coerce o)).
  { intros l r o' Hl Hr E. unfold expr_mul in E. destruct l;
      repeat match type of E with context [if ?c then _ else _] => destruct c end;
      try destruct (as_const r); repeat match type of E with context [if ?c then _ else _] => destruct c end;
      inversion E; subst; auto; apply Hc. }
  assert (Hdiv : forall l r o, tight l -> tight (coerce r) -> expr_div l r = Ok o -> tight (coerce o)).
  { intros l r o' Hl Hr E. unfold expr_div, py_floordiv in E. destruct l;
      repeat match type of E with context [if ?c then _ else _] => destruct c end;
      try destruct (as_const r); repeat match type of E with context [if ?c then _ else _] => destruct c end;
      inversion E; subst; auto; try apply Hc; simpl coerce; apply Hbin; auto. }
  assert (Hmod : forall l r o, tight l -> tight (coerce r) -> expr_mod l r = Ok o -> tight (coerce o)).
  { intros l r o' Hl Hr E. unfold expr_mod, py_mod in E. destruct l; try destruct (as_const r) as [w|];
      simpl in E; try destruct (w =? 0); inversion E; subst; simpl coerce; try apply Hc; apply Hbin; auto. }
  assert (Hpow : forall l r o, tightness l = 11%nat -> tight l -> tight (coerce r) ->
                 expr_pow l r = Ok o -> tight (coerce o)).
  { intros l r o' Ht Hl Hr E. unfold expr_pow in E. destruct l;
      repeat match type of E with context [if ?c then _ else _] => destruct c end;
      try (inversion E; subst; auto; fail);
      (destruct (as_const r) as [w|];
       [try (unfold py_pow in E; destruct (w <? 0);
             repeat match type of E with context [if ?c then _ else _] => destruct c end);
        repeat match type of E with context [if ?c then _ else _] => destruct c end;
        inversion E; subst; auto; try apply Hc; simpl coerce; apply Hbpow; auto
       |inversion E; subst; simpl coerce; apply Hbpow; auto]). }
  assert (Hcmp : forall op l r o, match op with OOr | OPow => False | _ => True end ->
                 tight l -> tight (coerce r) -> expr_cmp op l r = Ok o -> tight (coerce o)).
  { intros op l r o' Hop Hl Hr E. unfold expr_cmp in E.
    destruct l; try (inversion E; subst; simpl coerce; apply Hbin; assumption).
    destruct (as_const r); [|inversion E; subst; simpl coerce; apply Hbin; assumption].
    destruct (bin_op op z z0); inversion E; subst; apply Hc. }
  destruct a as [x|l].
  - destruct b as [y|r].
    + (* int, int *) destruct u; simpl in H;
        try (inversion H; subst; apply Hc).
      * destruct (y =? 0); discriminate.
      * unfold py_floordiv in H. destruct (y =? 0); inversion H; subst; apply Hc.
      * unfold py_mod in H. destruct (y =? 0); inversion H; subst; apply Hc.
      * unfold py_pow in H. destruct (y <? 0); [destruct (x =? 0)|]; inversion H; subst; apply Hc.
    + destruct u; cbn [py_op int_expr_op cmp_of] in H; try contradiction; try discriminate.
      * eapply Hadd; [| |exact H]; [apply Hc|exact Hb].
      * eapply Hsub; [| | |exact H]; [|apply Hc|exact Hb]. exact (Hz eq_refl).
      * eapply Hmul; [| |exact H]; [apply Hc|exact Hb].
      * eapply Hmod; [| |exact H]; [apply Hc|exact Hb].
      * eapply Hpow; [| | |exact H]; [exact (Hp eq_refl)|apply Hc|exact Hb].
      * eapply Hcmp; [| | |exact H]; [exact I|exact Hb|apply Hc].
      * eapply Hcmp; [| | |exact H]; [exact I|exact Hb|apply Hc].
      * eapply Hcmp; [| | |exact H]; [exact I|exact Hb|apply Hc].
      * eapply Hcmp; [| | |exact H]; [exact I|exact Hb|apply Hc].
      * eapply Hcmp; [| | |exact H]; [exact I|exact Hb|apply Hc].
      * eapply Hcmp; [| | |exact H]; [exact I|exact Hb|apply Hc].
      * inversion H; subst. simpl coerce. apply Hbin; [exact I|apply Hc|exact Hb].
  - simpl in Ha. destruct u; cbn [py_op expr_op cmp_of] in H; try contradiction; try discriminate;
      try (destruct b as [y|r];
       [eapply Hcmp; [| | |exact H]; [exact I|exact Ha|exact Hb]
       |destruct (is_var_param l r);
        eapply Hcmp; try exact H; simpl; auto; fail]).
    + eapply Hadd; [| |exact H]; [exact Ha|exact Hb].
    + eapply Hsub; [| | |exact H]; [|exact Ha|exact Hb]. exact (Hz eq_refl).
    + eapply Hmul; [| |exact H]; [exact Ha|exact Hb].
    + eapply Hdiv; [| |exact H]; [exact Ha|exact Hb].
    + eapply Hmod; [| |exact H]; [exact Ha|exact Hb].
    + eapply Hpow; [| | |exact H]; [exact (Hp eq_refl)|exact Ha|exact Hb].
Qed.

Lemma f_arith_build f : forall o, f_arith f = true -> build f = Ok o -> op_ok o.
Proof.
  unfold op_ok.
  induction f as [n|x|p x|g IH|g IH|u g h IHg IHh|gs IH] using formula_ind'; intros o Hf H.
  - inversion H. apply tight_const.
  - inversion H. subst. simpl in *. repeat split; [assumption|]. simpl. lia.
  - inversion H. repeat split. simpl. lia.
  - simpl in *. apply andb_true_iff in Hf. destruct Hf as [Hs Hf].
    destruct (build g) as [a|] eqn:E; [|discriminate]. inversion H; subst.
    specialize (IH a Hf eq_refl). destruct a; [apply tight_const|]. apply tight_neg; [exact IH|].
    exact (stro_build g _ Hs E).
  - simpl in *. apply andb_true_iff in Hf. destruct Hf as [Hs Hf].
    destruct (build g) as [a|] eqn:E; [|discriminate]. inversion H; subst.
    specialize (IH a Hf eq_refl). destruct a; [apply tight_const|]. apply tight_abs; [exact IH|].
    exact (stro_build g _ Hs E).
  - simpl in *. rewrite !andb_true_iff in Hf. destruct Hf as [[Hu Hg] Hh].
    destruct (build g) as [a|] eqn:Eg; [|discriminate].
    destruct (build h) as [b|] eqn:Eh; [|discriminate]. cbn [bind] in H.
    eapply op_ok_py_op; [| | |exact (IHg a Hg eq_refl)|exact (IHh b Hh eq_refl)|exact H].
    + intros ->; discriminate.
    + intros ->. apply orb_true_iff in Hu. destruct Hu as [Hs|Hn]; [left; exact (stro_build h _ Hs Eh)|].
      right. unfold nonzero. destruct g; try discriminate; inversion Eg; subst; simpl; try discriminate.
      intros E. inversion E; subst. discriminate.
    + intros ->. unfold powbase. destruct g; try discriminate; inversion Eg; subst; simpl; [|reflexivity].
      destruct (Z.ltb_spec n 0); [|reflexivity]. apply Z.leb_le in Hu. lia.
  - cbn [build f_arith] in *.
    assert (Hacc : tight (coerce (OInt 0))) by apply tight_const. revert Hacc H. generalize (OInt 0) as acc.
    induction gs as [|g gs IHgs]; intros acc Hacc H; [inversion H; subst; assumption|].
    inversion IH as [|? ? IHg IH']; subst. simpl in Hf. apply andb_true_iff in Hf. destruct Hf as [Hg Hf].
    destruct (build g) as [a|] eqn:Eg; [|discriminate]. cbn [bind] in H.
    destruct (py_op UAdd acc a) as [acc'|] eqn:E; [|discriminate]. cbn [bind] in H.
    eapply IHgs; [assumption|assumption| |exact H].
    eapply op_ok_py_op; [| | |exact Hacc|exact (IHg a Hg eq_refl)|exact E]; discriminate.
Qed.

Lemma f_safe_build f : forall o, f_safe f = true -> build f = Ok o -> safe (coerce o) = true.
Proof.
  induction f as [n|x|p x|g IH|g IH|u g h IHg IHh|gs IH] using formula_ind'; intros o Hf H;
    try (apply f_arith_build in H; [apply H|exact Hf]).
  destruct u; try (apply f_arith_build in H; [apply H|exact Hf]).
  cbn [f_safe build] in *. apply andb_true_iff in Hf. destruct Hf as [Hg Hh].
  destruct (build g) as [a|]; [|discriminate].
  destruct (build h) as [b|]; [|discriminate]. cbn [bind] in H.
  specialize (IHg a Hg eq_refl). specialize (IHh b Hh eq_refl).
  assert (Hb : safe (Bin OOr (coerce a) (coerce b)) = true).
  { simpl. now rewrite IHg, IHh. }
  destruct a as [x|l]; [destruct b as [y|r]; inversion H; subst; [reflexivity|exact Hb]|].
  cbn [py_op expr_op] in H. unfold expr_logic in H.
  destruct l; try (inversion H; subst; exact Hb).
  destruct (as_const b); inversion H; subst; [reflexivity|exact Hb].
Qed.

(** Compiled evaluation of a formula has the formula's mathematical meaning. *)
Theorem compiled_formula ps a s f e v :
  f_safe f = true -> build f = Ok (OExpr e) -> binds s a (fvars f) ->
  meaning ps a f = Some v -> call_code (as_function ps e) s = Ok v.
Proof.
  intros Hf Hb Hs Hm. apply compiled_agrees.
  - exact (f_safe_build f _ Hf Hb).
  - exact (build_meaning ps a s f v _ Hs Hm Hb).
Qed.
