(** Proofs about Expr.v. *)
From Verif Require Import Py Expr SpecFormula.

(** ** Generic facts *)

Lemma bind_Ok {A B} (r : res A) (f : A -> res B) b :
  bind r f = Ok b <-> exists a, r = Ok a /\ f a = Ok b.
Proof.
  destruct r as [a|e]; simpl; split.
  - intros H; eauto.
  - intros (a' & H1 & H2); congruence.
  - discriminate.
  - intros (a' & H1 & H2); discriminate.
Qed.

Lemma mapM_app {A B} (f : A -> res B) l1 l2 :
  mapM f (l1 ++ l2) = (let! a := mapM f l1 in let! b := mapM f l2 in Ok (a ++ b)).
Proof.
  induction l1 as [|x l1 IH]; simpl.
  - destruct (mapM f l2); reflexivity.
  - destruct (f x); simpl; [|reflexivity].
    rewrite IH. destruct (mapM f l1); simpl; [|reflexivity].
    destruct (mapM f l2); reflexivity.
Qed.

Lemma mapM_Ok_app {A B} (f : A -> res B) l1 l2 v1 v2 :
  mapM f l1 = Ok v1 -> mapM f l2 = Ok v2 -> mapM f (l1 ++ l2) = Ok (v1 ++ v2).
Proof. intros H1 H2. rewrite mapM_app, H1, H2. reflexivity. Qed.

(** ** Induction principle for [expr] *)

Section expr_ind'.
  Variable P : expr -> Prop.
  Hypothesis HConst : forall z, P (Const z).
  Hypothesis HVar : forall x, P (Var x).
  Hypothesis HParam : forall p x, P (Param p x).
  Hypothesis HNeg : forall e, P e -> P (Neg e).
  Hypothesis HAbs : forall e, P e -> P (Abs e).
  Hypothesis HNot : forall e, P e -> P (Not e).
  Hypothesis HBin : forall o l r, P l -> P r -> P (Bin o l r).
  Hypothesis HSum : forall es c, Forall P es -> P (Sum es c).
  Hypothesis HProd : forall es c, Forall P es -> P (Prod es c).
  Fixpoint expr_ind' (e : expr) : P e :=
    let go := fix go (l : list expr) : Forall P l :=
      match l with
      | [] => Forall_nil P
      | e1 :: l' => Forall_cons e1 (expr_ind' e1) (go l')
      end in
    match e with
    | Const z => HConst z
    | Var x => HVar x
    | Param p x => HParam p x
    | Neg e1 => HNeg e1 (expr_ind' e1)
    | Abs e1 => HAbs e1 (expr_ind' e1)
    | Not e1 => HNot e1 (expr_ind' e1)
    | Bin o l r => HBin o l r (expr_ind' l) (expr_ind' r)
    | Sum es c => HSum es c (go es)
    | Prod es c => HProd es c (go es)
    end.
End expr_ind'.

Section formula_ind'.
  Variable P : formula -> Prop.
  Hypothesis HInt : forall n, P (FInt n).
  Hypothesis HVar : forall x, P (FVar x).
  Hypothesis HPar : forall p x, P (FPar p x).
  Hypothesis HNeg : forall f, P f -> P (FNeg f).
  Hypothesis HAbs : forall f, P f -> P (FAbs f).
  Hypothesis HBin : forall u f g, P f -> P g -> P (FBin u f g).
  Hypothesis HSum : forall fs, Forall P fs -> P (FSum fs).
  Fixpoint formula_ind' (f : formula) : P f :=
    let go := fix go (l : list formula) : Forall P l :=
      match l with
      | [] => Forall_nil P
      | e1 :: l' => Forall_cons e1 (formula_ind' e1) (go l')
      end in
    match f with
    | FInt n => HInt n
    | FVar x => HVar x
    | FPar p x => HPar p x
    | FNeg g => HNeg g (formula_ind' g)
    | FAbs g => HAbs g (formula_ind' g)
    | FBin u g h => HBin u g h (formula_ind' g) (formula_ind' h)
    | FSum fs => HSum fs (go fs)
    end.
End formula_ind'.

(** ** Accumulations *)

(** Total of a list under the accumulation's operation. *)
Definition tot (k : acckind) (vs : list Z) : Z := fold_right (acc_op k) (neutral k) vs.

Lemma acc_op_assoc k a b c : acc_op k a (acc_op k b c) = acc_op k (acc_op k a b) c.
Proof. destruct k; simpl; ring. Qed.
Lemma acc_op_comm k a b : acc_op k a b = acc_op k b a.
Proof. destruct k; simpl; ring. Qed.
Lemma acc_op_neutral_r k a : acc_op k a (neutral k) = a.
Proof. destruct k; simpl; ring. Qed.
Lemma acc_op_neutral_l k a : acc_op k (neutral k) a = a.
Proof. destruct k; simpl; destruct a; reflexivity || ring. Qed.
Lemma absorbs_op k a b : absorbs k b = true -> acc_op k a b = 0 /\ k = KProd.
Proof. destruct k; simpl; [discriminate|]. intros H; apply Z.eqb_eq in H; subst; split; [ring|reflexivity]. Qed.
Lemma absorbs_0 k a : absorbs k a = true -> a = 0.
Proof. destruct k; simpl; [discriminate|]. apply Z.eqb_eq. Qed.

Lemma tot_app k a b : tot k (a ++ b) = acc_op k (tot k a) (tot k b).
Proof.
  induction a as [|x a IH]; simpl.
  - now rewrite acc_op_neutral_l.
  - fold (tot k (a ++ b)). fold (tot k a). rewrite IH, acc_op_assoc. reflexivity.
Qed.

Lemma tot_prod_0 vs : acc_op KProd 0 (tot KProd vs) = 0.
Proof. simpl. ring. Qed.

Lemma evaluate_acc ps s k es c :
  evaluate ps s (mk_acc k es c) =
  (let! vs := mapM (evaluate ps s) es in Ok (acc_op k c (tot k vs))).
Proof.
  destruct k; simpl; revert c; induction es as [|e es IH]; intros c; simpl.
  - f_equal; ring.
  - destruct (evaluate ps s e) as [v|]; simpl; [|reflexivity].
    rewrite IH. destruct (mapM (evaluate ps s) es); simpl; [|reflexivity].
    f_equal; ring.
  - f_equal; ring.
  - destruct (evaluate ps s e) as [v|]; simpl; [|reflexivity].
    rewrite IH. destruct (mapM (evaluate ps s) es); simpl; [|reflexivity].
    f_equal; ring.
Qed.

Lemma as_acc_inv k e es c : as_acc k e = Some (es, c) -> e = mk_acc k es c.
Proof. destruct k, e; simpl; intros H; inversion H; reflexivity. Qed.

Lemma as_empty_acc_inv e c : as_empty_acc e = Some c -> exists k, e = mk_acc k [] c.
Proof.
  destruct e; simpl; try discriminate;
    destruct es; try discriminate; intros H; inversion H; subst.
  - exists KSum; reflexivity.
  - exists KProd; reflexivity.
Qed.

Lemma evaluate_acc_inv ps s k es c v :
  evaluate ps s (mk_acc k es c) = Ok v ->
  exists ws, mapM (evaluate ps s) es = Ok ws /\ v = acc_op k c (tot k ws).
Proof.
  rewrite evaluate_acc. intros H. apply bind_Ok in H. destruct H as (ws & H1 & H2).
  inversion H2; eauto.
Qed.

(** The shape shared by the two loops: starting from elements [elist] with values
    [us] and constant [const], and having still to process values [vs], the result
    has the same total. *)
Definition loop_ok ps s k (const : Z) (us vs : list Z) (out : Z * list expr) : Prop :=
  exists us', mapM (evaluate ps s) (snd out) = Ok us' /\
              acc_op k (fst out) (tot k us')
              = acc_op k const (acc_op k (tot k us) (tot k vs)).

Ltac acc_norm :=
  repeat match goal with k : acckind |- _ => destruct k end;
  unfold tot in *; simpl in *;
  repeat rewrite ?Z.add_0_r, ?Z.mul_1_r in *; try ring.

Lemma loop_ok_zero ps s const us v vs :
  loop_ok ps s KProd const us (v :: vs) (0, []) <-> const * (tot KProd us * (v * tot KProd vs)) = 0.
Proof.
  unfold loop_ok; simpl. split.
  - intros (us' & H1 & H2). inversion H1; subst; simpl in H2.
    fold (tot KProd vs) in H2. lia.
  - intros H. exists []. split; [reflexivity|]. simpl. fold (tot KProd vs). lia.
Qed.

Lemma acc_loop_ok ps s k es : forall vs const elist us,
  mapM (evaluate ps s) es = Ok vs ->
  mapM (evaluate ps s) elist = Ok us ->
  loop_ok ps s k const us vs (acc_loop k es const elist).
Proof.
  induction es as [|e es IH]; intros vs const elist us Hes Hel.
  - simpl in *. inversion Hes; subst. exists us. split; [assumption|].
    simpl. now rewrite acc_op_neutral_r.
  - apply bind_Ok in Hes. destruct Hes as (v & Hv & Hes).
    apply bind_Ok in Hes. destruct Hes as (vs' & Hvs & Hes). inversion Hes; subst vs; clear Hes.
    assert (Hgen : forall const' elist' us',
      mapM (evaluate ps s) elist' = Ok us' ->
      acc_op k const' (tot k us') = acc_op k const (acc_op k (tot k us) v) ->
      loop_ok ps s k const us (v :: vs') (acc_loop k es const' elist')).
    { intros const' elist' us' Hel' Heq.
      destruct (IH vs' const' elist' us' Hvs Hel') as (us2 & H1 & H2).
      exists us2; split; [assumption|]. rewrite H2.
      rewrite acc_op_assoc, Heq. simpl. fold (tot k vs').
      rewrite <- !acc_op_assoc. reflexivity. }
    assert (Hskip : v = neutral k -> loop_ok ps s k const us (v :: vs') (acc_loop k es const elist)).
    { intros ->. apply (Hgen const elist us Hel). now rewrite acc_op_neutral_r. }
    assert (Hother : loop_ok ps s k const us (v :: vs') (acc_loop k es const (elist ++ [e]))).
    { apply (Hgen const (elist ++ [e]) (us ++ [v])).
      - apply mapM_Ok_app; [assumption|]. simpl. rewrite Hv. reflexivity.
      - rewrite tot_app. simpl. now rewrite acc_op_neutral_r. }
    assert (Hconst : forall c, v = c ->
              loop_ok ps s k const us (v :: vs') (acc_loop k es (acc_op k const c) elist)).
    { intros c ->. apply (Hgen _ elist us Hel).
      rewrite <- !acc_op_assoc. f_equal. apply acc_op_comm. }
    assert (Hzero : v = 0 -> k = KProd -> loop_ok ps s k const us (v :: vs') (0, [])).
    { intros -> ->. apply loop_ok_zero. ring. }
    assert (Hacc : match as_empty_acc e with
          | Some c => loop_ok ps s k const us (v :: vs') (acc_loop k es (acc_op k const c) elist)
          | None =>
              match as_acc k e with
              | Some (es', c) =>
                  loop_ok ps s k const us (v :: vs')
                  (if absorbs k c then (0, [])
                  else acc_loop k es
                         (if c =? neutral k then const else acc_op k const c)
                         (elist ++ es'))
              | None => loop_ok ps s k const us (v :: vs') (acc_loop k es const (elist ++ [e]))
              end
          end).
    { destruct (as_empty_acc e) as [c|] eqn:Hemp.
      - apply Hconst. apply as_empty_acc_inv in Hemp. destruct Hemp as (k' & ->).
        apply evaluate_acc_inv in Hv. destruct Hv as (ws & Hw & ->).
        simpl in Hw. inversion Hw; subst. simpl. apply acc_op_neutral_r.
      - destruct (as_acc k e) as [[es' c]|] eqn:Has; [|exact Hother].
        apply as_acc_inv in Has. subst e.
        apply evaluate_acc_inv in Hv. destruct Hv as (ws & Hw & ->).
        destruct (absorbs k c) eqn:Habs.
        + pose proof (absorbs_0 _ _ Habs) as ->.
          destruct (absorbs_op _ 0 _ Habs) as [_ ->].
          apply Hzero; [simpl; ring | reflexivity].
        + apply (Hgen _ (elist ++ es') (us ++ ws)).
          * now apply mapM_Ok_app.
          * rewrite tot_app. destruct (Z.eqb_spec c (neutral k)) as [->|].
            -- now rewrite acc_op_neutral_l.
            -- rewrite !acc_op_assoc. f_equal. rewrite <- !acc_op_assoc. f_equal. apply acc_op_comm. }
    destruct e as [z|x|p x|e1|e1|e1|o l r|es1 c1|es1 c1];
      try (destruct k; exact Hother).
    + (* Const *)
      simpl in Hv. inversion Hv; subst z. simpl.
      destruct (Z.eqb_spec v (neutral k)) as [Hn|Hn]; [now apply Hskip|].
      destruct (absorbs k v) eqn:Habs.
      * apply Hzero; [eapply absorbs_0; eassumption | eapply (absorbs_op k 0); eassumption].
      * now apply Hconst.
    + (* Sum *)
      destruct es1 as [|e1 es1]; destruct k; exact Hacc.
    + destruct es1 as [|e1 es1]; destruct k; exact Hacc.
Qed.

Lemma evaluate_acc_init ps s k es const vs :
  mapM (evaluate ps s) es = Ok vs ->
  evaluate ps s (acc_init k es const) = Ok (acc_op k const (tot k vs)).
Proof.
  intros H. unfold acc_init.
  destruct (acc_loop_ok ps s k es vs const [] [] H eq_refl) as (us' & H1 & H2).
  destruct (acc_loop k es const []) as [c el]. cbn [fst snd] in *.
  rewrite evaluate_acc, H1. cbn [bind]. rewrite H2. simpl tot at 1.
  now rewrite acc_op_neutral_l.
Qed.

Lemma macc_loop_ok ps s k es : forall vs const elist us,
  mapM (evaluate ps s) es = Ok vs ->
  mapM (evaluate ps s) elist = Ok us ->
  loop_ok ps s k const us vs (macc_loop k es const elist).
Proof.
  induction es as [|e es IH]; intros vs const elist us Hes Hel.
  - simpl in *. inversion Hes; subst. exists us. split; [assumption|].
    simpl. now rewrite acc_op_neutral_r.
  - apply bind_Ok in Hes. destruct Hes as (v & Hv & Hes).
    apply bind_Ok in Hes. destruct Hes as (vs' & Hvs & Hes). inversion Hes; subst vs; clear Hes.
    assert (Hgen : forall const' elist' us',
      mapM (evaluate ps s) elist' = Ok us' ->
      acc_op k const' (tot k us') = acc_op k const (acc_op k (tot k us) v) ->
      loop_ok ps s k const us (v :: vs') (macc_loop k es const' elist')).
    { intros const' elist' us' Hel' Heq.
      destruct (IH vs' const' elist' us' Hvs Hel') as (us2 & H1 & H2).
      exists us2; split; [assumption|]. rewrite H2.
      rewrite acc_op_assoc, Heq. simpl. fold (tot k vs').
      rewrite <- !acc_op_assoc. reflexivity. }
    assert (Hskip : v = neutral k -> loop_ok ps s k const us (v :: vs') (macc_loop k es const elist)).
    { intros ->. apply (Hgen const elist us Hel). now rewrite acc_op_neutral_r. }
    assert (Hother : loop_ok ps s k const us (v :: vs') (macc_loop k es const (elist ++ [e]))).
    { apply (Hgen const (elist ++ [e]) (us ++ [v])).
      - apply mapM_Ok_app; [assumption|]. simpl. rewrite Hv. reflexivity.
      - rewrite tot_app. simpl. now rewrite acc_op_neutral_r. }
    assert (Hconst : forall c, v = c ->
              loop_ok ps s k const us (v :: vs') (macc_loop k es (acc_op k const c) elist)).
    { intros c ->. apply (Hgen _ elist us Hel).
      rewrite <- !acc_op_assoc. f_equal. apply acc_op_comm. }
    assert (Hzero : forall c, absorbs k c = true ->
              acc_op k const v = 0 -> c = 0 -> loop_ok ps s k const us (v :: vs') (c, [])).
    { intros c Habs Hcv ->. destruct (absorbs_op _ 0 _ Habs) as [_ ->].
      apply loop_ok_zero. simpl in Hcv.
      replace (const * (tot KProd us * (v * tot KProd vs')))
        with ((const * v) * (tot KProd us * tot KProd vs')) by ring.
      rewrite Hcv. ring. }
    assert (Hacc : match as_acc k e with
          | Some ([], c) => loop_ok ps s k const us (v :: vs') (macc_loop k es (acc_op k const c) elist)
          | Some (es', c) =>
              loop_ok ps s k const us (v :: vs')
              (if c =? neutral k then macc_loop k es const (elist ++ es')
              else let const' := acc_op k const c in
                   if absorbs k const' then (const', [])
                   else macc_loop k es const' (elist ++ es'))
          | None => loop_ok ps s k const us (v :: vs') (macc_loop k es const (elist ++ [e]))
          end).
    { destruct (as_acc k e) as [[es' c]|] eqn:Has; [|exact Hother].
      apply as_acc_inv in Has. subst e.
      apply evaluate_acc_inv in Hv. destruct Hv as (ws & Hw & Hv).
      destruct es' as [|e1 es'].
      - simpl in Hw. inversion Hw; subst ws. apply Hconst. rewrite Hv. simpl. apply acc_op_neutral_r.
      - destruct (Z.eqb_spec c (neutral k)) as [->|Hn].
        + apply (Hgen _ _ (us ++ ws)); [now apply mapM_Ok_app|].
          rewrite tot_app, Hv. now rewrite acc_op_neutral_l.
        + cbn zeta. destruct (absorbs k (acc_op k const c)) eqn:Habs.
          * apply Hzero; [assumption| |eapply absorbs_0; eassumption].
            rewrite Hv, acc_op_assoc. apply absorbs_0 in Habs as H0. rewrite H0.
            destruct (absorbs_op _ 0 _ Habs) as [_ ->]. simpl. ring.
          * apply (Hgen _ _ (us ++ ws)); [now apply mapM_Ok_app|].
            rewrite tot_app, Hv. rewrite !acc_op_assoc. f_equal.
            rewrite <- !acc_op_assoc. f_equal. apply acc_op_comm. }
    destruct e as [z|x|p x|e1|e1|e1|o l r|es1 c1|es1 c1];
      try (destruct k; exact Hother).
    + simpl in Hv. inversion Hv; subst z. cbn [macc_loop].
      destruct (Z.eqb_spec v (neutral k)) as [Hn|Hn]; [now apply Hskip|].
      destruct (absorbs k v) eqn:Habs.
      * pose proof (absorbs_0 _ _ Habs) as Hv0. subst v. apply Hzero; [assumption| |reflexivity].
        eapply absorbs_op. eassumption.
      * cbn zeta. destruct (absorbs k (acc_op k const v)) eqn:Habs2.
        -- apply Hzero; [assumption|eapply absorbs_0; eassumption|eapply absorbs_0; eassumption].
        -- now apply Hconst.
    + destruct k; destruct es1; exact Hacc.
    + destruct k; destruct es1; exact Hacc.
Qed.

Lemma evaluate_expand ps s k o v :
  oval ps s o = Ok v ->
  exists vs, mapM (evaluate ps s) (expand k o) = Ok vs /\ tot k vs = v.
Proof.
  intros H.
  assert (Hdef : exists vs, mapM (evaluate ps s) [coerce o] = Ok vs /\ tot k vs = v).
  { exists [v]. split.
    - destruct o; simpl in *; [inversion H; reflexivity|]. rewrite H. reflexivity.
    - simpl. apply acc_op_neutral_r. }
  destruct o as [n|e].
  - destruct k; exact Hdef.
  - destruct k; destruct e; try exact Hdef; destruct o; try exact Hdef.
    + cbn [oval] in H. simpl in H. apply bind_Ok in H. destruct H as (a & Ha & H).
      apply bind_Ok in H. destruct H as (b & Hb & H). inversion H; subst v.
      exists [a; b]. simpl. rewrite Ha, Hb. split; [reflexivity|simpl; ring].
    + cbn [oval] in H. simpl in H. apply bind_Ok in H. destruct H as (a & Ha & H).
      apply bind_Ok in H. destruct H as (b & Hb & H). inversion H; subst v.
      exists [a; b]. simpl. rewrite Ha, Hb. split; [reflexivity|simpl; ring].
Qed.

Lemma evaluate_binop_acc ps s k l r a b :
  evaluate ps s l = Ok a -> evaluate ps s r = Ok b ->
  evaluate ps s (Bin (acc_binop k) l r) = Ok (acc_op k a b).
Proof. intros Ha Hb. simpl. rewrite Ha, Hb. destruct k; reflexivity. Qed.

Lemma evaluate_make_acc ps s k l r a b :
  oval ps s l = Ok a -> oval ps s r = Ok b ->
  evaluate ps s (make_acc k l r) = Ok (acc_op k a b).
Proof.
  intros Ha Hb.
  destruct (evaluate_expand ps s k l a Ha) as (va & Hva & Hta).
  destruct (evaluate_expand ps s k r b Hb) as (vb & Hvb & Htb).
  pose proof (macc_loop_ok ps s k _ (va ++ vb) (neutral k) [] []
                (mapM_Ok_app _ _ _ _ _ Hva Hvb) eq_refl) as (us & H1 & H2).
  unfold make_acc.
  destruct (macc_loop k (expand k l ++ expand k r) (neutral k) []) as [c el].
  cbn [fst snd] in *.
  rewrite tot_app, Hta, Htb in H2. simpl tot in H2 at 2. rewrite !acc_op_neutral_l in H2.
  rewrite <- H2. clear H2.
  assert (Hinit : forall cc, cc = c -> evaluate ps s (acc_init k el cc) = Ok (acc_op k c (tot k us))).
  { intros cc ->. now apply evaluate_acc_init. }
  destruct el as [|e1 [|e2 [|e3 el]]].
  - simpl in H1. inversion H1; subst us. simpl. now rewrite acc_op_neutral_r.
  - simpl in H1. apply bind_Ok in H1. destruct H1 as (v & Hv & H1).
    inversion H1; subst us.
    simpl tot. rewrite acc_op_neutral_r.
    destruct (Z.eqb_spec c (neutral k)) as [->|].
    + now rewrite acc_op_neutral_l.
    + now apply evaluate_binop_acc.
  - destruct (Z.eqb_spec c (neutral k)) as [->|]; [|now apply Hinit].
    simpl in H1. apply bind_Ok in H1. destruct H1 as (v & Hv & H1).
    apply bind_Ok in H1. destruct H1 as (w & Hw & H1).
    apply bind_Ok in Hw. destruct Hw as (v2 & Hv2 & Hw).
    inversion Hw; subst w. inversion H1; subst us.
    simpl tot. rewrite acc_op_neutral_r, acc_op_neutral_l. now apply evaluate_binop_acc.
  - destruct (Z.eqb_spec c (neutral k)) as [Heq|].
    + apply Hinit. now symmetry.
    + now apply Hinit.
Qed.

(** ** Operators *)

Lemma as_const_inv o w : as_const o = Some w -> o = OExpr (Const w).
Proof. destruct o as [n|e]; simpl; [discriminate|]. destruct e; try discriminate. intros H; inversion H; reflexivity. Qed.

Lemma oval_coerce ps s o : evaluate ps s (coerce o) = oval ps s o.
Proof. destruct o; reflexivity. Qed.

Lemma bin_op_arith o u a b v :
  match o, u with
  | OAdd, UAdd | OMul, UMul | OSub, USub | ODiv, UDiv | OMod, UMod | OPow, UPow
  | OEq, UEq | ONe, UNe | OLt, ULt | OLe, ULe | OGt, UGt | OGe, UGe | OAnd, UAnd | OOr, UOr => True
  | _, _ => False
  end ->
  arith u a b = Some v -> bin_op o a b = Ok v.
Proof.
  destruct o, u; try contradiction; intros _; simpl; unfold py_floordiv, py_mod, py_pow, truthy, b2z;
    try (intros H; inversion H; reflexivity).
  - destruct (b =? 0); intros H; inversion H; reflexivity.
  - destruct (b =? 0); intros H; inversion H; reflexivity.
  - destruct (b <? 0); intros H; inversion H; reflexivity.
  - destruct (a =? b); intros H; inversion H; reflexivity.
  - destruct (a =? 0); intros H; inversion H; reflexivity.
  - destruct (a =? 0); intros H; inversion H; reflexivity.
Qed.

Lemma eval_bin ps s o l r a b :
  evaluate ps s l = Ok a -> evaluate ps s r = Ok b -> evaluate ps s (Bin o l r) = bin_op o a b.
Proof. intros Ha Hb. simpl. now rewrite Ha, Hb. Qed.

Ltac inv_ok := repeat match goal with H : Ok _ = Ok _ |- _ => inversion H; subst; clear H end.

Lemma eval_bin_o ps s o l r a b :
  evaluate ps s l = Ok a -> oval ps s r = Ok b ->
  oval ps s (OExpr (Bin o l (coerce r))) = bin_op o a b.
Proof. intros Ha Hb. cbn [oval]. apply eval_bin; [assumption|]. now rewrite oval_coerce. Qed.

Lemma expr_add_ok ps s l r a b o :
  evaluate ps s l = Ok a -> oval ps s r = Ok b -> expr_add l r = Ok o ->
  oval ps s o = Ok (a + b).
Proof.
  intros Ha Hb H.
  assert (Hm : evaluate ps s (make_acc KSum (OExpr l) r) = Ok (a + b)).
  { apply (evaluate_make_acc ps s KSum (OExpr l) r a b Ha Hb). }
  assert (Hgen : match as_const r with
      | Some w => if w =? 0 then Ok (OExpr l) else Ok (OExpr (make_acc KSum (OExpr l) r))
      | None => Ok (OExpr (make_acc KSum (OExpr l) r))
      end = Ok o -> oval ps s o = Ok (a + b)).
  { intros H1. destruct (as_const r) as [w|] eqn:Hc.
    - apply as_const_inv in Hc. subst r. simpl in Hb. inv_ok.
      destruct (Z.eqb_spec b 0) as [->|]; inv_ok; cbn [oval]; [|assumption].
      rewrite Ha. f_equal; ring.
    - inv_ok. exact Hm. }
  destruct l; try exact (Hgen H).
  simpl in Ha. inv_ok. cbn [expr_add] in H.
  destruct (Z.eqb_spec a 0) as [->|].
  - inv_ok. cbn [oval]. rewrite oval_coerce, Hb. f_equal; ring.
  - destruct (as_const r) as [w|] eqn:Hc; inv_ok; [|exact Hm].
    apply as_const_inv in Hc. subst r. simpl in Hb. inv_ok. reflexivity.
Qed.

Lemma expr_sub_ok ps s l r a b o :
  evaluate ps s l = Ok a -> oval ps s r = Ok b -> expr_sub l r = Ok o ->
  oval ps s o = Ok (a - b).
Proof.
  intros Ha Hb H.
  pose proof (eval_bin_o ps s OSub l r a b Ha Hb) as Hm. cbn [bin_op] in Hm.
  assert (Hgen : match as_const r with
      | Some w => if w =? 0 then Ok (OExpr l) else Ok (OExpr (Bin OSub l (coerce r)))
      | None => Ok (OExpr (Bin OSub l (coerce r)))
      end = Ok o -> oval ps s o = Ok (a - b)).
  { intros H1. destruct (as_const r) as [w|] eqn:Hc.
    - apply as_const_inv in Hc. subst r. simpl in Hb. inv_ok.
      destruct (Z.eqb_spec b 0) as [->|]; inv_ok; [|assumption].
      cbn [oval]. rewrite Ha. f_equal; ring.
    - inv_ok. exact Hm. }
  destruct l; try exact (Hgen H).
  simpl in Ha. inv_ok. cbn [expr_sub] in H.
  destruct (Z.eqb_spec a 0) as [->|].
  - inv_ok. cbn [oval evaluate]. rewrite oval_coerce, Hb. reflexivity.
  - destruct (as_const r) as [w|] eqn:Hc; inv_ok; [|exact Hm].
    apply as_const_inv in Hc. subst r. simpl in Hb. inv_ok. reflexivity.
Qed.

Lemma expr_mul_ok ps s l r a b o :
  evaluate ps s l = Ok a -> oval ps s r = Ok b -> expr_mul l r = Ok o ->
  oval ps s o = Ok (a * b).
Proof.
  intros Ha Hb H.
  assert (Hm : evaluate ps s (make_acc KProd (OExpr l) r) = Ok (a * b)).
  { apply (evaluate_make_acc ps s KProd (OExpr l) r a b Ha Hb). }
  assert (Hgen : match as_const r with
      | Some w => if w =? 0 then Ok (OExpr (Const w))
                  else if w =? 1 then Ok (OExpr l)
                  else Ok (OExpr (make_acc KProd (OExpr l) r))
      | None => Ok (OExpr (make_acc KProd (OExpr l) r))
      end = Ok o -> oval ps s o = Ok (a * b)).
  { intros H1. destruct (as_const r) as [w|] eqn:Hc.
    - apply as_const_inv in Hc. subst r. simpl in Hb. inv_ok.
      destruct (Z.eqb_spec b 0) as [->|]; inv_ok; cbn [oval].
      + simpl. f_equal; ring.
      + destruct (Z.eqb_spec b 1) as [->|]; inv_ok; cbn [oval]; [|assumption].
        rewrite Ha. f_equal; ring.
    - inv_ok. exact Hm. }
  destruct l; try exact (Hgen H).
  simpl in Ha. inv_ok. cbn [expr_mul] in H.
  destruct (Z.eqb_spec a 0) as [->|].
  - inv_ok. reflexivity.
  - destruct (Z.eqb_spec a 1) as [->|].
    + inv_ok. cbn [oval]. rewrite oval_coerce, Hb. f_equal; ring.
    + destruct (as_const r) as [w|] eqn:Hc; inv_ok; [|exact Hm].
      apply as_const_inv in Hc. subst r. simpl in Hb. inv_ok. reflexivity.
Qed.

Lemma expr_div_ok ps s l r a b o :
  evaluate ps s l = Ok a -> oval ps s r = Ok b -> expr_div l r = Ok o -> b <> 0 ->
  oval ps s o = Ok (a / b).
Proof.
  intros Ha Hb H Hnz.
  pose proof (eval_bin_o ps s ODiv l r a b Ha Hb) as Hm. cbn [bin_op] in Hm.
  unfold py_floordiv in Hm. rewrite (proj2 (Z.eqb_neq b 0) Hnz) in Hm.
  assert (Hgen : match as_const r with
      | Some w => if w =? 1 then Ok (OExpr l) else Ok (OExpr (Bin ODiv l (coerce r)))
      | None => Ok (OExpr (Bin ODiv l (coerce r)))
      end = Ok o -> oval ps s o = Ok (a / b)).
  { intros H1. destruct (as_const r) as [w|] eqn:Hc.
    - apply as_const_inv in Hc. subst r. simpl in Hb. inv_ok.
      destruct (Z.eqb_spec b 1) as [->|]; inv_ok; [|assumption].
      cbn [oval]. rewrite Ha, Z.div_1_r. reflexivity.
    - inv_ok. exact Hm. }
  destruct l; try exact (Hgen H).
  simpl in Ha. inv_ok. cbn [expr_div] in H.
  destruct (Z.eqb_spec a 0) as [->|].
  - inv_ok. simpl. now rewrite Z.div_0_l.
  - destruct (as_const r) as [w|] eqn:Hc; [|inv_ok; exact Hm].
    apply as_const_inv in Hc. subst r. simpl in Hb. inv_ok.
    unfold py_floordiv in H. rewrite (proj2 (Z.eqb_neq b 0) Hnz) in H. simpl in H. inv_ok. reflexivity.
Qed.

Lemma expr_mod_ok ps s l r a b o :
  evaluate ps s l = Ok a -> oval ps s r = Ok b -> expr_mod l r = Ok o -> b <> 0 ->
  oval ps s o = Ok (a mod b).
Proof.
  intros Ha Hb H Hnz.
  pose proof (eval_bin_o ps s OMod l r a b Ha Hb) as Hm. cbn [bin_op] in Hm.
  unfold py_mod in Hm. rewrite (proj2 (Z.eqb_neq b 0) Hnz) in Hm.
  destruct l; cbn [expr_mod] in H; try (inv_ok; exact Hm).
  simpl in Ha. inv_ok.
  destruct (as_const r) as [w|] eqn:Hc; [|inv_ok; exact Hm].
  apply as_const_inv in Hc. subst r. simpl in Hb. inv_ok.
  unfold py_mod in H. rewrite (proj2 (Z.eqb_neq b 0) Hnz) in H. simpl in H. inv_ok. reflexivity.
Qed.

Lemma expr_pow_ok ps s l r a b o :
  evaluate ps s l = Ok a -> oval ps s r = Ok b -> expr_pow l r = Ok o -> 0 <= b ->
  oval ps s o = Ok (a ^ b).
Proof.
  intros Ha Hb H Hnz.
  pose proof (eval_bin_o ps s OPow l r a b Ha Hb) as Hm. cbn [bin_op] in Hm.
  unfold py_pow in Hm. rewrite (proj2 (Z.ltb_ge b 0) Hnz) in Hm.
  assert (Hgen : match as_const r with
      | Some w => if w =? 0 then Ok (OExpr (Const 1))
                  else if w =? 1 then Ok (OExpr l) else Ok (OExpr (Bin OPow l (coerce r)))
      | None => Ok (OExpr (Bin OPow l (coerce r)))
      end = Ok o -> oval ps s o = Ok (a ^ b)).
  { intros H1. destruct (as_const r) as [w|] eqn:Hc.
    - apply as_const_inv in Hc. subst r. simpl in Hb. inv_ok.
      destruct (Z.eqb_spec b 0) as [->|]; [inv_ok; reflexivity|].
      destruct (Z.eqb_spec b 1) as [->|]; inv_ok; [|assumption].
      cbn [oval]. rewrite Ha, Z.pow_1_r. reflexivity.
    - inv_ok. exact Hm. }
  destruct l; try exact (Hgen H).
  simpl in Ha. inv_ok. cbn [expr_pow] in H.
  destruct (Z.eqb_spec a 1) as [->|].
  - inv_ok. simpl. now rewrite Z.pow_1_l.
  - destruct (as_const r) as [w|] eqn:Hc; [|inv_ok; exact Hm].
    apply as_const_inv in Hc. subst r. simpl in Hb. inv_ok.
    unfold py_pow in H. rewrite (proj2 (Z.ltb_ge b 0) Hnz) in H. simpl in H. inv_ok. reflexivity.
Qed.

Lemma expr_bool_ok ps s op l r a b o :
  evaluate ps s l = Ok a -> oval ps s r = Ok b -> expr_cmp op l r = Ok o ->
  oval ps s o = bin_op op a b.
Proof.
  intros Ha Hb H.
  pose proof (eval_bin_o ps s op l r a b Ha Hb) as Hm.
  destruct l; cbn [expr_cmp] in H; try (inv_ok; exact Hm).
  simpl in Ha. inv_ok.
  destruct (as_const r) as [w|] eqn:Hc; [|inv_ok; exact Hm].
  apply as_const_inv in Hc. subst r. simpl in Hb. inv_ok.
  apply bind_Ok in H. destruct H as (v & Hv & H). inv_ok. simpl. now rewrite Hv.
Qed.

Lemma expr_logic_is_cmp op l r : expr_logic op l r = expr_cmp op l r.
Proof. reflexivity. Qed.

Lemma swap_cmp_ok op a b :
  match op with OEq | ONe | OLt | OLe | OGt | OGe => True | _ => False end ->
  bin_op (swap_cmp op) b a = bin_op op a b.
Proof.
  destruct op; try contradiction; intros _; simpl; try reflexivity.
  - now rewrite Z.eqb_sym.
  - now rewrite Z.eqb_sym.
Qed.

Definition is_int (o : operand) : bool := match o with OInt _ => true | _ => false end.

(** Operator-level theorem: the value of the object built by an operator. *)
Lemma py_op_ok ps s u a b va vb v o :
  oval ps s a = Ok va -> oval ps s b = Ok vb ->
  arith u va vb = Some v ->
  py_op u a b = Ok o ->
  (match u with UAnd | UOr => is_int a && is_int b = false | _ => True end) ->
  oval ps s o = Ok v.
Proof.
  intros Ha Hb Hv H Hraw.
  destruct a as [x|l].
  - destruct b as [y|r].
    + (* int op int *)
      simpl in Ha, Hb. inv_ok. simpl in H.
      destruct u; simpl in *; unfold py_floordiv, py_mod, py_pow, b2z in *; try discriminate;
        try (inversion H; inversion Hv; subst; reflexivity).
      * destruct (vb =? 0); discriminate.
      * destruct (vb =? 0); [discriminate|]. simpl in H. inversion H; inversion Hv; subst; reflexivity.
      * destruct (vb =? 0); [discriminate|]. simpl in H. inversion H; inversion Hv; subst; reflexivity.
      * destruct (vb <? 0); [discriminate|]. simpl in H. inversion H; inversion Hv; subst; reflexivity.
      * inversion H; inversion Hv; subst. simpl. now destruct (va =? vb).
    + (* int op expr *)
      simpl in Ha. inv_ok. cbn [oval] in Hb.
      assert (Hc : evaluate ps s (Const va) = Ok va) by reflexivity.
      assert (Hbo : oval ps s (OExpr r) = Ok vb) by exact Hb.
      cbn [py_op] in H.
      destruct u; cbn [int_expr_op] in H; try discriminate;
        try (cbn [cmp_of] in H;
             rewrite (expr_bool_ok ps s _ r (OInt va) vb va o Hb eq_refl H);
             rewrite swap_cmp_ok by exact I;
             eapply bin_op_arith; [|exact Hv]; exact I).
      * rewrite (expr_add_ok ps s _ _ _ _ o Hc Hbo H). simpl in Hv. congruence.
      * rewrite (expr_sub_ok ps s _ _ _ _ o Hc Hbo H). simpl in Hv. congruence.
      * rewrite (expr_mul_ok ps s _ _ _ _ o Hc Hbo H). simpl in Hv. congruence.
      * simpl in Hv. destruct (Z.eqb_spec vb 0); [discriminate|].
        rewrite (expr_mod_ok ps s _ _ _ _ o Hc Hbo H) by assumption. congruence.
      * simpl in Hv. destruct (Z.ltb_spec vb 0); [discriminate|].
        rewrite (expr_pow_ok ps s _ _ _ _ o Hc Hbo H) by assumption. congruence.
      * inv_ok. cbn [oval]. rewrite (eval_bin ps s OAnd (Const va) r va vb Hc Hb).
        now apply (bin_op_arith OAnd UAnd).
      * inv_ok. cbn [oval]. rewrite (eval_bin ps s OOr (Const va) r va vb Hc Hb).
        now apply (bin_op_arith OOr UOr).
  - cbn [oval] in Ha. cbn [py_op] in H.
    assert (Hcmp : forall op, cmp_of u = Some op ->
       match b with
       | OExpr re => if is_var_param l re
                     then expr_cmp (swap_cmp op) re (OExpr l)
                     else expr_cmp op l b
       | OInt _ => expr_cmp op l b
       end = Ok o -> oval ps s o = Ok v).
    { intros op Hop Hc.
      assert (Hgoal : bin_op op va vb = Ok v).
      { eapply bin_op_arith; [|exact Hv]. destruct u; inversion Hop; subst; exact I. }
      destruct b as [n|re].
      - rewrite (expr_bool_ok ps s op l _ va vb o Ha Hb Hc). exact Hgoal.
      - destruct (is_var_param l re).
        + rewrite (expr_bool_ok ps s (swap_cmp op) re (OExpr l) vb va o Hb Ha Hc).
          rewrite swap_cmp_ok; [exact Hgoal|]. destruct u; inversion Hop; subst; exact I.
        + rewrite (expr_bool_ok ps s op l _ va vb o Ha Hb Hc). exact Hgoal. }
    destruct u; cbn [expr_op] in H; try discriminate;
      try (apply (Hcmp _ eq_refl H)).
    + rewrite (expr_add_ok ps s _ _ _ _ o Ha Hb H). simpl in Hv. congruence.
    + rewrite (expr_sub_ok ps s _ _ _ _ o Ha Hb H). simpl in Hv. congruence.
    + rewrite (expr_mul_ok ps s _ _ _ _ o Ha Hb H). simpl in Hv. congruence.
    + simpl in Hv. destruct (Z.eqb_spec vb 0); [discriminate|].
      rewrite (expr_div_ok ps s _ _ _ _ o Ha Hb H) by assumption. congruence.
    + simpl in Hv. destruct (Z.eqb_spec vb 0); [discriminate|].
      rewrite (expr_mod_ok ps s _ _ _ _ o Ha Hb H) by assumption. congruence.
    + simpl in Hv. destruct (Z.ltb_spec vb 0); [discriminate|].
      rewrite (expr_pow_ok ps s _ _ _ _ o Ha Hb H) by assumption. congruence.
    + rewrite expr_logic_is_cmp in H.
      rewrite (expr_bool_ok ps s OAnd l b va vb o Ha Hb H). now apply (bin_op_arith OAnd UAnd).
    + rewrite expr_logic_is_cmp in H.
      rewrite (expr_bool_ok ps s OOr l b va vb o Ha Hb H). now apply (bin_op_arith OOr UOr).
Qed.

(** ** Whole formulas *)

Lemma is01_cases a : is01 a = true -> a = 0 \/ a = 1.
Proof. unfold is01. rewrite orb_true_iff, !Z.eqb_eq. tauto. Qed.

Lemma py_op_ok_formula ps s u a b va vb v o :
  oval ps s a = Ok va -> oval ps s b = Ok vb ->
  match u with
  | UAnd | UOr => if is01 va && is01 vb then arith u va vb else None
  | _ => arith u va vb
  end = Some v ->
  py_op u a b = Ok o -> oval ps s o = Ok v.
Proof.
  intros Ha Hb Hv H.
  assert (Hlogic : (u = UAnd \/ u = UOr) \/
                   (arith u va vb = Some v /\ match u with UAnd | UOr => False | _ => True end)).
  { destruct u; auto. }
  destruct Hlogic as [Hlogic|[Hv' Hu]].
  - assert (Hv' : is01 va = true /\ is01 vb = true /\ arith u va vb = Some v).
    { destruct Hlogic; subst u; destruct (is01 va), (is01 vb); simpl in Hv; try discriminate; auto. }
    destruct Hv' as (H1 & H2 & Hv').
    destruct (is_int a && is_int b) eqn:Hi.
    + destruct a as [x|], b as [y|]; simpl in Hi; try discriminate.
      simpl in Ha, Hb. inv_ok. apply is01_cases in H1, H2.
      destruct Hlogic; subst u; simpl in H, Hv'; inv_ok; inversion Hv'; subst; simpl;
        destruct H1, H2; subst; reflexivity.
    + eapply py_op_ok; [exact Ha|exact Hb|exact Hv'|exact H|]. destruct Hlogic; subst u; exact Hi.
  - eapply py_op_ok; [exact Ha|exact Hb|exact Hv'|exact H|]. destruct u; try contradiction; exact I.
Qed.

Lemma binds_app s a xs ys : binds s a (xs ++ ys) <-> binds s a xs /\ binds s a ys.
Proof.
  unfold binds; split.
  - intros H; split; intros x Hx; apply H, in_or_app; auto.
  - intros [H1 H2] x Hx. apply in_app_or in Hx. destruct Hx; auto.
Qed.

Lemma build_meaning ps a s f : forall v o,
  binds s a (fvars f) -> meaning ps a f = Some v -> build f = Ok o -> oval ps s o = Ok v.
Proof.
  induction f as [n|x|p x|f IH|f IH|u f g IHf IHg|fs IH] using formula_ind'; intros v o Hb Hm Hbd.
  - simpl in *. inv_ok. inversion Hm; subst; reflexivity.
  - simpl in *. inv_ok. inversion Hm; subst. simpl. rewrite (Hb x) by (left; reflexivity). reflexivity.
  - simpl in *. inv_ok. inversion Hm; subst; reflexivity.
  - simpl in *. destruct (meaning ps a f) as [w|] eqn:Hw; [|discriminate]. inversion Hm; subst v.
    apply bind_Ok in Hbd. destruct Hbd as (o1 & H1 & H2). inv_ok.
    specialize (IH w o1 Hb eq_refl H1). destruct o1; simpl in *; [inv_ok; reflexivity|].
    now rewrite IH.
  - simpl in *. destruct (meaning ps a f) as [w|] eqn:Hw; [|discriminate]. inversion Hm; subst v.
    apply bind_Ok in Hbd. destruct Hbd as (o1 & H1 & H2). inv_ok.
    specialize (IH w o1 Hb eq_refl H1). destruct o1; simpl in *; [inv_ok; reflexivity|].
    now rewrite IH.
  - cbn [fvars] in Hb. apply binds_app in Hb. destruct Hb as [Hbf Hbg].
    cbn [meaning] in Hm. destruct (meaning ps a f) as [vf|] eqn:Hf; [|discriminate].
    destruct (meaning ps a g) as [vg|] eqn:Hg; [|discriminate].
    cbn [build] in Hbd. apply bind_Ok in Hbd. destruct Hbd as (of & H1 & Hbd).
    apply bind_Ok in Hbd. destruct Hbd as (og & H2 & Hbd).
    eapply py_op_ok_formula; [eapply IHf; eauto|eapply IHg; eauto|exact Hm|exact Hbd].
  - cbn [fvars] in Hb. cbn [meaning] in Hm. cbn [build] in Hbd.
    assert (Hgen : forall acc va w,
      oval ps s acc = Ok va ->
      (fix go (l : list formula) : option Z :=
         match l with
         | [] => Some 0
         | g :: l' => match meaning ps a g, go l' with
                      | Some v, Some w => Some (v + w)
                      | _, _ => None
                      end
         end) fs = Some w ->
      (fix go (acc : operand) (l : list formula) : res operand :=
         match l with
         | [] => Ok acc
         | g :: l' => let! o := build g in let! a := py_op UAdd acc o in go a l'
         end) acc fs = Ok o -> oval ps s o = Ok (va + w)).
    { clear Hm Hbd. induction IH as [|f fs Hf Hfs IH']; intros acc va w Hacc Hm Hbd.
      - inv_ok. inversion Hm; subst. rewrite Hacc. f_equal; ring.
      - cbn [flat_map] in Hb. apply binds_app in Hb. destruct Hb as [Hbf Hbg].
        destruct (meaning ps a f) as [vf|] eqn:Hmf; [|discriminate].
        match type of Hm with match ?X with _ => _ end = _ => destruct X as [w'|] eqn:Hw' end; [|discriminate].
        inversion Hm; subst w. clear Hm.
        apply bind_Ok in Hbd. destruct Hbd as (of & H1 & Hbd).
        apply bind_Ok in Hbd. destruct Hbd as (acc' & H2 & Hbd).
        assert (Hacc' : oval ps s acc' = Ok (va + vf)).
        { eapply py_op_ok_formula; [exact Hacc|eapply Hf; eauto| |exact H2]. reflexivity. }
        rewrite (IH' Hbg acc' (va + vf) w' Hacc' eq_refl Hbd). f_equal; ring. }
    rewrite (Hgen (OInt 0) 0 v eq_refl Hm Hbd). f_equal.
Qed.

(** *** Building only fails on division, or when the formula is undefined *)

Lemma expr_mod_total ps s l r a b :
  evaluate ps s l = Ok a -> oval ps s r = Ok b -> b <> 0 -> exists o, expr_mod l r = Ok o.
Proof.
  intros Ha Hb Hnz. destruct l; cbn [expr_mod]; eauto.
  destruct (as_const r) as [w|] eqn:Hc; eauto.
  apply as_const_inv in Hc; subst r. simpl in Hb; inv_ok.
  unfold py_mod. rewrite (proj2 (Z.eqb_neq b 0) Hnz). simpl; eauto.
Qed.

Lemma expr_pow_total ps s l r a b :
  evaluate ps s l = Ok a -> oval ps s r = Ok b -> 0 <= b -> exists o, expr_pow l r = Ok o.
Proof.
  intros Ha Hb Hnz. destruct l; cbn [expr_pow];
    try (destruct (as_const r) as [w|]; [destruct (w =? 0); [|destruct (w =? 1)]|]; eauto; fail).
  destruct (z =? 1); eauto.
  destruct (as_const r) as [w|] eqn:Hc; eauto.
  apply as_const_inv in Hc; subst r. simpl in Hb; inv_ok.
  unfold py_pow. rewrite (proj2 (Z.ltb_ge b 0) Hnz). simpl; eauto.
Qed.

Lemma expr_cmp_total op l r :
  match op with OEq | ONe | OLt | OLe | OGt | OGe | OAnd | OOr => True | _ => False end ->
  exists o, expr_cmp op l r = Ok o.
Proof.
  intros Hop. destruct l; cbn [expr_cmp]; eauto.
  destruct (as_const r) as [w|]; eauto.
  destruct op; try contradiction; simpl; eauto.
Qed.

Lemma py_op_total ps s u a b va vb v :
  oval ps s a = Ok va -> oval ps s b = Ok vb ->
  arith u va vb = Some v ->
  match u with UDiv => is_int a = false | UFloorDiv => False | _ => True end ->
  exists o, py_op u a b = Ok o.
Proof.
  intros Ha Hb Hv Hu.
  assert (Hdiv : forall l r, oval ps s r = Ok vb -> vb <> 0 -> exists o, expr_div l r = Ok o).
  { intros l r Hr Hnz. destruct l; cbn [expr_div];
      try (destruct (as_const r) as [w|]; [destruct (w =? 1)|]; eauto; fail).
    destruct (z =? 0); eauto. destruct (as_const r) eqn:Hc; eauto.
    apply as_const_inv in Hc; subst r. simpl in Hr; inv_ok.
    unfold py_floordiv. rewrite (proj2 (Z.eqb_neq vb 0) Hnz). simpl; eauto. }
  assert (Hadd : forall l r, exists o, expr_add l r = Ok o).
  { intros l r. destruct l; cbn [expr_add];
      try (destruct (as_const r) as [w|]; [destruct (w =? 0)|]; eauto; fail).
    destruct (z =? 0); eauto. destruct (as_const r); eauto. }
  assert (Hsub : forall l r, exists o, expr_sub l r = Ok o).
  { intros l r. destruct l; cbn [expr_sub];
      try (destruct (as_const r) as [w|]; [destruct (w =? 0)|]; eauto; fail).
    destruct (z =? 0); eauto. destruct (as_const r); eauto. }
  assert (Hmul : forall l r, exists o, expr_mul l r = Ok o).
  { intros l r. destruct l; cbn [expr_mul];
      try (destruct (as_const r) as [w|]; [destruct (w =? 0); [|destruct (w =? 1)]|]; eauto; fail).
    destruct (z =? 0); eauto. destruct (z =? 1); eauto. destruct (as_const r); eauto. }
  destruct a as [x|l], b as [y|r]; cbn [py_op oval] in *.
  - inv_ok. destruct u; simpl in *; unfold py_mod, py_pow in *; try contradiction; try discriminate; eauto.
    + destruct (vb =? 0); [discriminate|]. simpl; eauto.
    + destruct (vb <? 0); [discriminate|]. simpl; eauto.
  - inv_ok. destruct u; cbn [int_expr_op]; try contradiction; try discriminate; eauto;
      try (cbn [cmp_of]; apply expr_cmp_total; exact I).
    + simpl in Hv. destruct (Z.eqb_spec vb 0); [discriminate|].
      eapply (expr_mod_total ps s (Const va) (OExpr r)); simpl; eauto.
    + simpl in Hv. destruct (Z.ltb_spec vb 0); [discriminate|].
      eapply (expr_pow_total ps s (Const va) (OExpr r)); simpl; eauto.
  - inv_ok. destruct u; cbn [expr_op]; try contradiction; eauto;
      try (cbn [cmp_of]; apply expr_cmp_total; exact I);
      try (rewrite expr_logic_is_cmp; apply expr_cmp_total; exact I).
    + simpl in Hv. destruct (Z.eqb_spec vb 0); [discriminate|]. apply Hdiv; [reflexivity|assumption].
    + simpl in Hv. destruct (Z.eqb_spec vb 0); [discriminate|].
      eapply (expr_mod_total ps s l (OInt vb)); simpl; eauto.
    + simpl in Hv. destruct (Z.ltb_spec vb 0); [discriminate|].
      eapply (expr_pow_total ps s l (OInt vb)); simpl; eauto.
  - destruct u; cbn [expr_op]; try contradiction; eauto;
      try (cbn [cmp_of]; destruct (is_var_param l r); apply expr_cmp_total; exact I);
      try (rewrite expr_logic_is_cmp; apply expr_cmp_total; exact I).
    + simpl in Hv. destruct (Z.eqb_spec vb 0); [discriminate|]. apply Hdiv; assumption.
    + simpl in Hv. destruct (Z.eqb_spec vb 0); [discriminate|].
      eapply (expr_mod_total ps s l (OExpr r)); simpl; eauto.
    + simpl in Hv. destruct (Z.ltb_spec vb 0); [discriminate|].
      eapply (expr_pow_total ps s l (OExpr r)); simpl; eauto.
Qed.

Lemma meaning_arith u va vb v :
  match u with
  | UAnd | UOr => if is01 va && is01 vb then arith u va vb else None
  | _ => arith u va vb
  end = Some v -> arith u va vb = Some v.
Proof. destruct u; auto; destruct (is01 va && is01 vb); auto; discriminate. Qed.

(** A substitution binding exactly the wanted names (used to run [build_meaning]). *)
Definition subst_of (a : assignment) (xs : list name) : subst := map (fun x => (x, a x)) xs.
Lemma subst_of_binds a xs : binds (subst_of a xs) a xs.
Proof.
  intros x Hx. induction xs as [|y xs IH]; [contradiction|].
  simpl. destruct (String.eqb_spec x y) as [->|]; [reflexivity|].
  destruct Hx; [congruence|auto].
Qed.

Lemma py_op_arith_is_expr u a b o :
  match u with
  | UAdd | USub | UMul | UMod | UPow => is_int a = false \/ is_int b = false
  | UDiv => is_int a = false
  | _ => False
  end ->
  py_op u a b = Ok o -> is_int o = false.
Proof.
  assert (Hadd : forall l r o', expr_add l r = Ok o' -> is_int o' = false).
  { intros l r o' H. destruct l; cbn [expr_add] in H;
      try (destruct (as_const r) as [w|]; [destruct (w =? 0)|]; inv_ok; reflexivity).
    destruct (z =? 0); [inv_ok; reflexivity|]. destruct (as_const r); inv_ok; reflexivity. }
  assert (Hsub : forall l r o', expr_sub l r = Ok o' -> is_int o' = false).
  { intros l r o' H. destruct l; cbn [expr_sub] in H;
      try (destruct (as_const r) as [w|]; [destruct (w =? 0)|]; inv_ok; reflexivity).
    destruct (z =? 0); [inv_ok; reflexivity|]. destruct (as_const r); inv_ok; reflexivity. }
  assert (Hmul : forall l r o', expr_mul l r = Ok o' -> is_int o' = false).
  { intros l r o' H. destruct l; cbn [expr_mul] in H;
      try (destruct (as_const r) as [w|]; [destruct (w =? 0); [|destruct (w =? 1)]|]; inv_ok; reflexivity).
    destruct (z =? 0); [inv_ok; reflexivity|]. destruct (z =? 1); [inv_ok; reflexivity|].
    destruct (as_const r); inv_ok; reflexivity. }
  assert (Hdiv : forall l r o', expr_div l r = Ok o' -> is_int o' = false).
  { intros l r o' H. destruct l; cbn [expr_div] in H;
      try (destruct (as_const r) as [w|]; [destruct (w =? 1)|]; inv_ok; reflexivity).
    destruct (z =? 0); [inv_ok; reflexivity|].
    destruct (as_const r); [apply bind_Ok in H; destruct H as (q & _ & H)|]; inv_ok; reflexivity. }
  assert (Hmod : forall l r o', expr_mod l r = Ok o' -> is_int o' = false).
  { intros l r o' H. destruct l; cbn [expr_mod] in H; try (inv_ok; reflexivity).
    destruct (as_const r); [apply bind_Ok in H; destruct H as (q & _ & H)|]; inv_ok; reflexivity. }
  assert (Hpow : forall l r o', expr_pow l r = Ok o' -> is_int o' = false).
  { intros l r o' H. destruct l; cbn [expr_pow] in H;
      try (destruct (as_const r) as [w|]; [destruct (w =? 0); [|destruct (w =? 1)]|]; inv_ok; reflexivity).
    destruct (z =? 1); [inv_ok; reflexivity|].
    destruct (as_const r); [apply bind_Ok in H; destruct H as (q & _ & H)|]; inv_ok; reflexivity. }
  intros Hi H. destruct a as [n|l], b as [m|r]; cbn [py_op] in H;
    destruct u; cbn [expr_op int_expr_op] in H; try contradiction; simpl in Hi;
    try discriminate; try (destruct Hi; discriminate); eauto.
Qed.

Lemma build_surely_expr f : forall o, surely_expr f = true -> build f = Ok o -> is_int o = false.
Proof.
  induction f as [n|x|p x|f IH|f IH|u f g IHf IHg|fs IH] using formula_ind'; intros o Hs Hb.
  - discriminate.
  - simpl in Hb; inv_ok; reflexivity.
  - simpl in Hb; inv_ok; reflexivity.
  - simpl in *. apply bind_Ok in Hb. destruct Hb as (o1 & H1 & H2). inv_ok.
    specialize (IH o1 Hs H1). destruct o1; [discriminate|reflexivity].
  - simpl in *. apply bind_Ok in Hb. destruct Hb as (o1 & H1 & H2). inv_ok.
    specialize (IH o1 Hs H1). destruct o1; [discriminate|reflexivity].
  - cbn [build] in Hb. apply bind_Ok in Hb. destruct Hb as (of & H1 & Hb).
    apply bind_Ok in Hb. destruct Hb as (og & H2 & Hb). cbn [surely_expr] in Hs.
    eapply py_op_arith_is_expr; [|exact Hb].
    destruct u; try discriminate; try (apply orb_true_iff in Hs; destruct Hs; eauto); eauto.
  - cbn [build] in Hb. cbn [surely_expr] in Hs.
    assert (Hgen : forall acc,
      is_int acc = false \/ existsb surely_expr fs = true ->
      (fix go (acc : operand) (l : list formula) : res operand :=
         match l with
         | [] => Ok acc
         | g :: l' => let! o := build g in let! a := py_op UAdd acc o in go a l'
         end) acc fs = Ok o -> is_int o = false).
    { clear Hb Hs. induction IH as [|f fs Hf Hfs IH']; intros acc Hor Hb.
      - inv_ok. destruct Hor; [assumption|discriminate].
      - apply bind_Ok in Hb. destruct Hb as (of & H1 & Hb).
        apply bind_Ok in Hb. destruct Hb as (acc' & H2 & Hb).
        eapply IH'; [|exact Hb]. cbn [existsb] in Hor.
        destruct Hor as [Hacc|Hor].
        + left. eapply (py_op_arith_is_expr UAdd); [|exact H2]. auto.
        + apply orb_true_iff in Hor. destruct Hor as [Hor|Hor]; [|auto].
          left. eapply (py_op_arith_is_expr UAdd); [|exact H2]. right. eauto. }
    eapply Hgen; [right; exact Hs|exact Hb].
Qed.

Lemma build_total ps a s f : forall v,
  binds s a (fvars f) -> meaning ps a f = Some v -> div_ok f = true ->
  exists o, build f = Ok o.
Proof.
  induction f as [n|x|p x|f IH|f IH|u f g IHf IHg|fs IH] using formula_ind'; intros v Hb Hm Hnd;
    try (simpl; eauto; fail).
  - simpl in *. destruct (meaning ps a f) as [w|] eqn:Hw; [|discriminate].
    destruct (IH w Hb eq_refl Hnd) as (o & ->). simpl; eauto.
  - simpl in *. destruct (meaning ps a f) as [w|] eqn:Hw; [|discriminate].
    destruct (IH w Hb eq_refl Hnd) as (o & ->). simpl; eauto.
  - cbn [fvars] in Hb. apply binds_app in Hb. destruct Hb as [Hbf Hbg].
    cbn [meaning] in Hm. destruct (meaning ps a f) as [vf|] eqn:Hf; [|discriminate].
    destruct (meaning ps a g) as [vg|] eqn:Hg; [|discriminate].
    cbn [div_ok] in Hnd. apply andb_true_iff in Hnd. destruct Hnd as [Hnd Hndg].
    apply andb_true_iff in Hnd. destruct Hnd as [Hu Hndf].
    destruct (IHf vf Hbf eq_refl Hndf) as (of & Hof).
    destruct (IHg vg Hbg eq_refl Hndg) as (og & Hog).
    cbn [build]. rewrite Hof, Hog. cbn [bind].
    eapply py_op_total;
      [exact (build_meaning ps a s f vf of Hbf Hf Hof)|exact (build_meaning ps a s g vg og Hbg Hg Hog)
      |eapply meaning_arith; exact Hm|].
    destruct u; try discriminate; try exact I. exact (build_surely_expr f of Hu Hof).
  - cbn [fvars] in Hb. cbn [meaning] in Hm. cbn [div_ok] in Hnd. cbn [build].
    assert (Hgen : forall acc va w,
      oval ps s acc = Ok va ->
      (fix go (l : list formula) : option Z :=
         match l with
         | [] => Some 0
         | g :: l' => match meaning ps a g, go l' with
                      | Some v, Some w => Some (v + w)
                      | _, _ => None
                      end
         end) fs = Some w ->
      exists o, (fix go (acc : operand) (l : list formula) : res operand :=
         match l with
         | [] => Ok acc
         | g :: l' => let! o := build g in let! a := py_op UAdd acc o in go a l'
         end) acc fs = Ok o).
    { clear Hm. induction IH as [|f fs Hf Hfs IH']; intros acc va w Hacc Hm; [eauto|].
      cbn [flat_map] in Hb. apply binds_app in Hb. destruct Hb as [Hbf Hbg].
      cbn [forallb] in Hnd. apply andb_true_iff in Hnd. destruct Hnd as [Hndf Hnds].
      destruct (meaning ps a f) as [vf|] eqn:Hmf; [|discriminate].
      match type of Hm with match ?X with _ => _ end = _ => destruct X as [w'|] eqn:Hw' end; [|discriminate].
      destruct (Hf vf Hbf eq_refl Hndf) as (of & Hof). rewrite Hof. cbn [bind].
      pose proof (build_meaning ps a s f vf of Hbf Hmf Hof) as Hovf.
      destruct (py_op_total ps s UAdd acc of va vf (va + vf) Hacc Hovf eq_refl I) as (acc' & Hacc').
      rewrite Hacc'. cbn [bind].
      eapply (IH' Hbg Hnds acc' (va + vf) w'); [|reflexivity].
      eapply py_op_ok_formula; [exact Hacc|exact Hovf| |exact Hacc']. reflexivity. }
    eapply (Hgen (OInt 0) 0); [reflexivity|exact Hm].
Qed.

(** ** [vars] *)

Lemma memb_In x l : memb x l = true <-> In x l.
Proof.
  unfold memb. rewrite existsb_exists. split.
  - intros (y & Hy & He). apply String.eqb_eq in He. now subst.
  - intros H. exists x. split; [assumption|apply String.eqb_refl].
Qed.
Lemma memb_false x l : memb x l = false <-> ~ In x l.
Proof. rewrite <- memb_In. destruct (memb x l); split; intros; congruence. Qed.


Lemma NoDup_snoc {A} (l : list A) x : NoDup l -> ~ In x l -> NoDup (l ++ [x]).
Proof.
  intros Hl Hx. induction Hl as [|y l Hy Hl IH]; simpl.
  - constructor; [simpl; tauto|constructor].
  - constructor.
    + rewrite in_app_iff. simpl. intros [H|[H|[]]]; [contradiction|]. subst. apply Hx. now left.
    + apply IH. intros H; apply Hx; now right.
Qed.

Lemma dedup_acc_spec l : forall seen, NoDup seen ->
  NoDup (dedup_acc seen l) /\ (forall x, In x (dedup_acc seen l) <-> In x seen \/ In x l).
Proof.
  induction l as [|y l IH]; intros seen Hs; cbn [dedup_acc].
  - split; [assumption|]. simpl; tauto.
  - destruct (memb y seen) eqn:Hm.
    + destruct (IH seen Hs) as [H1 H2]. split; [assumption|].
      intros x. rewrite H2. simpl. apply memb_In in Hm.
      split; [tauto|]. intros [H|[H|H]]; subst; auto.
    + apply memb_false in Hm.
      destruct (IH _ (NoDup_snoc _ _ Hs Hm)) as [H1 H2]. split; [assumption|].
      intros x. rewrite H2, in_app_iff. simpl. tauto.
Qed.

Lemma dedup_NoDup l : NoDup (dedup l).
Proof. apply (dedup_acc_spec l []). constructor. Qed.
Lemma dedup_In l x : In x (dedup l) <-> In x l.
Proof. unfold dedup. destruct (dedup_acc_spec l [] (NoDup_nil _)) as [_ H]. rewrite H. simpl; tauto. Qed.

Lemma vars_NoDup e : NoDup (vars e).
Proof.
  destruct e; simpl; try apply dedup_NoDup; repeat constructor. simpl; tauto.
Qed.

Lemma vars_occurs x e : In x (vars e) <-> occurs x e.
Proof.
  induction e as [z|y|p y|e IH|e IH|e IH|o l r IHl IHr|es c IH|es c IH] using expr_ind'; simpl;
    try rewrite dedup_In.
  - split; [tauto|inversion 1].
  - split; [intros [->|[]]; constructor|inversion 1; auto].
  - split; [tauto|inversion 1].
  - rewrite IH. split; [now constructor|inversion 1; assumption].
  - rewrite IH. split; [now constructor|inversion 1; assumption].
  - rewrite IH. split; [now constructor|inversion 1; assumption].
  - rewrite in_app_iff, IHl, IHr. split.
    + intros [H|H]; [now apply occ_binl|now apply occ_binr].
    + inversion 1; auto.
  - rewrite in_flat_map. rewrite Forall_forall in IH. split.
    + intros (e & He & Hx). apply (occ_sum x es c e He). now apply IH.
    + inversion 1; subst. exists e. split; [assumption|]. now apply IH.
  - rewrite in_flat_map. rewrite Forall_forall in IH. split.
    + intros (e & He & Hx). apply (occ_prod x es c e He). now apply IH.
    + inversion 1; subst. exists e. split; [assumption|]. now apply IH.
Qed.

Lemma mapM_ext_in {A B} (f g : A -> res B) l :
  (forall x, In x l -> f x = g x) -> mapM f l = mapM g l.
Proof.
  induction l as [|x l IH]; intros H; [reflexivity|].
  simpl. rewrite (H x) by (now left). destruct (g x); simpl; [|reflexivity].
  rewrite IH by (intros y Hy; apply H; now right). reflexivity.
Qed.

Lemma evaluate_Sum ps s es c :
  evaluate ps s (Sum es c) =
  (let! vs := mapM (evaluate ps s) es in Ok (c + tot KSum vs)).
Proof. apply (evaluate_acc ps s KSum es c). Qed.
Lemma evaluate_Prod ps s es c :
  evaluate ps s (Prod es c) =
  (let! vs := mapM (evaluate ps s) es in Ok (c * tot KProd vs)).
Proof. apply (evaluate_acc ps s KProd es c). Qed.

Lemma evaluate_agree ps s s' e :
  (forall x, occurs x e -> dget s x = dget s' x) -> evaluate ps s e = evaluate ps s' e.
Proof.
  induction e as [z|y|p y|e IH|e IH|e IH|o l r IHl IHr|es c IH|es c IH] using expr_ind'; intros H;
    try reflexivity.
  - simpl. rewrite (H y) by constructor. reflexivity.
  - simpl. rewrite IH; [reflexivity|]. intros; apply H; now constructor.
  - simpl. rewrite IH; [reflexivity|]. intros; apply H; now constructor.
  - simpl. rewrite IH; [reflexivity|]. intros; apply H; now constructor.
  - simpl. rewrite IHl, IHr; [reflexivity| |]; intros; apply H; now constructor.
  - rewrite !evaluate_Sum. rewrite (mapM_ext_in _ (evaluate ps s')); [reflexivity|].
    intros e He. rewrite Forall_forall in IH. apply IH; [assumption|].
    intros x Hx. apply H. eapply occ_sum; eauto.
  - rewrite !evaluate_Prod. rewrite (mapM_ext_in _ (evaluate ps s')); [reflexivity|].
    intros e He. rewrite Forall_forall in IH. apply IH; [assumption|].
    intros x Hx. apply H. eapply occ_prod; eauto.
Qed.

Lemma bin_op_no_EE o a b : bin_op o a b <> Err EvaluationError.
Proof.
  destruct o; simpl; unfold py_floordiv, py_mod, py_pow; try discriminate.
  - destruct (b =? 0); discriminate.
  - destruct (b =? 0); discriminate.
  - destruct (b <? 0); [destruct (a =? 0)|]; discriminate.
Qed.

Lemma mapM_no_err {A B} (f : A -> res B) l ex :
  (forall x, In x l -> f x <> Err ex) -> mapM f l <> Err ex.
Proof.
  induction l as [|x l IH]; intros H; [discriminate|].
  simpl. specialize (H x (or_introl eq_refl)) as Hx.
  destruct (f x) as [v|e]; simpl; [|congruence].
  assert (Hl : mapM f l <> Err ex) by (apply IH; intros y Hy; apply H; now right).
  destruct (mapM f l); simpl; congruence.
Qed.

Lemma evaluate_bound ps s e :
  (forall x, occurs x e -> dget s x <> None) -> evaluate ps s e <> Err EvaluationError.
Proof.
  induction e as [z|y|p y|e IH|e IH|e IH|o l r IHl IHr|es c IH|es c IH] using expr_ind'; intros H;
    try discriminate.
  - simpl. specialize (H y (occ_var y)). destruct (dget s y); congruence.
  - simpl. assert (H' := IH (fun x Hx => H x (occ_neg x e Hx))).
    destruct (evaluate ps s e); simpl; congruence.
  - simpl. assert (H' := IH (fun x Hx => H x (occ_abs x e Hx))).
    destruct (evaluate ps s e); simpl; congruence.
  - simpl. assert (H' := IH (fun x Hx => H x (occ_not x e Hx))).
    destruct (evaluate ps s e); simpl; congruence.
  - simpl. assert (Hl := IHl (fun x Hx => H x (occ_binl x o l r Hx))).
    assert (Hr := IHr (fun x Hx => H x (occ_binr x o l r Hx))).
    destruct (evaluate ps s l); simpl; [|congruence].
    destruct (evaluate ps s r); simpl; [|congruence]. apply bin_op_no_EE.
  - rewrite evaluate_Sum. assert (Hm : mapM (evaluate ps s) es <> Err EvaluationError).
    { apply mapM_no_err. intros e He. rewrite Forall_forall in IH. apply IH; [assumption|].
      intros x Hx. apply H. eapply occ_sum; eauto. }
    destruct (mapM (evaluate ps s) es); simpl; congruence.
  - rewrite evaluate_Prod. assert (Hm : mapM (evaluate ps s) es <> Err EvaluationError).
    { apply mapM_no_err. intros e He. rewrite Forall_forall in IH. apply IH; [assumption|].
      intros x Hx. apply H. eapply occ_prod; eauto. }
    destruct (mapM (evaluate ps s) es); simpl; congruence.
Qed.

(** *** Operators introduce no new variable *)

Definition ovars (o : operand) : list name := match o with OInt _ => [] | OExpr e => vars e end.
Definition ooccurs (x : name) (o : operand) : Prop :=
  match o with OInt _ => False | OExpr e => occurs x e end.

Lemma occurs_mk_acc x k es c : occurs x (mk_acc k es c) <-> exists e, In e es /\ occurs x e.
Proof.
  destruct k; simpl; split.
  - inversion 1; subst; eauto.
  - intros (e & H1 & H2); eapply occ_sum; eauto.
  - inversion 1; subst; eauto.
  - intros (e & H1 & H2); eapply occ_prod; eauto.
Qed.

Definition occs (x : name) (es : list expr) : Prop := exists e, In e es /\ occurs x e.
Lemma occs_app x a b : occs x (a ++ b) <-> occs x a \/ occs x b.
Proof.
  unfold occs; split.
  - intros (e & H & Ho). apply in_app_or in H. destruct H; eauto.
  - intros [(e & H & Ho)|(e & H & Ho)]; exists e; rewrite in_app_iff; auto.
Qed.
Lemma occs_cons x e es : occs x (e :: es) <-> occurs x e \/ occs x es.
Proof.
  unfold occs; split.
  - intros (e' & [->|H] & Ho); eauto.
  - intros [H|(e' & H & Ho)]; [exists e|exists e']; simpl; auto.
Qed.
Lemma occs_nil x : ~ occs x [].
Proof. intros (e & [] & _). Qed.

Lemma acc_loop_occs x k es : forall const elist,
  occs x (snd (acc_loop k es const elist)) -> occs x elist \/ occs x es.
Proof.
  induction es as [|e es IH]; intros const elist H; [simpl in H; auto|].
  rewrite occs_cons.
  assert (Hsame : forall c', occs x (snd (acc_loop k es c' elist)) -> occs x elist \/ occurs x e \/ occs x es).
  { intros c' H'. apply IH in H'. tauto. }
  assert (Hother : occs x (snd (acc_loop k es const (elist ++ [e]))) -> occs x elist \/ occurs x e \/ occs x es).
  { intros H'. apply IH in H'. rewrite occs_app, occs_cons in H'.
    destruct H' as [[H'|[H'|H']]|H']; auto. contradict H'. apply occs_nil. }
  assert (Hacc : forall es' c c', e = mk_acc k es' c ->
      occs x (snd (acc_loop k es c' (elist ++ es'))) -> occs x elist \/ occurs x e \/ occs x es).
  { intros es' c c' -> H'. apply IH in H'. rewrite occs_app in H'.
    destruct H' as [[H'|H']|H']; auto. right; left. apply occurs_mk_acc. exact H'. }
  assert (Hz : occs x (snd (0, @nil expr)) -> occs x elist \/ occurs x e \/ occs x es).
  { intros H'. contradict H'. apply occs_nil. }
  destruct e as [z|y|p y|e1|e1|e1|o l r|es1 c1|es1 c1];
    try (destruct k; apply Hother; exact H).
  - cbn [acc_loop] in H. destruct (z =? neutral k); [eauto|]. destruct (absorbs k z); eauto.
  - destruct es1; [simpl in H; eauto|]. cbn [acc_loop as_empty_acc] in H.
    destruct k; cbn [as_acc] in H; [|auto].
    destruct (absorbs KSum c1); [auto|]. eapply Hacc; [reflexivity|exact H].
  - destruct es1; [simpl in H; eauto|]. cbn [acc_loop as_empty_acc] in H.
    destruct k; cbn [as_acc] in H; [auto|].
    destruct (absorbs KProd c1); [auto|]. eapply Hacc; [reflexivity|exact H].
Qed.

Lemma acc_init_occurs x k es c : occurs x (acc_init k es c) -> occs x es.
Proof.
  unfold acc_init. destruct (acc_loop k es c []) as [c' el] eqn:He.
  rewrite occurs_mk_acc. intros H.
  pose proof (acc_loop_occs x k es c []) as Hl. rewrite He in Hl.
  destruct (Hl H) as [H'|H']; [contradict H'; apply occs_nil|assumption].
Qed.

Lemma macc_loop_occs x k es : forall const elist,
  occs x (snd (macc_loop k es const elist)) -> occs x elist \/ occs x es.
Proof.
  induction es as [|e es IH]; intros const elist H; [simpl in H; auto|].
  rewrite occs_cons.
  assert (Hsame : forall c', occs x (snd (macc_loop k es c' elist)) -> occs x elist \/ occurs x e \/ occs x es).
  { intros c' H'. apply IH in H'. tauto. }
  assert (Hother : occs x (snd (macc_loop k es const (elist ++ [e]))) -> occs x elist \/ occurs x e \/ occs x es).
  { intros H'. apply IH in H'. rewrite occs_app, occs_cons in H'.
    destruct H' as [[H'|[H'|H']]|H']; auto. contradict H'. apply occs_nil. }
  assert (Hacc : forall es' c c', e = mk_acc k es' c ->
      occs x (snd (macc_loop k es c' (elist ++ es'))) -> occs x elist \/ occurs x e \/ occs x es).
  { intros es' c c' -> H'. apply IH in H'. rewrite occs_app in H'.
    destruct H' as [[H'|H']|H']; auto. right; left. apply occurs_mk_acc. exact H'. }
  assert (Hz : forall z : Z, occs x (snd (z, @nil expr)) -> occs x elist \/ occurs x e \/ occs x es).
  { intros z H'. contradict H'. apply occs_nil. }
  destruct e as [z|y|p y|e1|e1|e1|o l r|es1 c1|es1 c1];
    try (destruct k; apply Hother; exact H).
  - cbn [macc_loop] in H. destruct (z =? neutral k); [eauto|].
    destruct (absorbs k z); [eauto|]. cbn zeta in H.
    destruct (absorbs k (acc_op k const z)); eauto.
  - cbn [macc_loop] in H. destruct k; cbn [as_acc] in H; [|auto].
    destruct es1; [eauto|]. destruct (c1 =? neutral KSum); [eapply Hacc; [reflexivity|exact H]|].
    cbn zeta in H. destruct (absorbs KSum (acc_op KSum const c1)); [eauto|].
    eapply Hacc; [reflexivity|exact H].
  - cbn [macc_loop] in H. destruct k; cbn [as_acc] in H; [auto|].
    destruct es1; [eauto|]. destruct (c1 =? neutral KProd); [eapply Hacc; [reflexivity|exact H]|].
    cbn zeta in H. destruct (absorbs KProd (acc_op KProd const c1)); [eauto|].
    eapply Hacc; [reflexivity|exact H].
Qed.

Lemma occurs_coerce x o : occurs x (coerce o) -> ooccurs x o.
Proof. destruct o; simpl; [inversion 1|auto]. Qed.

Lemma expand_occs x k o : occs x (expand k o) -> ooccurs x o.
Proof.
  assert (Hdef : occs x [coerce o] -> ooccurs x o).
  { rewrite occs_cons. intros [H|H]; [now apply occurs_coerce|contradict H; apply occs_nil]. }
  assert (Hbin : forall op l r, occs x [l; r] -> occurs x (Bin op l r)).
  { intros op l r. rewrite !occs_cons. intros [H|[H|H]]; [now apply occ_binl|now apply occ_binr|contradict H; apply occs_nil]. }
  destruct o as [n|e]; [destruct k; exact Hdef|].
  destruct k, e; try exact Hdef; destruct o; try exact Hdef; apply Hbin.
Qed.

Lemma make_acc_occurs x k l r : occurs x (make_acc k l r) -> ooccurs x l \/ ooccurs x r.
Proof.
  intros H.
  enough (Ho : occs x (expand k l ++ expand k r)).
  { apply occs_app in Ho. destruct Ho as [Ho|Ho]; apply expand_occs in Ho; auto. }
  revert H. unfold make_acc.
  pose proof (macc_loop_occs x k (expand k l ++ expand k r) (neutral k) []) as Hl.
  destruct (macc_loop k (expand k l ++ expand k r) (neutral k) []) as [c el].
  cbn [snd] in Hl.
  assert (Hel : occs x el -> occs x (expand k l ++ expand k r)).
  { intros H. destruct (Hl H) as [H'|H']; [contradict H'; apply occs_nil|assumption]. }
  intros H. apply Hel.
  destruct el as [|e1 [|e2 [|e3 el]]].
  - inversion H.
  - rewrite occs_cons. left. destruct (c =? neutral k); [assumption|]. inversion H; subst; [|assumption].
    match goal with H : occurs x (Const _) |- _ => inversion H end.
  - destruct (c =? neutral k); [|now apply acc_init_occurs in H].
    rewrite !occs_cons. inversion H; auto.
  - destruct (c =? neutral k); now apply acc_init_occurs in H.
Qed.

Lemma py_op_occurs x u a b o : py_op u a b = Ok o -> ooccurs x o -> ooccurs x a \/ ooccurs x b.
Proof.
  assert (Hmk : forall k l r, ooccurs x (OExpr (make_acc k l r)) -> ooccurs x l \/ ooccurs x r)
    by (intros; now apply make_acc_occurs with (k := k)).
  assert (Hbin : forall op l r, occurs x (Bin op l (coerce r)) -> occurs x l \/ ooccurs x r).
  { intros op l r H. inversion H; subst; [auto|]. right. now apply occurs_coerce. }
  assert (Hneg : forall r, occurs x (Neg (coerce r)) -> ooccurs x r).
  { intros r H. inversion H; subst. now apply occurs_coerce. }
  assert (Hadd : forall l r o', expr_add l r = Ok o' -> ooccurs x o' -> occurs x l \/ ooccurs x r).
  { intros l r o' H Ho. destruct l; cbn [expr_add] in H;
      try (destruct (as_const r) as [w|]; [destruct (w =? 0)|]; inv_ok; auto;
           exact (Hmk KSum _ _ Ho)).
    destruct (z =? 0); [inv_ok; right; now apply occurs_coerce|].
    destruct (as_const r); inv_ok; [inversion Ho|exact (Hmk KSum _ _ Ho)]. }
  assert (Hsub : forall l r o', expr_sub l r = Ok o' -> ooccurs x o' -> occurs x l \/ ooccurs x r).
  { intros l r o' H Ho. destruct l; cbn [expr_sub] in H;
      try (destruct (as_const r) as [w|]; [destruct (w =? 0)|]; inv_ok; auto;
           exact (Hbin _ _ _ Ho)).
    destruct (z =? 0); [inv_ok; right; now apply Hneg|].
    destruct (as_const r); inv_ok; [inversion Ho|exact (Hbin _ _ _ Ho)]. }
  assert (Hmul : forall l r o', expr_mul l r = Ok o' -> ooccurs x o' -> occurs x l \/ ooccurs x r).
  { intros l r o' H Ho. destruct l; cbn [expr_mul] in H;
      try (destruct (as_const r) as [w|]; [destruct (w =? 0); [|destruct (w =? 1)]|]; inv_ok; auto;
           try (inversion Ho; fail);
           exact (Hmk KProd _ _ Ho)).
    destruct (z =? 0); [inv_ok; inversion Ho|].
    destruct (z =? 1); [inv_ok; right; now apply occurs_coerce|].
    destruct (as_const r); inv_ok; [inversion Ho|exact (Hmk KProd _ _ Ho)]. }
  assert (Hdiv : forall l r o', expr_div l r = Ok o' -> ooccurs x o' -> occurs x l \/ ooccurs x r).
  { intros l r o' H Ho. destruct l; cbn [expr_div] in H;
      try (destruct (as_const r) as [w|]; [destruct (w =? 1)|]; inv_ok; auto;
           exact (Hbin _ _ _ Ho)).
    destruct (z =? 0); [inv_ok; inversion Ho|].
    destruct (as_const r).
    - apply bind_Ok in H. destruct H as (q & Hq & H). inv_ok. inversion Ho.
    - inv_ok. exact (Hbin _ _ _ Ho). }
  assert (Hmod : forall l r o', expr_mod l r = Ok o' -> ooccurs x o' -> occurs x l \/ ooccurs x r).
  { intros l r o' H Ho. destruct l; cbn [expr_mod] in H; try (inv_ok; exact (Hbin _ _ _ Ho)).
    destruct (as_const r).
    - apply bind_Ok in H. destruct H as (q & Hq & H). inv_ok. inversion Ho.
    - inv_ok. exact (Hbin _ _ _ Ho). }
  assert (Hpow : forall l r o', expr_pow l r = Ok o' -> ooccurs x o' -> occurs x l \/ ooccurs x r).
  { intros l r o' H Ho. destruct l; cbn [expr_pow] in H;
      try (destruct (as_const r) as [w|]; [destruct (w =? 0); [|destruct (w =? 1)]|]; inv_ok; auto;
           try (inversion Ho; fail);
           exact (Hbin _ _ _ Ho)).
    destruct (z =? 1); [inv_ok; inversion Ho|].
    destruct (as_const r).
    - apply bind_Ok in H. destruct H as (q & Hq & H). inv_ok. inversion Ho.
    - inv_ok. exact (Hbin _ _ _ Ho). }
  assert (Hcmp : forall op l r o', expr_cmp op l r = Ok o' -> ooccurs x o' -> occurs x l \/ ooccurs x r).
  { intros op l r o' H Ho. destruct l; cbn [expr_cmp] in H; try (inv_ok; exact (Hbin _ _ _ Ho)).
    destruct (as_const r).
    - apply bind_Ok in H. destruct H as (q & Hq & H). inv_ok. inversion Ho.
    - inv_ok. exact (Hbin _ _ _ Ho). }
  assert (Hc : forall n, occurs x (Const n) -> False) by (intros n H; inversion H).
  intros H Ho. destruct a as [n|l], b as [m|r]; cbn [py_op] in H.
  - destruct u; simpl in H; try (inv_ok; inversion Ho; fail);
      unfold py_floordiv, py_mod, py_pow in H;
      repeat match type of H with context [if ?c then _ else _] => destruct c end;
      simpl in H; try discriminate; inv_ok; inversion Ho.
  - right. destruct u; cbn [int_expr_op cmp_of] in H; try discriminate;
      try (destruct (Hcmp _ _ _ _ H Ho) as [H'|H']; [exact H'|contradiction]);
      try (first [destruct (Hadd _ _ _ H Ho) as [H'|H'] | destruct (Hsub _ _ _ H Ho) as [H'|H']
           | destruct (Hmul _ _ _ H Ho) as [H'|H'] | destruct (Hmod _ _ _ H Ho) as [H'|H']
           | destruct (Hpow _ _ _ H Ho) as [H'|H']]; [exfalso; eapply Hc; eassumption|exact H']);
      inv_ok; inversion Ho; subst; auto; exfalso; eapply Hc; eassumption.
  - destruct u; cbn [expr_op cmp_of] in H; try discriminate; eauto;
      try (rewrite expr_logic_is_cmp in H; eauto).
  - destruct u; cbn [expr_op cmp_of] in H; try discriminate; eauto;
      try (rewrite expr_logic_is_cmp in H; eauto);
      try (destruct (is_var_param l r); [destruct (Hcmp _ _ _ _ H Ho); auto|eauto]).
Qed.

Lemma build_occurs x f : forall o, build f = Ok o -> ooccurs x o -> In x (fvars f).
Proof.
  induction f as [n|y|p y|f IH|f IH|u f g IHf IHg|fs IH] using formula_ind'; intros o Hbd Ho.
  - simpl in *. inv_ok. contradiction.
  - simpl in *. inv_ok. inversion Ho; auto.
  - simpl in *. inv_ok. inversion Ho.
  - simpl in *. apply bind_Ok in Hbd. destruct Hbd as (o1 & H1 & H2). inv_ok.
    apply (IH o1 H1). destruct o1; simpl in *; [contradiction|]. inversion Ho; assumption.
  - simpl in *. apply bind_Ok in Hbd. destruct Hbd as (o1 & H1 & H2). inv_ok.
    apply (IH o1 H1). destruct o1; simpl in *; [contradiction|]. inversion Ho; assumption.
  - cbn [build] in Hbd. apply bind_Ok in Hbd. destruct Hbd as (of & H1 & Hbd).
    apply bind_Ok in Hbd. destruct Hbd as (og & H2 & Hbd). cbn [fvars]. rewrite in_app_iff.
    destruct (py_op_occurs x _ _ _ _ Hbd Ho); eauto.
  - cbn [build] in Hbd. cbn [fvars].
    assert (Hgen : forall acc,
      (fix go (acc : operand) (l : list formula) : res operand :=
         match l with
         | [] => Ok acc
         | g :: l' => let! o := build g in let! a := py_op UAdd acc o in go a l'
         end) acc fs = Ok o -> ooccurs x acc \/ In x (flat_map fvars fs)).
    { clear Hbd. induction IH as [|f fs Hf Hfs IH']; intros acc Hbd.
      - inv_ok. auto.
      - apply bind_Ok in Hbd. destruct Hbd as (of & H1 & Hbd).
        apply bind_Ok in Hbd. destruct Hbd as (acc' & H2 & Hbd).
        cbn [flat_map]. rewrite in_app_iff.
        destruct (IH' _ Hbd) as [H|H]; [|auto].
        destruct (py_op_occurs x _ _ _ _ H2 H); eauto. }
    destruct (Hgen _ Hbd) as [H|H]; [contradiction|assumption].
Qed.
