(** What the operators do where they are undefined. *)
From Verif Require Import Py Expr SpecFormula ExprFacts.
Open Scope list_scope.
Open Scope Z_scope.

Lemma undefined_ok ps s u a b va vb :
  let err := match u with UPow => if va =? 0 then ZeroDivisionError else FloatResult | _ => ZeroDivisionError end in
  In u [UDiv; UFloorDiv; UMod; UPow] -> oval ps s a = Ok va -> oval ps s b = Ok vb -> arith u va vb = None ->
  py_op u a b = Err err \/
  (exists o, py_op u a b = Ok o /\ oval ps s o = Err err) \/
  (py_op u a b = Err TypeError /\ (u = UDiv /\ (exists n, a = OInt n) \/ u = UFloorDiv)) \/
  (exists o, py_op u a b = Ok o /\ (u = UDiv /\ a = OExpr (Const 0) /\ oval ps s o = Ok 0 \/ u = UPow /\ (a = OInt 1 \/ a = OExpr (Const 1)) /\ oval ps s o = Ok 1)).
Proof.
  intros err Hu Ha Hb Hn.
  assert (Hc : forall w, as_const b = Some w -> w = vb).
  { intros w Hw. destruct b as [n|[z|?|?|?|?|?|? ? ?|? ?|? ?]]; cbn in *; congruence. }
  assert (Hv : forall l z, a = OExpr l -> l = Const z -> z = va) by (intros l z -> ->; cbn in Ha; congruence).
  assert (Hbc : evaluate ps s (coerce b) = Ok vb) by (destruct b; exact Hb).
  assert (Hbin : forall o l, evaluate ps s l = Ok va -> bin_op o va vb = Err err -> evaluate ps s (Bin o l (coerce b)) = Err err).
  { intros o l Hl He. cbn [evaluate]. rewrite Hl, Hbc. exact He. }
  assert (Hdiv : vb = 0 -> py_floordiv va vb = Err ZeroDivisionError /\ py_mod va vb = Err ZeroDivisionError) by (intros ->; auto).
  assert (Hpow : vb < 0 -> py_pow va vb = Err (if va =? 0 then ZeroDivisionError else FloatResult)).
  { intros H. unfold py_pow. rewrite (proj2 (Z.ltb_lt vb 0) H). destruct (va =? 0); reflexivity. }
  assert (Hx : forall l, evaluate ps s l = Ok va ->
    (u = UDiv -> vb = 0 -> (expr_div l b = Err err \/ (exists o, expr_div l b = Ok o /\ oval ps s o = Err err) \/
       (exists o, expr_div l b = Ok o /\ l = Const 0 /\ oval ps s o = Ok 0))) /\
    (u = UMod -> vb = 0 -> (expr_mod l b = Err err \/ (exists o, expr_mod l b = Ok o /\ oval ps s o = Err err))) /\
    (u = UPow -> vb < 0 -> (expr_pow l b = Err err \/ (exists o, expr_pow l b = Ok o /\ oval ps s o = Err err) \/
       (exists o, expr_pow l b = Ok o /\ l = Const 1 /\ oval ps s o = Ok 1)))).
  { intros l Hl. split; [|split]; intros -> H; subst err.
    - destruct (Hdiv H) as [H1 _].
      assert (Hgen : exists o, Ok (OExpr (Bin ODiv l (coerce b))) = Ok o /\ oval ps s o = Err ZeroDivisionError).
      { eexists. split; [reflexivity|]. apply Hbin; [exact Hl|exact H1]. }
      destruct l as [z| | | | | | | |]; cbn [expr_div].
      1:{ cbn in Hl. injection Hl as ->. destruct (va =? 0) eqn:E.
          - right. right. apply Z.eqb_eq in E. subst va. eexists. split; [reflexivity|]. split; reflexivity.
          - destruct (as_const b) as [w|] eqn:Ec; [|right; left; exact Hgen]. rewrite (Hc w eq_refl), H1. now left. }
      all: destruct (as_const b) as [w|] eqn:Ec; [|right; left; exact Hgen]; rewrite (Hc w eq_refl), H; right; left; exact Hgen.
    - destruct (Hdiv H) as [_ H1].
      assert (Hgen : exists o, Ok (OExpr (Bin OMod l (coerce b))) = Ok o /\ oval ps s o = Err ZeroDivisionError).
      { eexists. split; [reflexivity|]. apply Hbin; [exact Hl|exact H1]. }
      destruct l as [z| | | | | | | |]; try (right; exact Hgen). cbn [expr_mod]. cbn in Hl. injection Hl as ->.
      destruct (as_const b) as [w|] eqn:Ec; [|right; exact Hgen]. rewrite (Hc w eq_refl), H1. now left.
    - pose proof (Hpow H) as H1.
      assert (Hgen : exists o, Ok (OExpr (Bin OPow l (coerce b))) = Ok o /\ oval ps s o = Err (if va =? 0 then ZeroDivisionError else FloatResult)).
      { eexists. split; [reflexivity|]. apply Hbin; [exact Hl|exact H1]. }
      destruct l as [z| | | | | | | |]; cbn [expr_pow].
      1:{ cbn in Hl. injection Hl as ->. destruct (va =? 1) eqn:E.
          - right. right. apply Z.eqb_eq in E. subst va. eexists. split; [reflexivity|]. split; reflexivity.
          - destruct (as_const b) as [w|] eqn:Ec; [|right; left; exact Hgen]. rewrite (Hc w eq_refl), H1. now left. }
      all: destruct (as_const b) as [w|] eqn:Ec; [|right; left; exact Hgen]; rewrite (Hc w eq_refl);
        rewrite (proj2 (Z.eqb_neq vb 0)), (proj2 (Z.eqb_neq vb 1)) by lia; right; left; exact Hgen. }
  assert (H0 : (u = UDiv \/ u = UFloorDiv \/ u = UMod) -> vb = 0).
  { intros [->|[->| ->]]; cbn in Hn; destruct (vb =? 0) eqn:E; try discriminate; now apply Z.eqb_eq. }
  assert (H1 : u = UPow -> vb < 0).
  { intros ->. cbn in Hn. destruct (vb <? 0) eqn:E; [now apply Z.ltb_lt|discriminate]. }
  destruct a as [n|l].
  - cbn in Ha. injection Ha as ->. destruct (Hx (Const va) eq_refl) as (X1 & X2 & X3). destruct b as [m|r].
    + cbn in Hb. injection Hb as ->. left. destruct Hu as [<-|[<-|[<-|[<-|[]]]]]; cbn [py_op int_op]; subst err.
      * now rewrite H0 by auto.
      * destruct Hdiv as [-> _]; auto.
      * destruct Hdiv as [_ ->]; auto.
      * rewrite Hpow by auto. reflexivity.
    + destruct Hu as [<-|[<-|[<-|[<-|[]]]]]; cbn [py_op int_expr_op].
      * right. right. left. split; [reflexivity|]. left. split; [reflexivity|]. eauto.
      * right. right. left. auto.
      * destruct X2 as [X2|X2]; auto.
      * destruct X3 as [X3|[X3|X3]]; auto. right. right. right. destruct X3 as (o & E & E1 & Eo). exists o. split; [exact E|]. right.
        injection E1 as ->. auto.
  - destruct (Hx l Ha) as (X1 & X2 & X3). destruct Hu as [<-|[<-|[<-|[<-|[]]]]]; cbn [py_op expr_op].
    + destruct X1 as [X|[X|(o & E & -> & Eo)]]; auto. right. right. right. exists o. auto.
    + right. right. left. auto.
    + destruct X2 as [X|X]; auto.
    + destruct X3 as [X|[X|(o & E & -> & Eo)]]; auto. right. right. right. exists o. auto 6.
Qed.
