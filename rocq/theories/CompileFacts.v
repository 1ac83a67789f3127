(** Compiled evaluation = interpreted evaluation on the safe fragment, and formulas
    of the safe class build safe expressions. *)
From Verif Require Import Dec DecFacts PyText SpecFormula SpecSafe ExprFacts PyTextFacts ParseFacts.
Open Scope list_scope.
Open Scope Z_scope.

(** ** Evaluation of the syntax tree *)

Lemma aeval_num s z : aeval s (num_ast z) = Ok z.
Proof.
  unfold num_ast. destruct (z <? 0); simpl; [|reflexivity]. f_equal. lia.
Qed.

Lemma aeval_or_fold s l : forall acc a v1 v2,
  aeval s acc = Ok v1 -> aeval s (fold_left AOr l a) = Ok v2 ->
  aeval s (fold_left AOr l (AOr acc a)) = Ok (if truthy v1 then v1 else v2).
Proof.
  induction l as [|b l IH] using rev_ind; intros acc a v1 v2 H1 H2.
  - simpl in *. rewrite H1. simpl. destruct (truthy v1); [reflexivity|assumption].
  - rewrite fold_left_app in *. simpl in *.
    destruct (aeval s (fold_left AOr l a)) as [v'|] eqn:Ha; [|discriminate].
    rewrite (IH acc a v1 v' H1 Ha). simpl in *.
    destruct (truthy v1) eqn:Ht1; [rewrite Ht1; reflexivity|].
    destruct (truthy v'); assumption.
Qed.

Lemma aeval_orfold_app s l1 l2 v1 v2 :
  l1 <> [] -> l2 <> [] ->
  aeval s (orfold l1) = Ok v1 -> aeval s (orfold l2) = Ok v2 ->
  aeval s (orfold (l1 ++ l2)) = Ok (if truthy v1 then v1 else v2).
Proof.
  intros H1 H2 E1 E2. rewrite orfold_app by assumption.
  destruct l2 as [|a l2]; [contradiction|]. simpl in *. now apply aeval_or_fold.
Qed.

Lemma aeval_list s l vs :
  mapM (aeval s) l = Ok vs ->
  (fix go (l : list ast) : res (list Z) :=
     match l with
     | [] => Ok []
     | b :: l' => let! v := aeval s b in let! vs := go l' in Ok (v :: vs)
     end) l = Ok vs.
Proof.
  revert vs. induction l as [|a l IH]; intros vs H; [exact H|].
  simpl in *. destruct (aeval s a); [|discriminate]. simpl in *.
  destruct (mapM (aeval s) l); [|discriminate]. simpl in *. rewrite (IH _ eq_refl). exact H.
Qed.

Lemma fold_add_tot vs : forall a, fold_left Z.add vs a = a + tot KSum vs.
Proof. induction vs as [|v vs IH]; intros a; simpl; [lia|]. rewrite IH. unfold tot; simpl. lia. Qed.
Lemma fold_mul_tot vs : forall a, fold_left Z.mul vs a = a * tot KProd vs.
Proof. induction vs as [|v vs IH]; intros a; simpl; [unfold tot; simpl; lia|]. rewrite IH. unfold tot; simpl. lia. Qed.

Lemma safe_names e : forall x, safe e = true -> occurs x e -> name_ok x = true.
Proof.
  induction e as [z|y|p y|e IH|e IH|e IH|o l r IHl IHr|es c IH|es c IH] using expr_ind';
    intros x H Ho; inversion Ho; subst; cbn [safe] in H; rewrite ?andb_true_iff in H.
  - exact H.
  - apply IH; tauto.
  - apply IH; tauto.
  - apply IH; tauto.
  - apply IHl; tauto.
  - apply IHr; tauto.
  - destruct H as [_ H]. rewrite forallb_forall in H. rewrite Forall_forall in IH. eapply IH; eauto.
  - destruct H as [_ H]. rewrite forallb_forall in H. rewrite Forall_forall in IH. eapply IH; eauto.
Qed.

Lemma mapM_values s ps env k c es :
  (forall e v, In e es -> evaluate ps s e = Ok v -> aeval env (ast_of ps e) = Ok v) ->
  forall vs, mapM (evaluate ps s) es = Ok vs ->
  exists ws, mapM (aeval env) (values_asts k c (map (fun e => orfold (asts ps e)) es)) = Ok ws
             /\ tot k ws = acc_op k c (tot k vs).
Proof.
  intros H vs Hm.
  assert (Hes : mapM (aeval env) (map (fun e => orfold (asts ps e)) es) = Ok vs).
  { revert vs Hm. induction es as [|e es IH]; intros vs Hm; [exact Hm|].
    simpl in *. destruct (evaluate ps s e) as [v|] eqn:He; [|discriminate]. simpl in Hm.
    specialize (H e v (or_introl eq_refl) He) as Ha. unfold ast_of in Ha. rewrite Ha. simpl.
    destruct (mapM (evaluate ps s) es) as [vs'|]; [|discriminate]. simpl in Hm.
    rewrite (IH (fun e' v' Hin => H e' v' (or_intror Hin)) vs' eq_refl). exact Hm. }
  unfold values_asts. destruct (Z.eqb_spec c (neutral k)) as [->|Hne].
  - exists vs. split; [assumption|]. now rewrite acc_op_neutral_l.
  - exists (c :: vs). split; [simpl; rewrite aeval_num; simpl; now rewrite Hes|]. reflexivity.
Qed.

Lemma aeval_safe ps s env e : forall v,
  safe e = true ->
  (forall x, occurs x e -> dget env x = dget s x) ->
  (forall f, In f ["sum"; "prod"; "abs"]%string -> dmem env f = false) ->
  evaluate ps s e = Ok v -> aeval env (ast_of ps e) = Ok v.
Proof.
  induction e as [z|y|p y|e IH|e IH|e IH|o l r IHl IHr|es c IH|es c IH] using expr_ind';
    intros v Hs Henv Hf Hv; unfold ast_of; cbn [asts].
  - simpl in *. rewrite aeval_num. exact Hv.
  - simpl in *. rewrite (Henv y (occ_var y)). destruct (dget s y); [exact Hv|discriminate].
  - simpl in *. rewrite aeval_num. exact Hv.
  - cbn [safe] in Hs. apply andb_true_iff in Hs. destruct Hs as [_ Hs]. simpl in *.
    destruct (evaluate ps s e) as [w|]; [|discriminate].
    fold (ast_of ps e). rewrite (IH w); auto. intros x Hx. apply Henv. now constructor.
  - cbn [safe] in Hs. apply andb_true_iff in Hs. destruct Hs as [_ Hs]. simpl in *.
    destruct (evaluate ps s e) as [w|]; [|discriminate].
    fold (ast_of ps e). rewrite (IH w); auto.
    + simpl. unfold call_fun1. rewrite Hf by (simpl; auto). exact Hv.
    + intros x Hx. apply Henv. now constructor.
  - cbn [safe] in Hs. apply andb_true_iff in Hs. destruct Hs as [_ Hs]. simpl in *.
    destruct (evaluate ps s e) as [w|]; [|discriminate].
    fold (ast_of ps e). rewrite (IH w); auto. intros x Hx. apply Henv. now constructor.
  - cbn [safe] in Hs. rewrite !andb_true_iff in Hs. destruct Hs as [[_ Hsl] Hsr].
    cbn [evaluate] in Hv. destruct (evaluate ps s l) as [a|]; [|discriminate].
    destruct (evaluate ps s r) as [b|]; [|discriminate]. cbn [bind] in Hv.
    assert (Ha : aeval env (ast_of ps l) = Ok a).
    { apply IHl; auto. intros x Hx. apply Henv. now apply occ_binl. }
    assert (Hb : aeval env (ast_of ps r) = Ok b).
    { apply IHr; auto. intros x Hx. apply Henv. now apply occ_binr. }
    assert (Hcmp : forall (t : bool), Ok (b2z t) = Ok v -> (if t then Ok 1 else Ok 0) = Ok v).
    { intros [|] H; exact H. }
    destruct o; cbn [bin_ast orfold fold_left bin_op] in *;
      try (cbn [aeval]; fold (ast_of ps l) (ast_of ps r); rewrite Ha, Hb; cbn [bind py_cmp];
           first [exact Hv | apply Hcmp; exact Hv]).
    + (* And *) cbn [aeval]. fold (ast_of ps l) (ast_of ps r). rewrite Ha. cbn [bind].
      destruct (truthy a); [rewrite Hb|]; exact Hv.
    + (* Or *)
      rewrite <- Hv. apply aeval_orfold_app; try assumption.
      * destruct (asts_nonempty ps l) as (x & l' & E). rewrite E. discriminate.
      * destruct (asts_nonempty ps r) as (x & l' & E). rewrite E. discriminate.
  - cbn [safe] in Hs. apply andb_true_iff in Hs. destruct Hs as [_ Hs].
    rewrite forallb_forall in Hs. rewrite Forall_forall in IH.
    rewrite evaluate_Sum in Hv. apply bind_Ok in Hv. destruct Hv as (vs & Hm & Hv).
    destruct (mapM_values s ps env KSum c es) with (vs := vs) as (ws & Hw & Ht); [|assumption|].
    { intros e w He Hw. apply IH; auto. intros x Hx. apply Henv. eapply occ_sum; eauto. }
    cbn [orfold fold_left aeval]. rewrite (aeval_list _ _ _ Hw). cbn [bind].
    unfold call_fun. rewrite Hf by (simpl; auto). cbn [String.eqb]. simpl.
    rewrite fold_add_tot, Ht. exact Hv.
  - cbn [safe] in Hs. apply andb_true_iff in Hs. destruct Hs as [_ Hs].
    rewrite forallb_forall in Hs. rewrite Forall_forall in IH.
    rewrite evaluate_Prod in Hv. apply bind_Ok in Hv. destruct Hv as (vs & Hm & Hv).
    destruct (mapM_values s ps env KProd c es) with (vs := vs) as (ws & Hw & Ht); [|assumption|].
    { intros e w He Hw. apply IH; auto. intros x Hx. apply Henv. eapply occ_prod; eauto. }
    cbn [orfold fold_left aeval]. rewrite (aeval_list _ _ _ Hw). cbn [bind].
    unfold call_fun. rewrite Hf by (simpl; auto). simpl.
    rewrite fold_mul_tot, Ht, Z.mul_1_l. exact Hv.
Qed.

(** ** The whole lambda *)

Definition arg_toks (xs : list name) : list (list tok) :=
  map (fun x => [TId x]) xs ++ [[TDStar; TId "__dummy_kwargs"]].

Lemma tjoin_cons t l : l <> [] -> tjoin (t :: l) = t ++ TComma :: tjoin l.
Proof. destruct l; [contradiction|reflexivity]. Qed.

Lemma Lx_source ps e : safe e = true ->
  Lx (py_source ps e)
     (TLambda :: tjoin (arg_toks (vars e)) ++ TColon :: TLP :: toks ps e ++ [TRP]).
Proof.
  intros Hs. unfold py_source.
  apply (Lx_open "lambda " [TLambda]); [reflexivity|].
  assert (Hargs : Lx (sjoin ", " (vars e ++ ["**__dummy_kwargs"%string])) (tjoin (arg_toks (vars e)))).
  { apply Lx_join.
    - unfold arg_toks. apply Forall2_app.
      + replace (vars e) with (map (fun x : string => x) (vars e)) at 1 by apply map_id.
        apply Forall2_map. intros x Hx. apply vars_occurs in Hx.
        destruct (name_ok_tok x (safe_names e x Hs Hx)) as [Hi Ht]. rewrite <- Ht. now apply Lx_name.
      + constructor; [|constructor].
        exists [TDStar], (LName "__dummy_kwargs"), [TId "__dummy_kwargs"]. repeat split; reflexivity.
    - destruct (vars e); discriminate. }
  apply Lx_app; [exact Hargs|reflexivity|].
  change (Lx (": (" ++ (py_expr ps e ++ ")")) ([TColon; TLP] ++ toks ps e ++ [TRP])).
  apply Lx_open; [reflexivity|]. apply Lx_close. now apply Lx_expr.
Qed.

Lemma parse_args_ok body a : forall xs acc,
  NoDup (acc ++ xs) -> ~ In "__dummy_kwargs"%string (acc ++ xs) ->
  parse_expr body = Ok a ->
  parse_args (tjoin (arg_toks xs) ++ TColon :: body) acc = Ok (acc ++ xs, a).
Proof.
  induction xs as [|x xs IH]; intros acc Hnd Hkw Hb.
  - simpl. rewrite app_nil_r in *. apply memb_false in Hkw. rewrite Hkw, Hb. reflexivity.
  - unfold arg_toks. cbn [map app]. fold (arg_toks xs).
    rewrite tjoin_cons by (destruct xs; discriminate). cbn [app parse_args].
    assert (Hx : memb x acc = false).
    { apply memb_false. intros Hin. apply NoDup_remove_2 in Hnd. apply Hnd.
      apply in_or_app. now left. }
    rewrite Hx. rewrite IH; [now rewrite <- app_assoc| | |assumption]; rewrite <- app_assoc; assumption.
Qed.

Lemma parse_body ps e : safe e = true -> parse_expr (TLP :: toks ps e ++ [TRP]) = Ok (ast_of ps e).
Proof.
  intros Hs. unfold parse_expr.
  assert (Hp : pok 0 (TLP :: toks ps e ++ [TRP]) (ast_of ps e) []).
  { apply (pok_lift 11); [lia| |reflexivity|simpl; split; [discriminate|reflexivity]].
    apply pok_paren. apply parses_delim; [now apply safe_parses|reflexivity]. }
  destruct Hp as [_ Hp]. rewrite Hp; [reflexivity|]. unfold parse_fuel. simpl length. lia.
Qed.

Lemma compile_safe ps e : safe e = true -> compile ps e = Ok (vars e, ast_of ps e).
Proof.
  intros Hs. unfold compile. rewrite (Lx_lex _ _ (Lx_source ps e Hs)). cbn [bind parse_lambda].
  apply (parse_args_ok _ _ (vars e) []).
  - apply vars_NoDup.
  - simpl. intros H. apply vars_occurs in H. apply (safe_names e) in H; [|assumption].
    now apply (name_ok_special _ "__dummy_kwargs") in H; simpl; auto.
  - now apply parse_body.
Qed.

Lemma evaluate_Ok_bound ps s e : forall v x, evaluate ps s e = Ok v -> occurs x e -> exists w, dget s x = Some w.
Proof.
  induction e as [z|y|p y|e IH|e IH|e IH|o l r IHl IHr|es c IH|es c IH] using expr_ind';
    intros v x Hv Ho; inversion Ho; subst.
  - simpl in Hv. destruct (dget s y); [eauto|discriminate].
  - simpl in Hv. destruct (evaluate ps s e) eqn:E; [eauto|discriminate].
  - simpl in Hv. destruct (evaluate ps s e) eqn:E; [eauto|discriminate].
  - simpl in Hv. destruct (evaluate ps s e) eqn:E; [eauto|discriminate].
  - simpl in Hv. destruct (evaluate ps s l) eqn:E; [eauto|discriminate].
  - simpl in Hv. destruct (evaluate ps s l) eqn:E; [|discriminate].
    destruct (evaluate ps s r) eqn:E'; [eauto|discriminate].
  - rewrite evaluate_Sum in Hv. apply bind_Ok in Hv. destruct Hv as (vs & Hm & _).
    rewrite Forall_forall in IH. revert vs Hm. clear Ho c.
    induction es as [|e0 es IHes]; intros vs Hm; [contradiction|]. simpl in Hm.
    destruct (evaluate ps s e0) eqn:E; [|discriminate]. simpl in Hm.
    match goal with H : In e _ |- _ => destruct H as [->|Hin] end; [eapply IH; [left; reflexivity|exact E|assumption]|].
    destruct (mapM (evaluate ps s) es) eqn:E'; [|discriminate].
    eapply IHes; [intros; eapply IH; [right; eassumption|eassumption|eassumption]|exact Hin|reflexivity].
  - rewrite evaluate_Prod in Hv. apply bind_Ok in Hv. destruct Hv as (vs & Hm & _).
    rewrite Forall_forall in IH. revert vs Hm. clear Ho c.
    induction es as [|e0 es IHes]; intros vs Hm; [contradiction|]. simpl in Hm.
    destruct (evaluate ps s e0) eqn:E; [|discriminate]. simpl in Hm.
    match goal with H : In e _ |- _ => destruct H as [->|Hin] end; [eapply IH; [left; reflexivity|exact E|assumption]|].
    destruct (mapM (evaluate ps s) es) eqn:E'; [|discriminate].
    eapply IHes; [intros; eapply IH; [right; eassumption|eassumption|eassumption]|exact Hin|reflexivity].
Qed.

Lemma dget_filter {A} (d : dict A) (p : name -> bool) x :
  dget (filter (fun b => p (fst b)) d) x = if p x then dget d x else None.
Proof.
  induction d as [|[y a] d IH]; simpl; [destruct (p x); reflexivity|].
  destruct (p y) eqn:Hp; simpl.
  - destruct (String.eqb_spec x y) as [->|]; [now rewrite Hp|exact IH].
  - rewrite IH. destruct (String.eqb_spec x y) as [->|]; [now rewrite Hp|reflexivity].
Qed.

Theorem compiled_agrees ps s e v :
  safe e = true -> evaluate ps s e = Ok v -> call_code (as_function ps e) s = Ok v.
Proof.
  intros Hs Hv. unfold as_function. rewrite (compile_safe ps e Hs). cbn [call_code].
  assert (Hall : forallb (fun x => dmem s x) (vars e) = true).
  { apply forallb_forall. intros x Hx. apply vars_occurs in Hx.
    destruct (evaluate_Ok_bound ps s e v x Hv Hx) as (w & Hw). unfold dmem. now rewrite Hw. }
  rewrite Hall. apply (aeval_safe ps s); try assumption.
  - intros x Hx. rewrite (dget_filter s (fun y => memb y (vars e))).
    assert (Hm : memb x (vars e) = true) by now apply memb_In, vars_occurs.
    now rewrite Hm.
  - intros f Hf. unfold dmem. rewrite (dget_filter s (fun y => memb y (vars e))).
    assert (Hm : memb f (vars e) = false).
    { apply memb_false. intros Hin. apply vars_occurs in Hin. apply (safe_names e) in Hin; [|assumption].
      apply (name_ok_special f f) in Hin; [contradiction|]. simpl in *. tauto. }
    now rewrite Hm.
Qed.
