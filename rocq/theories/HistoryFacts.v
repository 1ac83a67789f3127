(** Worlds reached by genuine histories of API calls are valid settings for [solve]. *)
From Verif Require Import Solver SpecFormula SpecSafe SpecSolve ExprFacts DictFacts ModelFacts CompileFacts CodeFacts LoopFacts.
Open Scope list_scope.
Open Scope Z_scope.

Definition table (B : nat -> cbody) (w : world) : Prop :=
  (forall c, In c (m_cons (w_model w)) -> B (c_id c) = c_body c) /\
  (forall id e f, B id = CExpr e -> w_code w id = Some f -> exists ps, f = as_function ps e).

Lemma table_same B w w' : table B w -> w_model w' = w_model w -> w_code w' = w_code w -> table B w'.
Proof. intros [H1 H2] E1 E2. split; rewrite ?E1, ?E2; assumption. Qed.

Lemma table_new B w b : table B w -> table B (snd (new_constraint w b)).
Proof.
  intros [H1 H2]. split; [exact H1|]. simpl. intros id e f Hb. unfold upd.
  destruct (Nat.eqb id (w_ncon w)); [discriminate|]. eauto.
Qed.

Lemma table_cons B w m' : table B w -> (forall c, In c (m_cons m') -> B (c_id c) = c_body c) -> table B (set_model w m').
Proof. intros [H1 H2] H. split; [exact H|exact H2]. Qed.

Lemma table_add_obj B w c : table B w -> B (c_id c) = c_body c -> table B (fst (add_constraint_obj c w)).
Proof.
  intros Ht Hc. unfold add_constraint_obj.
  assert (Happ : forall b, table B (set_model w (Model (m_vars (w_model w)) (m_cons (w_model w) ++ [c]) b))).
  { intros b. apply table_cons; [assumption|]. simpl. intros c' Hin. apply in_app_or in Hin.
    destruct Hin as [Hin|[<-|[]]]; [now apply (proj1 Ht)|assumption]. }
  assert (Hf : table B (set_model w (Model (m_vars (w_model w)) (m_cons (w_model w)) false))).
  { apply table_cons; [assumption|]. exact (proj1 Ht). }
  destruct (c_vars c) as [|x l].
  - destruct (ceval w c []) as [[|]|]; [exact Ht| |exact Ht].
    cbn [forallb]. exact (Happ false).
  - destruct (forallb _ _); [apply Happ|exact Ht].
Qed.

Lemma table_step B w a : table B w ->
  match a with
      | AddConstraint (ABool b) => B (w_ncon w) = CConst b
      | AddConstraint (AExpr e) => B (w_ncon w) = CExpr e
      | AddConstraint (ACons c) | CompileConstraint c => B (c_id c) = c_body c
      | AddAllDiff xs => B (w_ncon w) = CAllDiff xs
      | NewConstraint b => B (w_ncon w) = b
      | _ => True
      end -> table B (fst (run_api a w)).
Proof.
  intros Ht Hg. destruct a as [d nm|nm|v nm|[b|e|c|]|xs|b|p v|b|c]; cbn [run_api fst drop].
  - unfold add_int_variable. destruct (has_dup d); [exact Ht|]. destruct (choose_name _ _ _); [|exact Ht].
    apply table_cons; [assumption|]. exact (proj1 Ht).
  - unfold add_bool_variable, add_int_variable. destruct (has_dup _); [exact Ht|].
    destruct (choose_name _ _ _); [|exact Ht]. apply table_cons; [assumption|]. exact (proj1 Ht).
  - unfold add_parameter. destruct (choose_name _ _ _); [|exact Ht]. destruct Ht as [H1 H2]. split; assumption.
  - apply (table_add_obj B (snd (new_constraint w (CConst b))) (Constraint (w_ncon w) (CConst b))); [now apply table_new|exact Hg].
  - apply (table_add_obj B (snd (new_constraint w (CExpr e))) (Constraint (w_ncon w) (CExpr e))); [now apply table_new|exact Hg].
  - now apply table_add_obj.
  - exact Ht.
  - apply (table_add_obj B (snd (new_constraint w (CAllDiff xs))) (Constraint (w_ncon w) (CAllDiff xs))); [now apply table_new|exact Hg].
  - exact Ht.
  - eapply table_same; [exact Ht| |]; reflexivity.
  - now apply table_new.
  - unfold ccompile. destruct (c_body c) as [b|e|xs] eqn:Eb; try exact Ht. destruct Ht as [H1 H2]. split; [exact H1|].
    cbn. intros id e' f Hb. unfold upd. destruct (Nat.eqb_spec id (c_id c)) as [->|]; [|eauto].
    intros E. inversion E; subst. rewrite Hg in Hb. inversion Hb; subst. eauto.
Qed.

Lemma table_history B h : forall w, table B w -> genuine B w h -> table B (run_history h w).
Proof.
  induction h as [|a h IH]; intros w Ht Hg; [exact Ht|]. destruct Hg as [Ha Hg]. cbn [run_history].
  apply IH; [|exact Hg]. now apply table_step.
Qed.

Lemma table_init B : table B init_world.
Proof. split; [intros c []|discriminate]. Qed.

Lemma domains_step a w : domains_ok (w_model w) -> domains_ok (w_model (fst (run_api a w))).
Proof.
  intros H.
  assert (Hadd : forall d nm, domains_ok (w_model (fst (add_int_variable d nm w)))).
  { intros d nm. unfold add_int_variable. destruct (has_dup d) eqn:Ed; [exact H|].
    destruct (choose_name _ _ _) as [x|]; [|exact H]. intros y d' Hin. unfold is_variable in Hin. cbn in Hin.
    assert (In (y, VVar d') (m_vars (w_model w)) \/ d' = d).
    { clear - Hin. induction (m_vars (w_model w)) as [|[z i] l IH]; cbn [dset] in Hin.
      - destruct Hin as [E|[]]. inversion E; auto.
      - destruct (String.eqb x z); (destruct Hin as [E|Hin]; [inversion E; subst; auto using in_eq|]).
        + left. now right.
        + destruct (IH Hin); [left; now right|auto]. }
    destruct H0 as [H0| ->]; [now apply (H y)|now apply has_dup_false]. }
  assert (Hpar : forall v nm, domains_ok (w_model (fst (add_parameter v nm w)))).
  { intros v nm. unfold add_parameter. destruct (choose_name _ _ _) as [x|]; [|exact H]. intros y d' Hin.
    unfold is_variable in Hin. cbn in Hin. apply (H y). unfold is_variable.
    revert Hin. generalize (w_npar w). clear. induction (m_vars (w_model w)) as [|[z i] l IH]; cbn [dset]; intros n Hin.
    - destruct Hin as [E|[]]. inversion E.
    - destruct (String.eqb x z); (destruct Hin as [E|Hin]; [inversion E; subst; auto using in_eq|]).
      + now right.
      + right. eauto. }
  assert (Hobj : forall w' c, m_vars (w_model w') = m_vars (w_model w) -> domains_ok (w_model (fst (add_constraint_obj c w')))).
  { intros w' c E y d Hin. apply (H y d). unfold is_variable in *. rewrite <- E.
    revert Hin. unfold add_constraint_obj.
    destruct (c_vars c); [destruct (ceval w' c []) as [[|]|]|]; cbn; auto.
    destruct (_ && _); cbn; auto. }
  destruct a as [d nm|nm|v nm|[b|e|c|]|xs|b|p v|b|c]; cbn [run_api fst drop]; auto; try exact H.
  - apply Hadd.
  - apply (Hobj (snd (new_constraint w (CConst b))) (Constraint (w_ncon w) (CConst b))). reflexivity.
  - apply (Hobj (snd (new_constraint w (CExpr e))) (Constraint (w_ncon w) (CExpr e))). reflexivity.
  - apply Hobj. reflexivity.
  - apply (Hobj (snd (new_constraint w (CAllDiff xs))) (Constraint (w_ncon w) (CAllDiff xs))). reflexivity.
  - now rewrite ccompile_model.
Qed.

Lemma domains_history h : forall w, domains_ok (w_model w) -> domains_ok (w_model (run_history h w)).
Proof. induction h as [|a h IH]; intros w H; [exact H|]. apply IH. now apply domains_step. Qed.

Lemma well_named_reachable h : well_named (w_model (run_history h init_world)).
Proof.
  destruct (inv_reachable h) as (H1 & H2 & _). split; [exact H1|]. intros x Hx.
  destruct (H2 x Hx) as [|(k & _ & Hk)]; eauto.
Qed.

Lemma valid_reachable B h shuffle e a :
  genuine B init_world h -> e_world e = run_history h init_world ->
  (forall c, In c (x_additional a) -> B (c_id c) = c_body c) ->
  shuffles shuffle -> valid shuffle e a.
Proof.
  intros Hg He Ha Hs. destruct (table_history B h _ (table_init B) Hg) as [H1 H2].
  split; [exact Hs|]. rewrite He. split; [apply well_named_reachable|]. split.
  { apply domains_history. intros x d []. }
  assert (Hall : forall c, In c (all_cons (w_model (run_history h init_world)) a) -> B (c_id c) = c_body c).
  { intros c Hc. apply in_app_or in Hc. destruct Hc; auto. }
  split.
  - intros c c' Hc Hc' E. rewrite <- (Hall c Hc), <- (Hall c' Hc'). now rewrite E.
  - intros c e' f Hc Hb. apply H2. rewrite (Hall c Hc). exact Hb.
Qed.
