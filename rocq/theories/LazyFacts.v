(** Compiled evaluation on the safe fragment, evaluations that raise included. *)
From Coq Require Import Lia.
From Verif Require Import Dec DecFacts PyText SpecFormula SpecSafe SpecLazy ExprFacts PyTextFacts ParseFacts CompileFacts.
Open Scope list_scope.
Open Scope Z_scope.

Lemma truthy_eqb v : truthy v = negb (v =? 0).
Proof. reflexivity. Qed.
Lemma or_fold s l : forall acc a,
  aeval s (fold_left AOr l (AOr acc a)) = let! v := aeval s acc in if truthy v then Ok v else aeval s (fold_left AOr l a).
Proof.
  induction l as [|b l IH] using rev_ind; intros acc a; [reflexivity|]. rewrite !fold_left_app. cbn [fold_left aeval]. rewrite IH.
  destruct (aeval s acc) as [v|]; [|reflexivity]. cbn [bind]. destruct (truthy v) eqn:E; [|reflexivity]. cbn [bind]. now rewrite E.
Qed.
Lemma orfold_or s l1 l2 : l1 <> [] -> l2 <> [] ->
  aeval s (orfold (l1 ++ l2)) = let! v := aeval s (orfold l1) in if truthy v then Ok v else aeval s (orfold l2).
Proof. intros H1 H2. rewrite orfold_app by assumption. destruct l2 as [|a l2]; [contradiction|]. cbn [orfold]. apply or_fold. Qed.
Lemma aeval_list_eq s l :
  (fix go (l : list ast) : res (list Z) :=
     match l with
     | [] => Ok []
     | b :: l' => let! v := aeval s b in let! vs := go l' in Ok (v :: vs)
     end) l = mapM (aeval s) l.
Proof. induction l as [|a l IH]; [reflexivity|]. cbn [mapM]. now rewrite <- IH. Qed.
Lemma mapM_ext_In {A B C} (f : A -> res C) (g : B -> res C) (h : B -> A) es : (forall e, In e es -> f (h e) = g e) -> mapM f (map h es) = mapM g es.
Proof.
  induction es as [|e es IH]; intros H; [reflexivity|]. cbn [map mapM]. rewrite (H e (or_introl eq_refl)), IH; [reflexivity|]. intros e' He'. apply H. now right.
Qed.
Lemma lazy_go ps s l :
  (fix go (l : list expr) : res (list Z) :=
     match l with
     | [] => Ok []
     | e1 :: l' => let! v := lazy ps s e1 in let! vs := go l' in Ok (v :: vs)
     end) l = mapM (lazy ps s) l.
Proof. induction l as [|a l IH]; [reflexivity|]. cbn [mapM]. now rewrite <- IH. Qed.
Lemma lazy_Sum ps s es c : lazy ps s (Sum es c) = let! vs := mapM (lazy ps s) es in Ok (fold_left Z.add vs c).
Proof. cbn [lazy]. now rewrite lazy_go. Qed.
Lemma lazy_Prod ps s es c : lazy ps s (Prod es c) = let! vs := mapM (lazy ps s) es in Ok (fold_left Z.mul vs c).
Proof. cbn [lazy]. now rewrite lazy_go. Qed.
Lemma values_lazy ps s env k c es (call : list Z -> res Z) (op : Z -> Z -> Z) : (forall e, In e es -> aeval env (ast_of ps e) = lazy ps s e) ->
  (forall vs, call vs = Ok (fold_left op vs (neutral k))) -> (forall v, op (neutral k) v = v) ->
  (let! vs := mapM (aeval env) (values_asts k c (map (fun e => orfold (asts ps e)) es)) in call vs) =
  (let! vs := mapM (lazy ps s) es in Ok (fold_left op vs c)).
Proof.
  intros H Hcall Hn. assert (E : mapM (aeval env) (map (fun e => orfold (asts ps e)) es) = mapM (lazy ps s) es) by now apply mapM_ext_In.
  unfold values_asts. destruct (Z.eqb_spec c (neutral k)) as [->|Hne].
  - rewrite E. destruct (mapM (lazy ps s) es); [|reflexivity]. cbn [bind]. apply Hcall.
  - cbn [mapM]. rewrite aeval_num, E. cbn [bind]. destruct (mapM (lazy ps s) es); [|reflexivity]. cbn [bind]. rewrite Hcall. cbn [fold_left]. now rewrite Hn.
Qed.

Lemma aeval_lazy ps s env e :
  safe e = true ->
  (forall x, occurs x e -> dget env x = dget s x) -> (forall x, occurs x e -> dmem s x = true) ->
  (forall f, In f ["sum"; "prod"; "abs"]%string -> dmem env f = false) ->
  aeval env (ast_of ps e) = lazy ps s e.
Proof.
  induction e as [z|y|p y|e IH|e IH|e IH|o l r IHl IHr|es c IH|es c IH] using expr_ind';
    intros Hs Henv Hmem Hf; unfold ast_of; cbn [asts].
  - apply aeval_num.
  - cbn. rewrite (Henv y (occ_var y)). specialize (Hmem y (occ_var y)). unfold dmem in Hmem. destruct (dget s y); [reflexivity|discriminate].
  - apply aeval_num.
  - cbn [safe] in Hs. apply andb_true_iff in Hs. destruct Hs as [_ Hs]. cbn [orfold fold_left aeval lazy]. fold (ast_of ps e).
    rewrite IH; auto; intros x Hx; [apply Henv|apply Hmem]; now constructor.
  - cbn [safe] in Hs. apply andb_true_iff in Hs. destruct Hs as [_ Hs]. cbn [orfold fold_left aeval lazy]. fold (ast_of ps e).
    rewrite IH; auto; try (intros x Hx; [apply Henv|apply Hmem]; now constructor); try (intros x Hx; apply Henv; now constructor); try (intros x Hx; apply Hmem; now constructor).
    destruct (lazy ps s e); [|reflexivity]. cbn [bind]. unfold call_fun1. rewrite Hf by (simpl; auto). reflexivity.
  - cbn [safe] in Hs. apply andb_true_iff in Hs. destruct Hs as [_ Hs]. cbn [orfold fold_left aeval lazy]. fold (ast_of ps e).
    rewrite IH; auto; try (intros x Hx; apply Henv; now constructor); try (intros x Hx; apply Hmem; now constructor).
    destruct (lazy ps s e) as [v|]; [|reflexivity]. cbn [bind]. rewrite truthy_eqb, negb_involutive. destruct (v =? 0); reflexivity.
  - cbn [safe] in Hs. rewrite !andb_true_iff in Hs. destruct Hs as [[_ Hsl] Hsr].
    assert (Ha : aeval env (ast_of ps l) = lazy ps s l) by (apply IHl; auto; intros x Hx; [apply Henv|apply Hmem]; now apply occ_binl).
    assert (Hb : aeval env (ast_of ps r) = lazy ps s r) by (apply IHr; auto; intros x Hx; [apply Henv|apply Hmem]; now apply occ_binr).
    assert (Hcmp : forall t : bool, (if t then Ok 1 else Ok 0) = Ok (b2z t)) by (intros []; reflexivity).
    destruct o; cbn [bin_ast orfold fold_left lazy];
      try (cbn [aeval]; fold (ast_of ps l) (ast_of ps r); rewrite Ha; destruct (lazy ps s l); [|reflexivity]; cbn [bind];
           rewrite Hb; destruct (lazy ps s r); [|reflexivity]; cbn [bind py_cmp bin_op py_bin]; rewrite ?Hcmp; reflexivity).
    + cbn [aeval]. fold (ast_of ps l) (ast_of ps r). rewrite Ha. destruct (lazy ps s l) as [v|]; [|reflexivity]. cbn [bind]. rewrite truthy_eqb, Hb.
      destruct (v =? 0); reflexivity.
    + rewrite orfold_or.
      * fold (ast_of ps l) (ast_of ps r). rewrite Ha. destruct (lazy ps s l) as [v|]; [|reflexivity]. cbn [bind]. rewrite truthy_eqb, Hb. destruct (v =? 0); reflexivity.
      * destruct (asts_nonempty ps l) as (x & l' & E). rewrite E. discriminate.
      * destruct (asts_nonempty ps r) as (x & l' & E). rewrite E. discriminate.
  - cbn [safe] in Hs. apply andb_true_iff in Hs. destruct Hs as [_ Hs]. rewrite forallb_forall in Hs. rewrite Forall_forall in IH.
    rewrite lazy_Sum. cbn [orfold fold_left aeval]. rewrite aeval_list_eq.
    apply (values_lazy ps s env KSum c es (call_fun env "sum") Z.add).
    + intros e He. apply IH; auto; intros x Hx; [apply Henv|apply Hmem]; eapply occ_sum; eauto.
    + intros vs. unfold call_fun. rewrite Hf by (simpl; auto). reflexivity.
    + reflexivity.
  - cbn [safe] in Hs. apply andb_true_iff in Hs. destruct Hs as [_ Hs]. rewrite forallb_forall in Hs. rewrite Forall_forall in IH.
    rewrite lazy_Prod. cbn [orfold fold_left aeval]. rewrite aeval_list_eq.
    apply (values_lazy ps s env KProd c es (call_fun env "prod") Z.mul).
    + intros e He. apply IH; auto; intros x Hx; [apply Henv|apply Hmem]; eapply occ_prod; eauto.
    + intros vs. unfold call_fun. rewrite Hf by (simpl; auto). reflexivity.
    + intros v. apply Z.mul_1_l.
Qed.

(** The lambda: all variables must be given. *)
Lemma compiled_lazy ps s e : safe e = true -> (forall x, occurs x e -> dmem s x = true) ->
  call_code (as_function ps e) s = lazy ps s e.
Proof.
  intros Hs Hm. unfold as_function. rewrite (compile_safe ps e Hs). cbn [call_code].
  assert (Hall : forallb (fun x => dmem s x) (vars e) = true).
  { apply forallb_forall. intros x Hx. apply vars_occurs in Hx. now apply Hm. }
  rewrite Hall. apply (aeval_lazy ps s); try assumption.
  - intros x Hx. rewrite (dget_filter s (fun y => memb y (vars e))).
    assert (Hx' : memb x (vars e) = true) by now apply memb_In, vars_occurs.
    now rewrite Hx'.
  - intros f Hf. unfold dmem. rewrite (dget_filter s (fun y => memb y (vars e))).
    assert (Hx : memb f (vars e) = false).
    { apply memb_false. intros Hin. apply vars_occurs in Hin. apply (safe_names e) in Hin; [|assumption].
      apply (name_ok_special f f) in Hin; [contradiction|]. simpl in *. tauto. }
    now rewrite Hx.
Qed.
Lemma compiled_unbound ps s e x : safe e = true -> occurs x e -> dmem s x = false -> call_code (as_function ps e) s = Err TypeError.
Proof.
  intros Hs Ho Hx. unfold as_function. rewrite (compile_safe ps e Hs). cbn [call_code].
  assert (Hall : forallb (fun x => dmem s x) (vars e) = false).
  { apply Bool.not_true_iff_false. intros H. rewrite forallb_forall in H. rewrite (H x) in Hx; [discriminate|]. now apply vars_occurs. }
  now rewrite Hall.
Qed.

(** ** Interpreted evaluation *)
Lemma mapM_same {A B} (f g : A -> res B) es : (forall e, In e es -> f e = g e) -> mapM f es = mapM g es.
Proof. intros H. rewrite <- (map_id es) at 1. apply mapM_ext_In. exact H. Qed.
Lemma evaluate_lazy ps s e : no_logic e = true -> evaluate ps s e = lazy ps s e.
Proof.
  induction e as [z|y|p y|e IH|e IH|e IH|o l r IHl IHr|es c IH|es c IH] using expr_ind'; intros H; cbn [no_logic] in H; try reflexivity.
  - cbn [evaluate lazy]. now rewrite IH.
  - cbn [evaluate lazy]. now rewrite IH.
  - cbn [evaluate lazy]. rewrite IH by assumption. destruct (lazy ps s e) as [v|]; [|reflexivity]. cbn [bind]. rewrite truthy_eqb, negb_involutive. destruct (v =? 0); reflexivity.
  - rewrite !andb_true_iff in H. destruct H as [[Ho Hl] Hr]. cbn [evaluate]. rewrite IHl, IHr by assumption. destruct o; try discriminate; reflexivity.
  - rewrite forallb_forall in H. rewrite Forall_forall in IH. rewrite evaluate_Sum, lazy_Sum.
    rewrite (mapM_same (evaluate ps s) (lazy ps s)) by (intros e He; apply IH; auto).
    destruct (mapM (lazy ps s) es) as [vs|]; [|reflexivity]. cbn [bind]. now rewrite fold_add_tot.
  - rewrite forallb_forall in H. rewrite Forall_forall in IH. rewrite evaluate_Prod, lazy_Prod.
    rewrite (mapM_same (evaluate ps s) (lazy ps s)) by (intros e He; apply IH; auto).
    destruct (mapM (lazy ps s) es) as [vs|]; [|reflexivity]. cbn [bind]. now rewrite fold_mul_tot.
Qed.
Lemma compiled_errors ps s e : safe e = true -> no_logic e = true -> (forall x, occurs x e -> dmem s x = true) ->
  call_code (as_function ps e) s = evaluate ps s e.
Proof. intros H1 H2 H3. rewrite (compiled_lazy ps s e H1 H3). symmetry. now apply evaluate_lazy. Qed.
Lemma short_circuit : exists ps s e, safe e = true /\ (forall x, occurs x e -> dmem s x = true) /\
  evaluate ps s e = Err ZeroDivisionError /\ call_code (as_function ps e) s = Ok 0.
Proof.
  exists (fun _ => 0), [("x"%string, 0)], (Bin OAnd (Bin ONe (Var "x") (Const 0)) (Bin OGt (Bin ODiv (Const 10) (Var "x")) (Const 2))).
  split; [reflexivity|]. split; [|split; vm_compute; reflexivity]. intros x Hx. apply vars_occurs in Hx. destruct Hx as [<-|[]]. reflexivity.
Qed.
