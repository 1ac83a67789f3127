(** A compiled constraint depends on the variables of its expression only. *)
From Verif Require Import Dec DecFacts Model SpecFormula SpecSafe SpecSolve ExprFacts DictFacts PyTextFacts CompileFacts.
Open Scope list_scope.
Open Scope Z_scope.

(** Names of a model: identifiers, possibly followed by a newline. *)
Definition plain (x : name) : Prop :=
  identifier x = true \/ exists y, identifier y = true /\ x = (y ++ String newline "")%string.

Lemma all_name_word s : word_chars_nl s = true ->
  all_name_chars s = true \/ exists t, all_name_chars t = true /\ s = (t ++ String newline "")%string.
Proof.
  induction s as [|c s IH]; simpl; intros H; [left; reflexivity|].
  destruct (isname_char c) eqn:Ec.
  - destruct (IH H) as [Ha|(t & Ht & ->)]; [left; now rewrite Ha|].
    right. exists (String c t). simpl. now rewrite Ec, Ht.
  - destruct (Ascii.eqb c newline) eqn:En; [|discriminate]. apply Ascii.eqb_eq in En. subst c.
    destruct s; [|discriminate]. right. exists ""%string. split; reflexivity.
Qed.

Lemma good_name_plain x : good_name x = true -> plain x.
Proof.
  destruct x as [|c s]; [discriminate|]. simpl. intros H. apply andb_true_iff in H. destruct H as [Hc Hs].
  assert (Hc' : isname_start c = true) by (unfold isname_start; now rewrite Hc).
  destruct (all_name_word s Hs) as [Ha|(t & Ht & ->)].
  - left. simpl. now rewrite Hc', Ha.
  - right. exists (String c t). simpl. now rewrite Hc', Ht.
Qed.

Lemma digits_name_chars s : all_digits s = true -> all_name_chars s = true.
Proof.
  induction s as [|c s IH]; simpl; intros H; [reflexivity|]. apply andb_true_iff in H. destruct H as [Hc Hs].
  rewrite (IH Hs), andb_true_r. unfold isname_char. change (isdigit c = true) in Hc. now rewrite Hc, orb_true_r.
Qed.

Lemma str_nat_digits k : all_digits (str_nat k) = true.
Proof.
  unfold str_nat, str_int. destruct (Z.ltb_spec (Z.of_nat k) 0); [lia|]. apply str_nonneg_dec. lia.
Qed.

Lemma auto_plain k : plain ("_v" ++ str_nat k)%string /\ plain ("_p" ++ str_nat k)%string.
Proof.
  assert (H : all_name_chars (str_nat k) = true) by (apply digits_name_chars, str_nat_digits).
  split; left; simpl; now rewrite H.
Qed.

Lemma lex_identifier x : identifier x = true -> lex_run LStart x = Ok ([], LName x).
Proof.
  destruct x as [|c s]; [discriminate|]. simpl. intros H. apply andb_true_iff in H.
  destruct H as [Hc Hs]. cbn [lex_run lex_step]. unfold lex_start.
  rewrite (identifier_start c Hc), Hc. simpl. rewrite lex_run_name by assumption. reflexivity.
Qed.

Definition arg_prefix (xs : list name) : list tok := flat_map (fun x => [name_tok x; TComma]) xs.

Lemma sjoin_cons (x : string) l : l <> [] -> sjoin ", " (x :: l) = (x ++ (", " ++ sjoin ", " l))%string.
Proof. destruct l; [contradiction|reflexivity]. Qed.

Lemma lex_args rest : forall xs ts st, Forall plain xs ->
  lex_run LStart (sjoin ", " (xs ++ ["**__dummy_kwargs"%string]) ++ (": (" ++ rest))%string = Ok (ts, st) ->
  exists ts', ts = arg_prefix xs ++ TDStar :: TId "__dummy_kwargs" :: TColon :: ts'.
Proof.
  induction xs as [|x xs IH]; intros ts st Hp H.
  - cbn [app sjoin] in H.
    change (lex_run LStart ("**__dummy_kwargs: (" ++ rest)%string = Ok (ts, st)) in H.
    rewrite lex_run_app in H.
    replace (lex_run LStart "**__dummy_kwargs: (") with (Ok ([TDStar; TId "__dummy_kwargs"; TColon; TLP], LStart)) in H
      by (vm_compute; reflexivity).
    cbn [bind fst snd] in H. destruct (lex_run LStart rest) as [[t2 st2]|]; [|discriminate].
    cbn [bind fst snd] in H. inversion H; subst. simpl. eauto.
  - inversion Hp as [|? ? Hx Hp']; subst. cbn [app] in H.
    rewrite sjoin_cons in H by (destruct xs; discriminate). rewrite !sapp_assoc in H.
    destruct Hx as [Hi|(y & Hi & ->)].
    + rewrite lex_run_app, (lex_identifier x Hi) in H. cbn [bind fst snd] in H. rewrite lex_run_app in H.
      replace (lex_run (LName x) ", ") with (Ok ([name_tok x; TComma], LStart)) in H by reflexivity.
      cbn [bind fst snd] in H.
      destruct (lex_run LStart (sjoin ", " (xs ++ ["**__dummy_kwargs"%string]) ++ (": (" ++ rest))) as [[t2 st2]|] eqn:E;
        [|discriminate].
      cbn [bind fst snd] in H. inversion H; subst. destruct (IH _ _ Hp' eq_refl) as (ts' & ->). exists ts'. reflexivity.
    + rewrite sapp_assoc in H. rewrite lex_run_app, (lex_identifier y Hi) in H. cbn [bind fst snd] in H. discriminate H.
Qed.

Lemma parse_args_prefix kw body : forall xs acc args a,
  parse_args (arg_prefix xs ++ TDStar :: TId kw :: TColon :: body) acc = Ok (args, a) -> args = acc ++ xs.
Proof.
  induction xs as [|x xs IH]; intros acc args a H.
  - simpl in H. destruct (memb kw acc); [discriminate|]. destruct (parse_expr body); [|discriminate].
    simpl in H. inversion H; subst. now rewrite app_nil_r.
  - simpl in H.
    assert (Ht : name_tok x = TId x).
    { revert H. unfold name_tok.
      repeat match goal with |- context [if ?b then _ else _] => destruct b end; intros H; try discriminate H; reflexivity. }
    rewrite Ht in H. destruct (memb x acc); [discriminate|]. apply IH in H. now rewrite <- app_assoc in H.
Qed.

Lemma compile_args ps e args body : Forall plain (vars e) -> compile ps e = Ok (args, body) -> args = vars e.
Proof.
  intros Hp H. unfold compile, lex, py_source in H. rewrite lex_run_app in H.
  replace (lex_run LStart "lambda ") with (Ok ([TLambda], LStart)) in H by reflexivity.
  cbn [bind fst snd] in H.
  destruct (lex_run LStart (sjoin ", " (vars e ++ ["**__dummy_kwargs"%string]) ++ (": (" ++ (py_expr ps e ++ ")")))%string)
    as [[ts st]|] eqn:E; [|discriminate].
  cbn [bind fst snd] in H. destruct (flush st) as [t2|]; [|discriminate]. cbn [bind] in H.
  destruct (lex_args _ _ _ _ Hp E) as (ts' & ->). rewrite <- !app_assoc in H. cbn [app parse_lambda] in H.
  now apply parse_args_prefix in H.
Qed.

(** A keyword is no name of an argument. *)
Lemma parse_args_names kw body : forall xs acc args a,
  parse_args (arg_prefix xs ++ TDStar :: TId kw :: TColon :: body) acc = Ok (args, a) -> forall x, In x xs -> name_tok x = TId x.
Proof.
  induction xs as [|x xs IH]; intros acc args a H y Hy; [contradiction|]. simpl in H.
  assert (Ht : name_tok x = TId x).
  { revert H. unfold name_tok.
    repeat match goal with |- context [if ?b then _ else _] => destruct b end; intros H; try discriminate H; reflexivity. }
  rewrite Ht in H. destruct (memb x acc); [discriminate|]. destruct Hy as [<-|Hy]; [exact Ht|]. eapply IH; eauto.
Qed.

Lemma reserved_token x : In x reserved -> name_tok x <> TId x.
Proof.
  intros H. cbn [reserved In] in H. repeat (destruct H as [<-|H]; [vm_compute; discriminate|]). contradiction.
Qed.

Lemma keyword_fallback ps e x : (forall y, occurs y e -> identifier y = true) -> In x reserved -> occurs x e -> as_function ps e = Fallback.
Proof.
  intros Hid Hx Ho. unfold as_function. destruct (compile ps e) as [[args body]|ex] eqn:H; [exfalso|reflexivity].
  assert (Hp : Forall plain (vars e)) by (apply Forall_forall; intros y Hy; left; apply Hid; now apply vars_occurs).
  unfold compile, lex, py_source in H. rewrite lex_run_app in H.
  replace (lex_run LStart "lambda ") with (Ok ([TLambda], LStart)) in H by reflexivity.
  cbn [bind fst snd] in H.
  destruct (lex_run LStart (sjoin ", " (vars e ++ ["**__dummy_kwargs"%string]) ++ (": (" ++ (py_expr ps e ++ ")")))%string)
    as [[ts st]|] eqn:E; [|discriminate].
  cbn [bind fst snd] in H. destruct (flush st) as [t2|]; [|discriminate]. cbn [bind] in H.
  destruct (lex_args _ _ _ _ Hp E) as (ts' & ->). rewrite <- !app_assoc in H. cbn [app parse_lambda] in H.
  apply (reserved_token x Hx). eapply parse_args_names; [exact H|]. now apply vars_occurs.
Qed.

(** ** Evaluation of syntax trees depends on the bindings only *)

Lemma dmem_agree (s s' : subst) x : dget s x = dget s' x -> dmem s x = dmem s' x.
Proof.
  intros H. destruct (dmem s x) eqn:E1, (dmem s' x) eqn:E2; try reflexivity.
  - apply dmem_In, dget_Some in E1. apply dmem_false, dget_None in E2. destruct E1. congruence.
  - apply dmem_In, dget_Some in E2. apply dmem_false, dget_None in E1. destruct E2. congruence.
Qed.

Fixpoint aeval_agree s s' (H : forall x, dget s x = dget s' x) (a : ast) {struct a} : aeval s a = aeval s' a.
Proof.
  destruct a as [n|x|b|b|b|b|b c|b c|o b c|b l|f b|f l]; cbn [aeval].
  - reflexivity.
  - now rewrite H.
  - now rewrite (aeval_agree s s' H b).
  - apply (aeval_agree s s' H b).
  - now rewrite (aeval_agree s s' H b).
  - now rewrite (aeval_agree s s' H b).
  - now rewrite (aeval_agree s s' H b), (aeval_agree s s' H c).
  - now rewrite (aeval_agree s s' H b), (aeval_agree s s' H c).
  - now rewrite (aeval_agree s s' H b), (aeval_agree s s' H c).
  - rewrite (aeval_agree s s' H b). destruct (aeval s' b) as [v|]; [|reflexivity]. cbn [bind].
    revert v. induction l as [|[o c] l IHl]; intros v; [reflexivity|].
    rewrite (aeval_agree s s' H c). destruct (aeval s' c) as [w|]; [|reflexivity]. cbn [bind].
    destruct (py_cmp o v w); [apply IHl|reflexivity].
  - rewrite (aeval_agree s s' H b). destruct (aeval s' b) as [v|]; [|reflexivity]. cbn [bind].
    unfold call_fun1. now rewrite (dmem_agree s s' f (H f)).
  - match goal with |- bind ?A _ = bind ?B _ => assert (Hl : A = B) end.
    { induction l as [|c l IHl]; [reflexivity|]. rewrite (aeval_agree s s' H c). now rewrite IHl. }
    rewrite Hl. match goal with |- bind ?A _ = _ => destruct A as [vs|] end; [|reflexivity]. cbn [bind].
    unfold call_fun. now rewrite (dmem_agree s s' f (H f)).
Qed.

Lemma forallb_ext_in {A} (f g : A -> bool) l : (forall a, In a l -> f a = g a) -> forallb f l = forallb g l.
Proof.
  induction l as [|a l IH]; intros H; [reflexivity|]. simpl. rewrite (H a (or_introl eq_refl)).
  rewrite IH; [reflexivity|]. intros b Hb. apply H. now right.
Qed.

Lemma call_code_agree args body s s' :
  (forall x, In x args -> dget s x = dget s' x) ->
  call_code (Compiled args body) s = call_code (Compiled args body) s'.
Proof.
  intros H. unfold call_code.
  rewrite (forallb_ext_in (fun x => dmem s x) (fun x => dmem s' x) args).
  - destruct (forallb _ args); [|reflexivity]. apply aeval_agree. intros x.
    rewrite (dget_filter s (fun y => memb y args)), (dget_filter s' (fun y => memb y args)). destruct (memb x args) eqn:E; [|reflexivity].
    apply H. now apply memb_In.
  - intros x Hx. now apply dmem_agree, H.
Qed.

Lemma as_function_agree ps e s s' : Forall plain (vars e) ->
  (forall x, In x (vars e) -> dget s x = dget s' x) ->
  call_code (as_function ps e) s = call_code (as_function ps e) s'.
Proof.
  intros Hp H. unfold as_function. destruct (compile ps e) as [[args body]|] eqn:E; [|reflexivity].
  apply compile_args in E; [|assumption]. subst args. now apply call_code_agree.
Qed.

(** ** Constraints *)

Lemma mentions_vars c x : mentions c x <-> In x (c_vars c).
Proof.
  unfold mentions, c_vars. destruct (c_body c) as [b|e|xs]; [split; contradiction| |].
  - symmetry. apply vars_occurs.
  - symmetry. apply dedup_In.
Qed.

Lemma c_vars_NoDup c : NoDup (c_vars c).
Proof.
  unfold c_vars. destruct (c_body c); [constructor|apply vars_NoDup|apply dedup_NoDup].
Qed.

Lemma well_named_plain m x : well_named m -> In x (map fst (m_vars m)) -> plain x.
Proof.
  intros [_ H] Hx. destruct (H x Hx) as [Hg|(k & [->| ->])]; [now apply good_name_plain|apply auto_plain|apply auto_plain].
Qed.

(** [c] can be evaluated from the bindings of its variables alone. *)
Definition c_local (w : world) (c : constraint) : Prop :=
  forall s s', (forall x, In x (c_vars c) -> dget s x = dget s' x) -> ceval w c s = ceval w c s'.

Lemma mapM_ext_in' {A B} (f g : A -> res B) l : (forall a, In a l -> f a = g a) -> mapM f l = mapM g l.
Proof.
  induction l as [|a l IH]; intros H; [reflexivity|]. simpl. rewrite (H a (or_introl eq_refl)), IH; [reflexivity|].
  intros b Hb. apply H. now right.
Qed.

Lemma local_code w c : Forall plain (c_vars c) ->
  (forall e f, c_body c = CExpr e -> w_code w (c_id c) = Some f -> exists ps, f = as_function ps e) ->
  c_local w c.
Proof.
  intros Hp Hc s s' H. unfold ceval, c_vars in *. destruct (c_body c) as [b|e|xs] eqn:Eb; [reflexivity| |].
  - destruct (w_code w (c_id c)) as [f|] eqn:Ec.
    + destruct (Hc e f eq_refl eq_refl) as (ps & ->). now rewrite (as_function_agree ps e s s' Hp H).
    + now rewrite (evaluate_agree (w_par w) s s' e (fun x Hx => H x (proj2 (vars_occurs x e) Hx))).
  - unfold ad_evaluate. erewrite mapM_ext_in'; [reflexivity|]. intros x Hx. simpl. now rewrite (H x Hx).
Qed.

(** All-different, evaluated directly. *)
Lemma zmem_In v l : zmem v l = true <-> In v l.
Proof.
  induction l as [|x l IH]; simpl; [split; [discriminate|contradiction]|].
  rewrite orb_true_iff, IH, Z.eqb_eq. split; intros [|]; auto.
Qed.

Lemma zset_len l : (length (zset l) <= length l)%nat /\ (length (zset l) = length l <-> NoDup l).
Proof.
  induction l as [|v l [IH1 IH2]]; simpl; [split; [lia|split; [constructor|reflexivity]]|].
  destruct (zmem v l) eqn:E; simpl.
  - split; [lia|]. split; [lia|]. intros H. inversion H; subst. apply zmem_In in E. contradiction.
  - split; [lia|]. split.
    + intros H. constructor; [|apply IH2; lia]. intros Hin. apply zmem_In in Hin. congruence.
    + intros H. inversion H; subst. f_equal. now apply IH2.
Qed.

Lemma mapM_dget (s : subst) xs : (forall x, In x xs -> exists v, dget s x = Some v) ->
  exists vs, mapM (fun x => match dget s x with Some v => Ok v | None => Err KeyError end) xs = Ok vs /\
    length vs = length xs /\
    forall n x v, nth_error xs n = Some x -> nth_error vs n = Some v -> dget s x = Some v.
Proof.
  induction xs as [|x xs IH]; intros H.
  - exists []. repeat split. intros [|n]; discriminate.
  - destruct (H x (or_introl eq_refl)) as (v & Hv). destruct IH as (vs & Hm & Hl & Hn); [intros; apply H; now right|].
    exists (v :: vs). simpl. rewrite Hv, Hm. simpl. repeat split; [now rewrite Hl|].
    intros [|n] y u; simpl; [intros E1 E2; inversion E1; inversion E2; subst; assumption|apply Hn].
Qed.

Lemma ad_evaluate_spec (s : subst) xs : NoDup xs -> (forall x, In x xs -> exists v, dget s x = Some v) ->
  exists b, ad_evaluate xs s = Ok b /\
    (b = true <-> forall x y, In x xs -> In y xs -> x <> y -> dget s x <> dget s y).
Proof.
  intros Hnd H. unfold ad_evaluate. destruct (mapM_dget s xs H) as (vs & -> & Hl & Hn). cbn [bind].
  eexists. split; [reflexivity|]. rewrite Nat.eqb_eq, <- Hl.
  rewrite (proj2 (zset_len vs)). split.
  - intros Hv x y Hx Hy Hxy Heq. apply In_nth_error in Hx. apply In_nth_error in Hy.
    destruct Hx as (i & Hi). destruct Hy as (j & Hj).
    assert (Hij : i <> j) by congruence.
    assert (Hil : (i < length vs)%nat) by (rewrite Hl; apply nth_error_Some; congruence).
    assert (Hjl : (j < length vs)%nat) by (rewrite Hl; apply nth_error_Some; congruence).
    destruct (nth_error vs i) as [a|] eqn:Ea; [|apply nth_error_None in Ea; lia].
    destruct (nth_error vs j) as [b|] eqn:Eb; [|apply nth_error_None in Eb; lia].
    pose proof (Hn _ _ _ Hi Ea). pose proof (Hn _ _ _ Hj Eb).
    apply Hij. eapply NoDup_nth_error; [exact Hv|assumption|]. congruence.
  - intros Hd. apply NoDup_nth_error. intros i j Hil E.
    destruct (nth_error vs i) as [a|] eqn:Ea; [|apply nth_error_None in Ea; lia].
    symmetry in E.
    assert (Hjl : (j < length vs)%nat) by (apply nth_error_Some; congruence).
    destruct (nth_error xs i) as [x|] eqn:Ex; [|apply nth_error_None in Ex; lia].
    destruct (nth_error xs j) as [y|] eqn:Ey; [|apply nth_error_None in Ey; lia].
    pose proof (Hn _ _ _ Ex Ea) as H1. pose proof (Hn _ _ _ Ey E) as H2.
    destruct (string_dec x y) as [->|Hxy].
    + eapply NoDup_nth_error; [exact Hnd|rewrite <- Hl; assumption|congruence].
    + exfalso. apply (Hd x y); [eapply nth_error_In; eassumption|eapply nth_error_In; eassumption|assumption|congruence].
Qed.
