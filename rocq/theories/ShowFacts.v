(** The output of [print_model] determines the model, up to the meaning of its constraints. *)
From Coq Require Import Lia Permutation.
From Verif Require Import Dec DecFacts DemoModel SpecFormula SpecSafe SpecText SpecSolve SpecShow ExprFacts DictFacts PyTextFacts CompileFacts SafeFacts StrFacts PrintCryFacts.
Open Scope list_scope.
Open Scope Z_scope.

(** ** Texts *)
Lemma tok_inj p a b r r' : allc p a = true -> allc p b = true -> hdnot p r = true -> hdnot p r' = true ->
  (a ++ r = b ++ r')%string -> a = b /\ r = r'.
Proof.
  intros Ha Hb Hr Hr' E. pose proof (span_app p a r Ha Hr) as H. pose proof (span_app p b r' Hb Hr') as H'. rewrite E in H. rewrite H in H'.
  split; congruence.
Qed.
Lemma sapp_inv a b c : (a ++ b = a ++ c)%string -> b = c.
Proof. induction a as [|d a IH]; [auto|]. cbn. intros E. injection E as E. auto. Qed.
Lemma allc_app p a b : allc p (a ++ b) = allc p a && allc p b.
Proof. induction a as [|c a IH]; [reflexivity|]. cbn [append allc]. rewrite IH. now rewrite andb_assoc. Qed.
Lemma allc_impl p q s : (forall c, p c = true -> q c = true) -> allc p s = true -> allc q s = true.
Proof. intros H. induction s as [|c s IH]; [reflexivity|]. cbn. rewrite !andb_true_iff. intros [H1 H2]. auto. Qed.
Lemma allc_join p sep l : allc p sep = true -> Forall (fun t => allc p t = true) l -> allc p (sjoin sep l) = true.
Proof.
  intros Hs H. induction H as [|t l Ht Hl IH]; [reflexivity|]. destruct l as [|u l]; [exact Ht|].
  change (sjoin sep (t :: u :: l)) with (t ++ sep ++ sjoin sep (u :: l))%string. now rewrite !allc_app, Ht, Hs, IH.
Qed.

(** A list of texts between brackets. *)
Definition notsep (r : string) : Prop := forall x, r <> (", " ++ x)%string.
Lemma items_inj p l : p ","%char = false -> forall l' r r', Forall (fun t => allc p t = true /\ t <> ""%string) l -> Forall (fun t => allc p t = true /\ t <> ""%string) l' ->
  hdnot p r = true -> hdnot p r' = true -> notsep r -> notsep r' -> (sjoin ", " l ++ r = sjoin ", " l' ++ r')%string -> l = l' /\ r = r'.
Proof.
  intros Hp. induction l as [|t l IH]; intros [|t' l'] r r' H H' Hr Hr' Hn Hn' E.
  - auto.
  - exfalso. inversion H' as [|? ? [Ht Hne] _]; subst. destruct t' as [|c t']; [now apply Hne|]. cbn in Ht. apply andb_true_iff in Ht. destruct Ht as [Hc _].
    destruct l'; cbn [sjoin append] in E; subst r; cbn in Hr; rewrite Hc in Hr; discriminate.
  - exfalso. inversion H as [|? ? [Ht Hne] _]; subst. destruct t as [|c t]; [now apply Hne|]. cbn in Ht. apply andb_true_iff in Ht. destruct Ht as [Hc _].
    destruct l; cbn [sjoin append] in E; subst r'; cbn in Hr'; rewrite Hc in Hr'; discriminate.
  - inversion H as [|? ? [Ht _] Hl]; inversion H' as [|? ? [Ht' _] Hl']; subst.
    set (tail := fun (l : list string) (r : string) => match l with [] => r | _ => (", " ++ sjoin ", " l ++ r)%string end).
    assert (Et : forall u v q, (sjoin ", " (u :: v) ++ q = u ++ tail v q)%string) by (intros u [|w v] q; cbn [sjoin tail]; [reflexivity|now rewrite !sapp_assoc]).
    rewrite !Et in E. apply (tok_inj p) in E; [|assumption|assumption| |].
    + destruct E as [-> E]. destruct l as [|u l], l' as [|u' l']; cbn [tail] in E.
      * auto.
      * now destruct (Hn _ E).
      * symmetry in E. now destruct (Hn' _ E).
      * cbn [append] in E. injection E as E. destruct (IH (u' :: l') r r') as [-> ->]; auto.
    + destruct l; [exact Hr|]. cbn. now rewrite Hp.
    + destruct l'; [exact Hr'|]. cbn. now rewrite Hp.
Qed.

(** ** Characters *)
Definition signed (c : ascii) : bool := isname_char c || Ascii.eqb c "-".
Lemma int_signed z : allc signed (str_int z) = true /\ str_int z <> ""%string.
Proof.
  assert (G : forall n, 0 <= n -> allc signed (str_nonneg n) = true /\ str_nonneg n <> ""%string).
  { intros n Hn. destruct (nonneg_facts n Hn) as (c & s & E & _ & H). split; [|rewrite E; discriminate].
    revert H. apply allc_impl. intros d Hd. unfold signed. now rewrite Hd. }
  unfold str_int. destruct (Z.ltb_spec z 0); [|now apply G]. split; [|discriminate].
  cbn [allc]. rewrite (proj1 (G (- z) ltac:(lia))). reflexivity.
Qed.
Lemma ident_chars x : identifier x = true -> allc isname_char x = true /\ x <> ""%string.
Proof.
  destruct x as [|c x]; [discriminate|]. cbn. rewrite !andb_true_iff. intros [H1 H2]. split; [|discriminate].
  split; [unfold isname_char; now rewrite H1|now apply name_chars_allc].
Qed.
(** Neither a newline nor a quote. *)
Definition plain (c : ascii) : bool := negb (Ascii.eqb c newline) && negb (Ascii.eqb c "'").
Definition oneline (c : ascii) : bool := negb (Ascii.eqb c newline).
Lemma name_plain c : isname_char c = true -> plain c = true.
Proof. destruct c as [[] [] [] [] [] [] [] []]; vm_compute; congruence. Qed.
Lemma signed_plain c : signed c = true -> plain c = true.
Proof. destruct c as [[] [] [] [] [] [] [] []]; vm_compute; congruence. Qed.
Lemma plain_oneline c : plain c = true -> oneline c = true.
Proof. unfold plain, oneline. rewrite andb_true_iff. tauto. Qed.
Lemma int_plain z : allc plain (str_int z) = true.
Proof. apply (allc_impl signed); [exact signed_plain|apply int_signed]. Qed.
Lemma ident_plain x : identifier x = true -> allc plain x = true.
Proof. intros H. apply (allc_impl isname_char); [exact name_plain|now apply ident_chars]. Qed.
Lemma expr_plain kind e : printable kind e -> allc plain (str_expr e) = true.
Proof.
  induction e as [z|y|p y|e IH|e IH|e IH|o l r IHl IHr|es c IH|es c IH] using expr_ind'; intros P.
  - apply int_plain.
  - apply ident_plain, P.
  - apply ident_plain, P.
  - cbn [str_expr]. now rewrite !allc_app, IH.
  - cbn [str_expr]. now rewrite !allc_app, IH.
  - cbn [str_expr]. now rewrite !allc_app, IH.
  - destruct P as [P1 P2]. cbn [str_expr]. rewrite !allc_app, IHl, IHr by assumption. now destruct o.
  - apply printable_Sum in P. destruct P as [H3 P]. change (str_expr (Sum es c)) with (as_str KSum c (map str_expr es)).
    unfold three_values in H3. rewrite as_str_three by now rewrite map_length. rewrite !allc_app, allc_join; [reflexivity|reflexivity|].
    assert (F : Forall (fun t => allc plain t = true) (map str_expr es)) by (apply Forall_map; revert IH P; clear; induction 1; intros P; inversion P; constructor; auto).
    unfold acc_values. destruct (c =? neutral KSum); [exact F|constructor; [apply int_plain|exact F]].
  - apply printable_Prod in P. destruct P as [H3 P]. change (str_expr (Prod es c)) with (as_str KProd c (map str_expr es)).
    unfold three_values in H3. rewrite as_str_three by now rewrite map_length. rewrite !allc_app, allc_join; [reflexivity|reflexivity|].
    assert (F : Forall (fun t => allc plain t = true) (map str_expr es)) by (apply Forall_map; revert IH P; clear; induction 1; intros P; inversion P; constructor; auto).
    unfold acc_values. destruct (c =? neutral KProd); [exact F|constructor; [apply int_plain|exact F]].
Qed.

(** ** Domains *)
Lemma ints_items l : Forall (fun t => allc signed t = true /\ t <> ""%string) (map str_int l).
Proof. apply Forall_map, Forall_forall. intros z _. apply int_signed. Qed.
Lemma ints_inj l : forall l', map str_int l = map str_int l' -> l = l'.
Proof. induction l as [|z l IH]; intros [|z' l'] E; try discriminate; [reflexivity|]. cbn in E. injection E as E1 E2. f_equal; [now apply str_int_inj|now apply IH]. Qed.
Lemma tuple_text l : str_dobj (DTuple l) = ("(" ++ sjoin ", " (map str_int l) ++ (if Nat.eqb (length l) 1 then ",)" else ")"))%string.
Proof. destruct l as [|v [|w l]]; reflexivity. Qed.
Lemma bracket_inj l l' r r' : hdnot signed r = true -> hdnot signed r' = true -> notsep r -> notsep r' ->
  (sjoin ", " (map str_int l) ++ r = sjoin ", " (map str_int l') ++ r')%string -> l = l'.
Proof. intros H1 H2 H3 H4 E. apply ints_inj. now apply (items_inj signed) in E as [E _]; try apply ints_items. Qed.
Lemma set_text l : str_dobj (DSet l) = match l with [] => "set()"%string | _ => ("{" ++ sjoin ", " (map str_int l) ++ "}")%string end.
Proof. now destruct l. Qed.
Lemma dobj_inj d d' : str_dobj d = str_dobj d' -> dvalues d = dvalues d'.
Proof.
  destruct d as [l|l|l|a b], d' as [l'|l'|l'|a' b']; rewrite ?tuple_text, ?set_text; intros E;
    try (destruct l; discriminate E); try (destruct l'; discriminate E); try discriminate E; cbn [dvalues].
  - cbn [append] in E. injection E as E.
    assert (G : forall b : bool, hdnot signed (if b then ",)" else ")")%string = true /\ notsep (if b then ",)" else ")")%string) by (intros []; (split; [reflexivity|]); intros x Hx; discriminate Hx).
    apply bracket_inj in E; [assumption| | | |]; apply G.
  - cbn [str_dobj append] in E. injection E as E. apply bracket_inj in E; [assumption|reflexivity|reflexivity| |]; intros x Hx; discriminate Hx.
  - destruct l as [|v l], l' as [|v' l']; [reflexivity|discriminate E|discriminate E|].
    apply (sapp_inv "{") in E. apply (bracket_inj (v :: l) (v' :: l')) in E; [assumption|reflexivity|reflexivity| |]; intros x Hx; discriminate Hx.
  - cbn [str_dobj append] in E. injection E as E.
    apply (tok_inj signed) in E; [|apply int_signed|apply int_signed|reflexivity|reflexivity]. destruct E as [Ea E]. cbn [append] in E. injection E as E.
    apply (tok_inj signed) in E; [|apply int_signed|apply int_signed|reflexivity|reflexivity]. destruct E as [Eb _].
    apply str_int_inj in Ea, Eb. now subst.
Qed.
Lemma dobj_none d : str_dobj d <> "None"%string.
Proof. destruct d as [[|v [|w l]]|l|[|v l]|a b]; discriminate. Qed.
Lemma ints_plain l : allc plain (sjoin ", " (map str_int l)) = true.
Proof. apply allc_join; [reflexivity|]. apply Forall_map, Forall_forall. intros z _. apply int_plain. Qed.
Lemma dobj_plain d : allc plain (str_dobj d) = true.
Proof.
  destruct d as [l|l|l|a b].
  - rewrite tuple_text, !allc_app, ints_plain. now destruct (Nat.eqb _ 1).
  - cbn [str_dobj]. now rewrite !allc_app, ints_plain.
  - rewrite set_text. destruct l; [reflexivity|]. now rewrite !allc_app, ints_plain.
  - cbn [str_dobj]. now rewrite !allc_app, !int_plain.
Qed.

(** ** Lines *)
Lemma repr_ident x : identifier x = true -> repr_name x = ("'" ++ x ++ "'")%string.
Proof.
  intros H. unfold repr_name. f_equal. f_equal. apply ident_plain in H. induction x as [|c x IH]; [reflexivity|]. cbn [repr_chars append allc] in *.
  apply andb_true_iff in H. destruct H as [H1 H2]. apply plain_oneline in H1. unfold oneline in H1. apply negb_true_iff in H1. now rewrite H1, IH.
Qed.
Lemma pad_plain i : allc plain (pad4 i) = true.
Proof.
  unfold pad4. rewrite allc_app. apply andb_true_iff. split; [|apply int_plain].
  assert (G : forall k, allc plain (String.concat "" (repeat " "%string k)) = true); [|apply G].
  induction k as [|[|k] IH]; [reflexivity|reflexivity|]. change (repeat " "%string (S (S k))) with (" "%string :: repeat " "%string (S k)).
  cbn [String.concat] in IH |- *. exact IH.
Qed.

Lemma line_inj dom dom' i x vi x' vi' : identifier x = true -> identifier x' = true ->
  variable_line dom (i, (x, vi)) = variable_line dom' (i, (x', vi')) ->
  x = x' /\ match vi, vi' with VVar _, VVar _ => dvalues (dom x) = dvalues (dom' x) | VPar _, VPar _ => True | _, _ => False end.
Proof.
  intros H H' E. unfold variable_line in E. cbn [fst snd] in E. rewrite !repr_ident in E by assumption. do 3 apply sapp_inv in E. rewrite !sapp_assoc in E. apply sapp_inv in E.
  apply (tok_inj isname_char) in E; [|now apply ident_chars|now apply ident_chars|reflexivity|reflexivity]. destruct E as [<- E]. split; [reflexivity|].
  do 2 apply sapp_inv in E. destruct vi, vi'; [now apply dobj_inj|now apply dobj_none in E|symmetry in E; now apply dobj_none in E|exact I].
Qed.
Lemma variable_oneline dom (p : nat * (name * vinfo)) : identifier (fst (snd p)) = true -> allc oneline (variable_line dom p) = true.
Proof.
  intros H. unfold variable_line. rewrite repr_ident by exact H.
  assert (G : forall i x d, allc oneline i = true -> allc oneline x = true -> allc oneline d = true ->
    allc oneline (" " ++ i ++ ") " ++ ("'" ++ x ++ "'") ++ " domain: " ++ d) = true) by (intros i x d H1 H2 H3; rewrite !allc_app, H1, H2, H3; reflexivity).
  apply G; [apply (allc_impl plain); [exact plain_oneline|apply pad_plain]|apply (allc_impl plain); [exact plain_oneline|now apply ident_plain]|].
  destruct (snd (snd p)); [|reflexivity]. apply (allc_impl plain); [exact plain_oneline|apply dobj_plain].
Qed.

(** ** The output *)
Definition lines (dom : name -> dobj) (m : model) : list string :=
  [""; "=== model variables: ==="]%string ++ map (variable_line dom) (enumerate (m_vars m)) ++ [""; "=== model constraints: ==="]%string ++ map constraint_line (enumerate (m_cons m)).
Lemma stdout_app a b : stdout (a ++ b) = (stdout a ++ stdout b)%string.
Proof. induction a as [|t a IH]; [reflexivity|]. cbn [app stdout]. rewrite IH, sapp_assoc. reflexivity. Qed.
Lemma stdout_lines dom m : stdout (print_model dom m) = stdout (lines dom m).
Proof. unfold print_model, lines. rewrite !stdout_app. reflexivity. Qed.
Lemma stdout_inj a : forall b, Forall (fun t => allc oneline t = true) a -> Forall (fun t => allc oneline t = true) b -> stdout a = stdout b -> a = b.
Proof.
  induction a as [|t a IH]; intros [|u b] Ha Hb E; [reflexivity| | |].
  - destruct u; discriminate E.
  - destruct t; discriminate E.
  - inversion Ha; inversion Hb; subst. cbn [stdout] in E. apply (tok_inj oneline) in E; [|assumption|assumption|reflexivity|reflexivity].
    destruct E as [-> E]. injection E as E. f_equal. now apply IH.
Qed.
Lemma blank_split (a a' b b' : list string) : ~ In ""%string a -> ~ In ""%string a' -> a ++ ""%string :: b = a' ++ ""%string :: b' -> a = a' /\ b = b'.
Proof.
  revert a'. induction a as [|t a IH]; intros [|t' a'] H H' E; cbn [app] in E; injection E.
  - intros ->. auto.
  - intros _ <-. destruct H'. now left.
  - intros _ ->. destruct H. now left.
  - intros E' ->. destruct (IH a') as [-> ->]; auto; intros Hi; [apply H|apply H']; now right.
Qed.
Lemma enumerate_lines {A B} (f : nat * A -> string) (g : nat * B -> string) l : forall l' k,
  map f (combine (seq k (length l)) l) = map g (combine (seq k (length l')) l') -> Forall2 (fun a b => exists i, f (i, a) = g (i, b)) l l'.
Proof.
  induction l as [|a l IH]; intros [|b l'] k E; try discriminate E; constructor.
  - cbn in E. injection E as E _. now exists k.
  - cbn [length seq combine map] in E. injection E as _ E. exact (IH l' (S k) E).
Qed.

(** ** Constraints *)
Fixpoint tnames (t : tree) : list string :=
  match t with
  | TNumber _ => [] | TName x => [x]
  | TNeg t | TAbs t | TNot t => tnames t
  | TBin _ l r => tnames l ++ tnames r
  | TAcc _ ts => flat_map tnames ts
  end.
Lemma tnames_acc k c ts x : In x (flat_map tnames (acc_trees k c ts)) <-> In x (flat_map tnames ts).
Proof. unfold acc_trees. now destruct (c =? neutral k). Qed.
Lemma occurs_names kind x e : printable kind e -> occurs x e <-> In x (tnames (tree_of e)) /\ kind x = None.
Proof.
  induction e as [z|y|p y|e IH|e IH|e IH|o l r IHl IHr|es c IH|es c IH] using expr_ind'; intros P.
  - cbn. split; [intros H; inversion H|tauto].
  - cbn. destruct P as [_ P]. split; [intros H; inversion H; subst; auto|intros [[->|[]] _]; constructor].
  - cbn. destruct P as [_ P]. split; [intros H; inversion H|intros [[->|[]] H]; congruence].
  - cbn [tree_of tnames]. rewrite <- IH by exact P. split; [intros H; inversion H; assumption|apply occ_neg].
  - cbn [tree_of tnames]. rewrite <- IH by exact P. split; [intros H; inversion H; assumption|apply occ_abs].
  - cbn [tree_of tnames]. rewrite <- IH by exact P. split; [intros H; inversion H; assumption|apply occ_not].
  - destruct P as [P1 P2]. cbn [tree_of tnames]. rewrite in_app_iff. specialize (IHl P1). specialize (IHr P2). split.
    + intros H; inversion H; subst; tauto.
    + intros [[H|H] Hk]; [apply occ_binl|apply occ_binr]; tauto.
  - apply printable_Sum in P. destruct P as [_ P]. cbn [tree_of tnames]. rewrite tnames_acc, in_flat_map. rewrite Forall_forall in IH, P. split.
    + intros H; inversion H as [| | | | | |? ? e He Ho|]; subst. apply (IH e He (P e He)) in Ho. destruct Ho as [Ho Hk]. split; [|exact Hk].
      exists (tree_of e). split; [now apply in_map|exact Ho].
    + intros [(t & Ht & Hx) Hk]. apply in_map_iff in Ht. destruct Ht as (e & <- & He). apply (occ_sum x es c e He). apply (IH e He (P e He)). auto.
  - apply printable_Prod in P. destruct P as [_ P]. cbn [tree_of tnames]. rewrite tnames_acc, in_flat_map. rewrite Forall_forall in IH, P. split.
    + intros H; inversion H as [| | | | | | |? ? e He Ho]; subst. apply (IH e He (P e He)) in Ho. destruct Ho as [Ho Hk]. split; [|exact Hk].
      exists (tree_of e). split; [now apply in_map|exact Ho].
    + intros [(t & Ht & Hx) Hk]. apply in_map_iff in Ht. destruct Ht as (e & <- & He). apply (occ_prod x es c e He). apply (IH e He (P e He)). auto.
Qed.
Lemma name_text kind e x : printable kind e -> identifier x = true -> str_expr e = x -> e = Var x \/ exists p, e = Param p x.
Proof.
  intros P H E. assert (T : tree_of e = tree_of (Var x)) by (apply (text_tree kind (fun _ => None)); [exact P|split; [exact H|reflexivity]|exact E]).
  destruct e as [z|y|p y|e|e|e|o l r|es c|es c]; try discriminate T; cbn in T; injection T as ->; [left; reflexivity|right; now exists p].
Qed.

(** A constraint that can be shown. *)
Definition shown (kind : kinds) (c : constraint) : Prop :=
  match c_body c with
  | CConst _ => True
  | CExpr e => printable kind e /\ forall x, e = Var x \/ (exists p, e = Param p x) -> x <> "True"%string /\ x <> "False"%string
  | CAllDiff xs => xs <> [] /\ forall x, In x xs -> identifier x = true
  end.
Lemma group_items xs : (forall x, In x xs -> identifier x = true) ->
  map repr_name (sorted_strings (dedup xs)) = map (fun x => "'" ++ x ++ "'")%string (sorted_strings (dedup xs)).
Proof.
  intros H. apply map_ext_in. intros x Hx. apply repr_ident, H. apply dedup_In. exact (Permutation_in x (sorted_perm _) Hx).
Qed.
Lemma group_quote xs : xs <> [] -> exists r, sjoin ", " (map repr_name (sorted_strings (dedup xs))) = String "'" r.
Proof.
  intros H. destruct (sorted_strings (dedup xs)) as [|x l] eqn:E.
  - exfalso. destruct xs as [|x xs]; [now apply H|]. assert (Hi : In x (sorted_strings (dedup (x :: xs)))).
    { apply (Permutation_in x (Permutation_sym (sorted_perm _))). apply dedup_In. now left. }
    rewrite E in Hi. destruct Hi.
  - destruct l; cbn [map sjoin]; eexists; reflexivity.
Qed.
Lemma group_not_plain xs : xs <> [] -> allc plain ("AllDifferentConstraint([" ++ sjoin ", " (map repr_name (sorted_strings (dedup xs))) ++ "])") = false.
Proof. intros H. destruct (group_quote xs H) as (r & ->). rewrite allc_app. apply andb_false_iff. right. reflexivity. Qed.
Lemma shown_oneline kind c : shown kind c -> allc oneline (str_constraint c) = true.
Proof.
  unfold shown, str_constraint. destruct (c_body c) as [b|e|xs].
  - now destruct b.
  - intros [P _]. apply (allc_impl plain); [exact plain_oneline|now apply (expr_plain kind)].
  - intros [_ H]. rewrite !allc_app, group_items by exact H. rewrite allc_join; [reflexivity|reflexivity|].
    apply Forall_map, Forall_forall. intros x Hx. rewrite !allc_app. rewrite (allc_impl plain oneline x plain_oneline); [reflexivity|].
    apply ident_plain, H, dedup_In. exact (Permutation_in x (sorted_perm _) Hx).
Qed.

Lemma constraint_inj kind kind' ps ps' c c' : agreeing kind kind' ps ps' -> shown kind c -> shown kind' c' -> str_constraint c = str_constraint c' ->
  (forall x, mentions c x <-> mentions c' x) /\ forall s, holds ps s c <-> holds ps' s c'.
Proof.
  intros Ha S S' E. unfold shown, str_constraint, mentions, holds in *.
  destruct (c_body c) as [b|e|xs], (c_body c') as [b'|e'|xs'].
  - assert (b = b') as -> by (destruct b, b'; congruence). split; reflexivity.
  - exfalso. destruct S' as [P Hn]. destruct b; symmetry in E; apply (name_text kind') in E; auto; apply Hn in E; tauto.
  - exfalso. destruct b; discriminate E.
  - exfalso. destruct S as [P Hn]. destruct b'; apply (name_text kind) in E; auto; apply Hn in E; tauto.
  - destruct S as [P _], S' as [P' _]. pose proof (text_tree _ _ _ _ P P' E) as T. split.
    + intros x. rewrite (occurs_names kind x e P), (occurs_names kind' x e' P'), T. specialize (Ha x). destruct (kind x), (kind' x); intuition congruence.
    + intros s. rewrite (tree_same kind kind' ps ps' s Ha e e' P P' T). reflexivity.
  - exfalso. destruct S as [P _]. apply expr_plain in P. rewrite E in P. destruct S' as [Hx _]. rewrite (group_not_plain xs' Hx) in P. discriminate P.
  - exfalso. destruct b'; discriminate E.
  - exfalso. destruct S' as [P _]. apply expr_plain in P. rewrite <- E in P. destruct S as [Hx _]. rewrite (group_not_plain xs Hx) in P. discriminate P.
  - destruct S as [_ H], S' as [_ H']. apply sapp_inv in E. rewrite !group_items in E by assumption.
    set (quoted := fun c => isname_char c || Ascii.eqb c "'").
    assert (Q : forall ys, (forall x, In x ys -> identifier x = true) ->
      Forall (fun t => allc quoted t = true /\ t <> ""%string) (map (fun x => "'" ++ x ++ "'")%string (sorted_strings (dedup ys)))).
    { intros ys Hy. apply Forall_map, Forall_forall. intros x Hx. split; [|discriminate]. rewrite !allc_app. rewrite (allc_impl isname_char quoted x); [reflexivity| |].
      - intros d Hd. unfold quoted. now rewrite Hd.
      - apply ident_chars, Hy, dedup_In. exact (Permutation_in x (sorted_perm _) Hx). }
    apply (items_inj quoted) in E; [|reflexivity|now apply Q|now apply Q|reflexivity|reflexivity| |]; [|intros x Hx; discriminate Hx|intros x Hx; discriminate Hx].
    destruct E as [E _].
    assert (Es : sorted_strings (dedup xs) = sorted_strings (dedup xs')).
    { assert (Hs : forall x, In x (sorted_strings (dedup xs)) -> identifier x = true) by (intros x Hx; apply H, dedup_In; exact (Permutation_in x (sorted_perm _) Hx)).
      assert (Hs' : forall x, In x (sorted_strings (dedup xs')) -> identifier x = true) by (intros x Hx; apply H', dedup_In; exact (Permutation_in x (sorted_perm _) Hx)).
      clear -E Hs Hs'. revert E Hs Hs'. generalize (sorted_strings (dedup xs')) as l'. induction (sorted_strings (dedup xs)) as [|x l IH]; intros [|x' l'] E Hs Hs'; try discriminate E; [reflexivity|].
      cbn [map] in E. injection E as E1 E2. apply (tok_inj isname_char) in E1; [|apply ident_chars, Hs; now left|apply ident_chars, Hs'; now left|reflexivity|reflexivity].
      destruct E1 as [-> _]. f_equal. apply IH; [exact E2|intros y Hy; apply Hs; now right|intros y Hy; apply Hs'; now right]. }
    assert (Hin : forall x, In x xs <-> In x xs').
    { intros x. rewrite <- (dedup_In xs), <- (dedup_In xs'). split; intros Hx; apply (Permutation_in x (Permutation_sym (sorted_perm _))) in Hx;
        [rewrite Es in Hx|rewrite <- Es in Hx]; exact (Permutation_in x (sorted_perm _) Hx). }
    split; [exact Hin|]. intros s. split; intros Hh x y Hx Hy; apply Hh; now apply Hin.
Qed.

(** ** The model *)
Section Show.
Variables (dom dom' : name -> dobj) (m m' : model).
Hypothesis Hm : showable dom m.
Hypothesis Hm' : showable dom' m'.
Hypothesis Ho : stdout (print_model dom m) = stdout (print_model dom' m').

Lemma lines_oneline d n : showable d n -> Forall (fun t => allc oneline t = true) (lines d n).
Proof.
  intros (_ & Hi & _ & Hc). unfold lines. apply Forall_app. split; [repeat constructor|]. apply Forall_app. split; [|apply Forall_app; split; [repeat constructor|]].
  - apply Forall_map, Forall_forall. intros [i [x vi]] H. apply variable_oneline. cbn. apply Hi. unfold enumerate in H. apply in_combine_r in H.
    apply in_map_iff. now exists (x, vi).
  - apply Forall_map, Forall_forall. intros [i c] H. unfold enumerate in H. apply in_combine_r in H. unfold constraint_line. cbn [fst snd].
    assert (G : forall a b, allc oneline a = true -> allc oneline b = true -> allc oneline (" " ++ a ++ ") " ++ b) = true) by (intros a b H1 H2; rewrite !allc_app, H1, H2; reflexivity).
    apply G; [apply (allc_impl plain); [exact plain_oneline|apply pad_plain]|apply (shown_oneline (kinds_of n)); exact (Hc c H)].
Qed.
Lemma parts : map (variable_line dom) (enumerate (m_vars m)) = map (variable_line dom') (enumerate (m_vars m')) /\
  map constraint_line (enumerate (m_cons m)) = map constraint_line (enumerate (m_cons m')).
Proof.
  rewrite !stdout_lines in Ho. apply stdout_inj in Ho; [|now apply lines_oneline|now apply lines_oneline]. unfold lines in Ho. cbn [app] in Ho. injection Ho as E.
  apply blank_split in E; [destruct E as [E1 E2]; injection E2 as E2; auto| |]; intros H; apply in_map_iff in H; destruct H as (p & H & _); discriminate H.
Qed.
Definition same_info (a b : name * vinfo) : Prop :=
  fst a = fst b /\ match snd a, snd b with VVar d, VVar d' => d = d' | VPar _, VPar _ => True | _, _ => False end.
Lemma infos : Forall2 same_info (m_vars m) (m_vars m').
Proof.
  destruct parts as [E _]. apply enumerate_lines in E. destruct Hm as (_ & Hi & Hd & _), Hm' as (_ & Hi' & Hd' & _).
  assert (G : forall l l', incl l (m_vars m) -> incl l' (m_vars m') ->
    Forall2 (fun a b => exists i, variable_line dom (i, a) = variable_line dom' (i, b)) l l' -> Forall2 same_info l l').
  { intros l l' I1 I2 F. induction F as [|[x vi] [x' vi'] l l' (i & Ei) F IH]; constructor.
    - assert (Hx : In (x, vi) (m_vars m)) by (apply I1; now left). assert (Hx' : In (x', vi') (m_vars m')) by (apply I2; now left).
      apply line_inj in Ei; [|apply Hi; apply in_map_iff; now exists (x, vi)|apply Hi'; apply in_map_iff; now exists (x', vi')].
      destruct Ei as [<- Ei]. split; [reflexivity|]. cbn [snd]. destruct vi as [d|p], vi' as [d'|p']; auto. rewrite (Hd x d Hx), (Hd' x d' Hx') in Ei. exact Ei.
    - apply IH; intros a Hin; [apply I1|apply I2]; now right. }
  apply G; [apply incl_refl|apply incl_refl|exact E].
Qed.
Lemma infos_names : map fst (m_vars m) = map fst (m_vars m').
Proof. induction infos as [|a b l l' [E _] _ IH]; [reflexivity|]. cbn. now rewrite E, IH. Qed.
Lemma infos_variable x d : is_variable m x d <-> is_variable m' x d.
Proof.
  unfold is_variable. induction infos as [|[y vi] [y' vi'] l l' [E V] _ IH]; [reflexivity|]. cbn in E, V |- *. rewrite IH. subst y'.
  destruct vi, vi'; try contradiction; [subst; reflexivity|]. split; intros [H|H]; try discriminate H; auto.
Qed.
Lemma infos_agree ps ps' : same_parameters m m' ps ps' -> agreeing (kinds_of m) (kinds_of m') ps ps'.
Proof.
  intros Hp x. unfold kinds_of.
  assert (G : forall l l', Forall2 same_info l l' -> match dget l x, dget l' x with
    | None, None => True | Some (VVar _), Some (VVar _) => True | Some (VPar p), Some (VPar p') => In (x, VPar p) l /\ In (x, VPar p') l' | _, _ => False end).
  { intros l l' F. induction F as [|[y vi] [y' vi'] l l' [E V] F IH]; [exact I|]. cbn in E, V |- *. subst y'. destruct (String.eqb_spec x y) as [->|N].
    - destruct vi, vi'; try contradiction; auto.
    - destruct (dget l x) as [[d|p]|], (dget l' x) as [[d'|p']|]; auto. destruct IH; auto. }
  specialize (G _ _ infos). destruct (dget (m_vars m) x) as [[d|p]|], (dget (m_vars m') x) as [[d'|p']|]; auto; try contradiction.
  destruct G as [G1 G2]. exact (Hp x p p' G1 G2).
Qed.
Lemma shown_determines ps ps' : same_parameters m m' ps ps' -> same_question m m' ps ps'.
Proof.
  intros Hp. pose proof (infos_agree ps ps' Hp) as Ha. split; [exact infos_names|]. split; [exact infos_variable|].
  destruct parts as [_ E]. apply enumerate_lines in E. destruct Hm as (_ & _ & _ & Hc), Hm' as (_ & _ & _ & Hc').
  assert (G : forall l l', incl l (m_cons m) -> incl l' (m_cons m') -> Forall2 (fun a b => exists i, constraint_line (i, a) = constraint_line (i, b)) l l' ->
    Forall2 (fun c c' => (forall x, mentions c x <-> mentions c' x) /\ forall s, holds ps s c <-> holds ps' s c') l l').
  { intros l l' I1 I2 F. induction F as [|c c' l l' (i & Ei) F IH]; constructor.
    - unfold constraint_line in Ei. cbn [fst snd] in Ei. do 3 apply sapp_inv in Ei.
      apply (constraint_inj (kinds_of m) (kinds_of m')); [exact Ha|apply Hc, I1; now left|apply Hc', I2; now left|exact Ei].
    - apply IH; intros a Hin; [apply I1|apply I2]; now right. }
  apply G; [apply incl_refl|apply incl_refl|exact E].
Qed.
End Show.

Lemma question_solutions m m' ps ps' s : same_question m m' ps ps' ->
  solves (holds ps) m (m_cons m) s <-> solves (holds ps') m' (m_cons m') s.
Proof.
  intros (_ & Hv & F).
  assert (Ha : assigns m s <-> assigns m' s).
  { unfold assigns. split; intros (H1 & H2 & H3); (split; [exact H1|]); split.
    - intros x. rewrite H2. split; intros (d & D); exists d; now apply Hv.
    - intros x v d Hx Hd. apply (H3 x v d Hx). now apply Hv.
    - intros x. rewrite H2. split; intros (d & D); exists d; now apply Hv.
    - intros x v d Hx Hd. apply (H3 x v d Hx). now apply Hv. }
  assert (Hc : forall c c', (forall x, mentions c x <-> mentions c' x) -> concerns m c <-> concerns m' c').
  { intros c c' H. unfold concerns. split; intros [(x & Hx) Hd]; (split; [exists x; now apply H|]); intros y Hy; apply H in Hy; destruct (Hd y Hy) as (d & D); exists d; now apply Hv. }
  unfold solves. rewrite Ha. split; intros [H1 H2]; (split; [exact H1|]); clear H1 Ha; revert H2; induction F as [|c c' l l' [M H] F IH]; intros H2 e [].
  - subst e. intros Hcon. apply H. apply H2; [now left|now apply (Hc c c' M)].
  - apply IH; [|assumption]. intros e' He'. apply H2. now right.
  - subst e. intros Hcon. apply H. apply H2; [now left|now apply (Hc c c' M)].
  - apply IH; [|assumption]. intros e' He'. apply H2. now right.
Qed.
