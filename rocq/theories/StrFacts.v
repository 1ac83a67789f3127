(** The text of an expression determines its value: a parser for [__str__]. *)
From Coq Require Import Lia.
From Verif Require Import Dec DecFacts PyText SpecFormula SpecSafe SpecText ExprFacts PyTextFacts CompileFacts SafeFacts.
Open Scope list_scope.
Open Scope Z_scope.

Inductive tree : Type :=
| TNumber (s : string) | TName (s : string)
| TNeg (t : tree) | TAbs (t : tree) | TNot (t : tree)
| TBin (sym : string) (l r : tree)
| TAcc (f : string) (ts : list tree).

Definition acc_trees (k : acckind) (c : Z) (ts : list tree) : list tree :=
  if c =? neutral k then ts else TNumber (str_int c) :: ts.
Fixpoint tree_of (e : expr) : tree :=
  match e with
  | Const z => TNumber (str_int z)
  | Var x | Param _ x => TName x
  | Neg e1 => TNeg (tree_of e1)
  | Abs e1 => TAbs (tree_of e1)
  | Not e1 => TNot (tree_of e1)
  | Bin o l r => TBin (bin_symbol o) (tree_of l) (tree_of r)
  | Sum es c => TAcc "sum" (acc_trees KSum c (map tree_of es))
  | Prod es c => TAcc "prod" (acc_trees KProd c (map tree_of es))
  end.

(** ** Texts of trees *)
Fixpoint ttext (t : tree) : string :=
  match t with
  | TNumber s | TName s => s
  | TNeg t => "-(" ++ ttext t ++ ")"
  | TAbs t => "abs(" ++ ttext t ++ ")"
  | TNot t => "^" ++ ttext t
  | TBin sym l r => "(" ++ ttext l ++ " " ++ sym ++ " " ++ ttext r ++ ")"
  | TAcc f ts => f ++ "([" ++ sjoin ", " (map ttext ts) ++ "])"
  end%string.

Lemma all_Forall {A} (P : A -> Prop) l : (fix go (l : list A) : Prop := match l with [] => True | a :: l' => P a /\ go l' end) l <-> Forall P l.
Proof.
  induction l as [|a l IH]; [split; constructor|]. split.
  - intros [H1 H2]. constructor; [exact H1|]. now apply IH.
  - intros H. inversion H; subst. split; [assumption|]. now apply IH.
Qed.
Lemma printable_Sum kind es c : printable kind (Sum es c) <-> three_values KSum es c = true /\ Forall (printable kind) es.
Proof. cbn [printable]. now rewrite (all_Forall (printable kind)). Qed.
Lemma printable_Prod kind es c : printable kind (Prod es c) <-> three_values KProd es c = true /\ Forall (printable kind) es.
Proof. cbn [printable]. now rewrite (all_Forall (printable kind)). Qed.
Lemma printable_acc kind k es c : printable kind (mk_acc k es c) <-> three_values k es c = true /\ Forall (printable kind) es.
Proof. destruct k; [apply printable_Sum|apply printable_Prod]. Qed.

Lemma as_str_three k c texts : Nat.leb 3 (length texts + (if Z.eqb c (neutral k) then 0 else 1)) = true ->
  as_str k c texts = (acc_fun k ++ "([" ++ sjoin ", " (acc_values k c texts) ++ "])")%string.
Proof.
  intros H. apply Nat.leb_le in H. unfold as_str, acc_values in *. destruct (c =? neutral k).
  - destruct texts as [|a [|b [|d l]]]; cbn [length] in H; try lia. reflexivity.
  - destruct texts as [|a [|b l]]; cbn [length] in H; try lia. reflexivity.
Qed.
Lemma acc_text k c es : three_values k es c = true -> map ttext (map tree_of es) = map str_expr es ->
  as_str k c (map str_expr es) = (acc_fun k ++ "([" ++ sjoin ", " (map ttext (acc_trees k c (map tree_of es))) ++ "])")%string.
Proof.
  intros H E. rewrite as_str_three by (rewrite map_length; exact H). unfold acc_trees, acc_values. rewrite <- E. now destruct (c =? neutral k).
Qed.
Lemma str_tree kind e : printable kind e -> str_expr e = ttext (tree_of e).
Proof.
  induction e as [z|y|p y|e IH|e IH|e IH|o l r IHl IHr|es c IH|es c IH] using expr_ind'; intros H; cbn [str_expr tree_of ttext]; try reflexivity.
  - now rewrite IH.
  - now rewrite IH.
  - now rewrite IH.
  - destruct H as [Hl Hr]. now rewrite IHl, IHr.
  - apply printable_Sum in H. destruct H as [H3 H]. rewrite Forall_forall in H, IH. apply (acc_text KSum); [exact H3|].
    rewrite map_map. apply map_ext_in. intros e He. symmetry. auto.
  - apply printable_Prod in H. destruct H as [H3 H]. rewrite Forall_forall in H, IH. apply (acc_text KProd); [exact H3|].
    rewrite map_map. apply map_ext_in. intros e He. symmetry. auto.
Qed.

(** ** The parser *)
Fixpoint span (p : ascii -> bool) (s : string) : string * string :=
  match s with
  | EmptyString => (EmptyString, EmptyString)
  | String c s' => if p c then let (a, b) := span p s' in (String c a, b) else (EmptyString, s)
  end.
Fixpoint allc (p : ascii -> bool) (s : string) : bool := match s with EmptyString => true | String c s' => p c && allc p s' end.
Definition hdnot (p : ascii -> bool) (s : string) : bool := match s with EmptyString => true | String c _ => negb (p c) end.
Lemma span_app p s r : allc p s = true -> hdnot p r = true -> span p (s ++ r) = (s, r).
Proof.
  induction s as [|c s IH]; intros Hs Hr; cbn [append].
  - destruct r as [|c r]; [reflexivity|]. cbn in *. now destruct (p c).
  - cbn in Hs. apply andb_true_iff in Hs. destruct Hs as [Hc Hs]. cbn [span]. now rewrite Hc, IH.
Qed.

Definition notspace (c : ascii) : bool := negb (Ascii.eqb c " ").
Fixpoint parse (fuel : nat) (s : string) : option (tree * string) :=
  match fuel with
  | O => None
  | S f =>
      match s with
      | EmptyString => None
      | String c s' =>
          if Ascii.eqb c "^" then match parse f s' with Some (t, r) => Some (TNot t, r) | None => None end
          else if Ascii.eqb c "(" then
            match parse f s' with
            | Some (l, String _ r) =>
                let (sym, r1) := span notspace r in
                match r1 with
                | String _ r2 => match parse f r2 with Some (t, String _ r3) => Some (TBin sym l t, r3) | _ => None end
                | _ => None
                end
            | _ => None
            end
          else if Ascii.eqb c "-" then
            match s' with
            | String d s'' =>
                if Ascii.eqb d "(" then match parse f s'' with Some (t, String _ r) => Some (TNeg t, r) | _ => None end
                else let (a, b) := span isname_char s' in Some (TNumber (String c a), b)
            | _ => None
            end
          else if isdigit c then let (a, b) := span isname_char s in Some (TNumber a, b)
          else
            let (a, b) := span isname_char s in
            match b with
            | String x b' =>
                if Ascii.eqb x "(" then
                  match b' with
                  | String y b'' =>
                      if Ascii.eqb y "[" then
                        match parses f b'' with Some (ts, String _ r) => Some (TAcc a ts, r) | _ => None end
                      else match parse f b' with Some (t, String _ r) => Some (TAbs t, r) | _ => None end
                  | _ => None
                  end
                else Some (TName a, b)
            | EmptyString => Some (TName a, b)
            end
      end
  end
with parses (fuel : nat) (s : string) : option (list tree * string) :=
  match fuel with
  | O => None
  | S f =>
      match parse f s with
      | Some (t, String c r) =>
          if Ascii.eqb c "," then
            match r with String _ r' => match parses f r' with Some (ts, r'') => Some (t :: ts, r'') | None => None end | _ => None end
          else Some ([t], r)
      | _ => None
      end
  end.

(** What may follow an expression. *)
Definition follows (r : string) : Prop :=
  match r with EmptyString => True | String c _ => In c [" "; ")"; ","; "]"]%char end.
Lemma follows_name r : follows r -> hdnot isname_char r = true.
Proof. destruct r as [|c r]; [reflexivity|]. cbn [follows hdnot]. intros [<-|[<-|[<-|[<-|[]]]]]; reflexivity. Qed.

(** Well-formed trees: what [tree_of] gives. *)
Inductive wf : tree -> Prop :=
| wf_num z : wf (TNumber (str_int z))
| wf_name x : identifier x = true -> wf (TName x)
| wf_neg t : wf t -> wf (TNeg t)
| wf_abs t : wf t -> wf (TAbs t)
| wf_not t : wf t -> wf (TNot t)
| wf_bin o l r : wf l -> wf r -> wf (TBin (bin_symbol o) l r)
| wf_acc k ts : ts <> [] -> Forall wf ts -> wf (TAcc (acc_fun k) ts).
Lemma tree_wf kind e : printable kind e -> wf (tree_of e).
Proof.
  assert (Hacc : forall k es c, three_values k es c = true -> Forall wf (map tree_of es) -> wf (TAcc (acc_fun k) (acc_trees k c (map tree_of es)))).
  { intros k es c H3 H. unfold three_values in H3. apply Nat.leb_le in H3. unfold acc_trees. constructor.
    - destruct (c =? neutral k); [|discriminate]. destruct es; [cbn in H3; lia|discriminate].
    - destruct (c =? neutral k); [exact H|]. constructor; [constructor|exact H]. }
  induction e as [z|y|p y|e IH|e IH|e IH|o l r IHl IHr|es c IH|es c IH] using expr_ind'; intros H; cbn [tree_of].
  - constructor.
  - constructor. apply H.
  - constructor. apply H.
  - constructor; auto.
  - constructor; auto.
  - constructor; auto.
  - destruct H. constructor; auto.
  - apply printable_Sum in H. destruct H as [H3 H]. apply (Hacc KSum); [exact H3|]. rewrite Forall_forall in *. intros t Ht. apply in_map_iff in Ht. destruct Ht as (e & <- & He). auto.
  - apply printable_Prod in H. destruct H as [H3 H]. apply (Hacc KProd); [exact H3|]. rewrite Forall_forall in *. intros t Ht. apply in_map_iff in Ht. destruct Ht as (e & <- & He). auto.
Qed.

Fixpoint tsize (t : tree) : nat :=
  match t with
  | TNumber _ | TName _ => 1
  | TNeg t | TAbs t | TNot t => S (tsize t)
  | TBin _ l r => S (tsize l + tsize r)
  | TAcc _ ts => S (fold_right (fun t n => S (tsize t + n)) 0%nat ts)
  end.
Definition tsizes (ts : list tree) : nat := fold_right (fun t n => S (tsize t + n)) 0%nat ts.

Lemma digit_name c : isdigit c = true -> isname_char c = true.
Proof. intros H. unfold isname_char. rewrite H. apply orb_true_r. Qed.
Lemma digits_all s : all_digits s = true -> allc isname_char s = true.
Proof.
  induction s as [|c s IH]; [reflexivity|]. cbn [all_digits allc]. rewrite !andb_true_iff. intros [H1 H2]. split; [|auto]. apply digit_name. rewrite <- is_digit_isdigit. exact H1.
Qed.
Lemma digit_cases c : isdigit c = true -> Ascii.eqb c "^" = false /\ Ascii.eqb c "(" = false /\ Ascii.eqb c "-" = false.
Proof. intros H. repeat split; apply Ascii.eqb_neq; intros ->; discriminate. Qed.
Lemma start_cases c : isname_start c = true -> Ascii.eqb c "^" = false /\ Ascii.eqb c "(" = false /\ Ascii.eqb c "-" = false.
Proof. intros H. repeat split; apply Ascii.eqb_neq; intros ->; discriminate. Qed.
Lemma name_chars_allc s : all_name_chars s = true -> allc isname_char s = true.
Proof. induction s as [|c s IH]; [reflexivity|]. cbn. rewrite !andb_true_iff. intros [H1 H2]. auto. Qed.

Lemma nonneg_facts n : 0 <= n -> exists c s, str_nonneg n = String c s /\ isdigit c = true /\ allc isname_char (str_nonneg n) = true.
Proof.
  intros H. pose proof (str_nonneg_dec n H) as D. destruct (dec_of_head _ _ D) as (c & s & Es & Hc). exists c, s. split; [exact Es|].
  split; [now rewrite <- is_digit_isdigit|]. apply digits_all. apply D.
Qed.
Lemma parse_number f z r : follows r -> parse (S f) (str_int z ++ r) = Some (TNumber (str_int z), r).
Proof.
  intros Hr. apply follows_name in Hr. unfold str_int. destruct (z <? 0) eqn:Ez.
  - apply Z.ltb_lt in Ez. destruct (nonneg_facts (- z) ltac:(lia)) as (c & s & Es & Hc & Ha). rewrite Es in *.
    destruct (digit_cases c Hc) as (_ & H2 & _).
    change (parse (S f) (String "-" (String c s) ++ r)) with
      (if Ascii.eqb c "(" then match parse f (s ++ r) with Some (t, String _ r) => Some (TNeg t, r) | _ => None end
       else let (a, b) := span isname_char (String c s ++ r) in Some (TNumber (String "-" a), b)).
    rewrite H2, span_app by assumption. reflexivity.
  - apply Z.ltb_ge in Ez. destruct (nonneg_facts z Ez) as (c & s & Es & Hc & Ha). rewrite Es in *.
    destruct (digit_cases c Hc) as (H1 & H2 & H3). cbn [append parse]. rewrite H1, H2, H3, Hc.
    change (String c (s ++ r)) with (String c s ++ r)%string. rewrite span_app by assumption. reflexivity.
Qed.
(** A name before [b]. *)
Lemma parse_name f x b : identifier x = true -> hdnot isname_char b = true ->
  parse (S f) (x ++ b) =
  match b with
  | String y b' =>
      if Ascii.eqb y "(" then
        match b' with
        | String y b'' =>
            if Ascii.eqb y "[" then
              match parses f b'' with Some (ts, String _ r) => Some (TAcc x ts, r) | _ => None end
            else match parse f b' with Some (t, String _ r) => Some (TAbs t, r) | _ => None end
        | _ => None
        end
      else Some (TName x, b)
  | EmptyString => Some (TName x, b)
  end.
Proof.
  intros Hx Hb. destruct x as [|c x]; [discriminate|]. cbn [identifier] in Hx. apply andb_true_iff in Hx. destruct Hx as [Hc Hx].
  destruct (start_cases c Hc) as (H1 & H2 & H3). cbn [append parse]. rewrite H1, H2, H3, (identifier_start c Hc).
  change (String c (x ++ b)) with (String c x ++ b)%string. rewrite span_app; [reflexivity| |assumption].
  cbn [allc]. rewrite (name_chars_allc x Hx). unfold isname_char. now rewrite Hc.
Qed.
Lemma symbol_notspace o : allc notspace (bin_symbol o) = true.
Proof. destruct o; reflexivity. Qed.
(** The text of a tree starts with none of these. *)
Lemma text_start t r : wf t -> exists c s, (ttext t ++ r)%string = String c s /\ Ascii.eqb c "[" = false.
Proof.
  intros H. destruct H as [z|x Hx|t _|t _|t _|o l t _ _|k ts _ _]; try (eexists; eexists; split; [reflexivity|reflexivity]).
  - cbn [ttext]. unfold str_int. destruct (z <? 0) eqn:Ez; [eexists; eexists; split; reflexivity|]. apply Z.ltb_ge in Ez.
    destruct (nonneg_facts z Ez) as (c & s & Es & Hc & Ha). rewrite Es. exists c, (s ++ r)%string. split; [reflexivity|]. apply Ascii.eqb_neq. intros ->. discriminate.
  - cbn [ttext]. destruct x as [|c x]; [discriminate|]. cbn [identifier] in Hx. apply andb_true_iff in Hx. destruct Hx as [Hc _].
    exists c, (x ++ r)%string. split; [reflexivity|]. apply Ascii.eqb_neq. intros ->. discriminate.
  - destruct k; eexists; eexists; split; reflexivity.
Qed.
Lemma text_nonempty_parse f t r c s : (ttext t ++ r)%string = String c s -> parse f (String c s) = parse f (ttext t ++ r).
Proof. now intros ->. Qed.

Lemma parse_text : forall n,
  (forall t r, (tsize t <= n)%nat -> wf t -> follows r -> forall f, (tsize t <= f)%nat -> parse f (ttext t ++ r) = Some (t, r)) /\
  (forall ts r, (tsizes ts <= n)%nat -> ts <> [] -> Forall wf ts -> forall f, (tsizes ts <= f)%nat -> parses f (sjoin ", " (map ttext ts) ++ "])" ++ r) = Some (ts, String ")" r)).
Proof.
  induction n as [|n [IH1 IH2]]; (split; [intros t r Hn W Hr f Hf|intros ts r Hn Hne W f Hf]).
  - destruct t; cbn in Hn; lia.
  - destruct ts; [contradiction|]. cbn in Hn. lia.
  - destruct f as [|f]; [destruct t; cbn in Hf; lia|].
    destruct W as [z|x Hx|t W|t W|t W|o l t Wl Wr|k ts Hne W]; cbn [ttext tsize] in *.
    + now apply parse_number.
    + rewrite parse_name; [|assumption|now apply follows_name]. destruct r as [|c r]; [reflexivity|]. cbn [follows] in Hr.
      destruct Hr as [<-|[<-|[<-|[<-|[]]]]]; reflexivity.
    + rewrite !sapp_assoc. change ("-(" ++ ttext t ++ ")" ++ r)%string with (String "-" (String "(" (ttext t ++ ")" ++ r))).
      cbn [parse Ascii.eqb Bool.eqb]. rewrite IH1; [reflexivity|lia|assumption|cbn; auto|lia].
    + rewrite !sapp_assoc. change ("abs(" ++ ttext t ++ ")" ++ r)%string with ("abs" ++ String "(" (ttext t ++ ")" ++ r))%string.
      rewrite parse_name by reflexivity. cbn [Ascii.eqb Bool.eqb]. destruct (text_start t (")" ++ r) W) as (c & s & E & Hc).
      rewrite E, Hc, <- E. rewrite IH1; [reflexivity|lia|assumption|cbn; auto|lia].
    + cbn [append parse Ascii.eqb Bool.eqb]. rewrite IH1; [reflexivity|lia|assumption|assumption|lia].
    + rewrite !sapp_assoc. change ("(" ++ ttext l ++ " " ++ bin_symbol o ++ " " ++ ttext t ++ ")" ++ r)%string with
        (String "(" (ttext l ++ " " ++ bin_symbol o ++ " " ++ ttext t ++ ")" ++ r)).
      cbn [parse Ascii.eqb Bool.eqb]. rewrite IH1; [|lia|assumption|cbn; auto|lia]. cbn [append].
      rewrite span_app; [|apply symbol_notspace|reflexivity]. rewrite IH1; [reflexivity|lia|assumption|cbn; auto|lia].
    + rewrite !sapp_assoc. change (acc_fun k ++ "([" ++ sjoin ", " (map ttext ts) ++ "])" ++ r)%string with
        (acc_fun k ++ String "(" (String "[" (sjoin ", " (map ttext ts) ++ "])" ++ r)))%string.
      rewrite parse_name; [|destruct k; reflexivity|reflexivity]. cbn [Ascii.eqb Bool.eqb]. fold (tsizes ts) in *. rewrite IH2; [reflexivity|lia|assumption|assumption|lia].
  - destruct f as [|f]; [destruct ts; [contradiction|cbn in Hf; lia]|].
    destruct ts as [|t ts]; [contradiction|]. cbn [tsizes fold_right] in Hn, Hf. fold (tsizes ts) in Hn, Hf. inversion W as [|? ? Wt Wts]; subst.
    cbn [parses]. destruct ts as [|t' ts].
    + cbn [map sjoin]. rewrite IH1; [reflexivity|lia|assumption|cbn; auto|lia].
    + change (sjoin ", " (map ttext (t :: t' :: ts))) with (ttext t ++ ", " ++ sjoin ", " (map ttext (t' :: ts)))%string. rewrite !sapp_assoc.
      rewrite IH1; [|lia|assumption|cbn; auto|lia]. cbn [append Ascii.eqb Bool.eqb].
      change (String "]" (String ")" r)) with ("])" ++ r)%string. rewrite IH2; [reflexivity|lia|discriminate|assumption|lia].
Qed.
Lemma text_inj t t' : wf t -> wf t' -> ttext t = ttext t' -> t = t'.
Proof.
  intros W W' E. set (f := (tsize t + tsize t')%nat).
  assert (H : parse f (ttext t ++ "") = Some (t, ""%string)) by (apply (proj1 (parse_text (tsize t))); [lia|assumption|exact I|lia]).
  assert (H' : parse f (ttext t' ++ "") = Some (t', ""%string)) by (apply (proj1 (parse_text (tsize t'))); [lia|assumption|exact I|lia]).
  rewrite E in H. congruence.
Qed.

(** ** Trees determine values *)
Lemma symbol_inj o o' : bin_symbol o = bin_symbol o' -> o = o'.
Proof. destruct o, o'; intros H; try reflexivity; discriminate. Qed.
Definition tvals (k : acckind) (c : Z) (es : list expr) : list expr := if c =? neutral k then es else Const c :: es.
Lemma tvals_trees k c es : acc_trees k c (map tree_of es) = map tree_of (tvals k c es).
Proof. unfold acc_trees, tvals. now destruct (c =? neutral k). Qed.
Lemma tvals_eval ps s k c es : evaluate ps s (mk_acc k es c) = let! vs := mapM (evaluate ps s) (tvals k c es) in Ok (tot k vs).
Proof.
  rewrite evaluate_acc. unfold tvals. destruct (Z.eqb_spec c (neutral k)) as [->|_].
  - destruct (mapM (evaluate ps s) es); [|reflexivity]. cbn [bind]. now rewrite acc_op_neutral_l.
  - cbn [mapM evaluate bind]. now destruct (mapM (evaluate ps s) es).
Qed.
Lemma mapM_Forall2 {A B} (f : A -> res B) l l' : Forall2 (fun a a' => f a = f a') l l' -> mapM f l = mapM f l'.
Proof. induction 1 as [|a a' l l' E _ IH]; [reflexivity|]. cbn [mapM]. now rewrite E, IH. Qed.

(** The parameters of the same name have the same value. *)
Definition agreeing (kind kind' : kinds) (ps ps' : pstore) : Prop := forall x,
  match kind x, kind' x with None, None => True | Some p, Some p' => ps p = ps' p' | _, _ => False end.
Section Same.
Variables (kind kind' : kinds) (ps ps' : pstore) (s : subst).
Hypothesis Ha : agreeing kind kind' ps ps'.

Definition same_value e := forall e', printable kind e -> printable kind' e' -> tree_of e = tree_of e' -> evaluate ps s e = evaluate ps' s e'.
Lemma trees_same l : forall l', Forall same_value l -> Forall (printable kind) l -> Forall (printable kind') l' ->
  map tree_of l = map tree_of l' -> mapM (evaluate ps s) l = mapM (evaluate ps' s) l'.
Proof.
  induction l as [|e l IH]; intros [|e' l'] Q P P' E; try discriminate; [reflexivity|]. cbn [map] in E. injection E as E1 E2.
  inversion Q; inversion P; inversion P'; subst. cbn [mapM]. rewrite (IH l') by assumption. match goal with H : same_value e |- _ => rewrite (H e') by assumption end. reflexivity.
Qed.
Lemma const_same z : same_value (Const z).
Proof.
  intros [z'|x|p x|e|e|e|o l r|es c|es c] _ _ E; try discriminate E. cbn in E. injection E as E. now apply str_int_inj in E as ->.
Qed.
Lemma tvals_Forall (P : expr -> Prop) k c es : P (Const c) -> Forall P es -> Forall P (tvals k c es).
Proof. intros H1 H2. unfold tvals. destruct (c =? neutral k); [assumption|now constructor]. Qed.
Lemma acc_same k c es c' es' : Forall same_value es -> Forall (printable kind) es -> Forall (printable kind') es' ->
  acc_trees k c (map tree_of es) = acc_trees k c' (map tree_of es') -> evaluate ps s (mk_acc k es c) = evaluate ps' s (mk_acc k es' c').
Proof.
  intros Q P P' E. rewrite !tvals_trees in E. rewrite !tvals_eval. f_equal.
  apply trees_same; [apply tvals_Forall; [apply const_same|assumption]| | |exact E]; (apply tvals_Forall; [exact I|assumption]).
Qed.
Lemma tree_same e : same_value e.
Proof.
  induction e as [z|y|p y|e IH|e IH|e IH|o l r IHl IHr|es c IH|es c IH] using expr_ind';
    intros [z'|y'|p' y'|e'|e'|e'|o' l' r'|es' c'|es' c'] P P' E; try discriminate E.
  - now apply const_same.
  - cbn in E. now injection E as ->.
  - cbn in E, P, P'. injection E as ->. destruct P as [_ P], P' as [_ P']. specialize (Ha y'). rewrite P, P' in Ha. contradiction.
  - cbn in E, P, P'. injection E as ->. destruct P as [_ P], P' as [_ P']. specialize (Ha y'). rewrite P, P' in Ha. contradiction.
  - cbn in E, P, P'. injection E as ->. destruct P as [_ P], P' as [_ P']. specialize (Ha y'). rewrite P, P' in Ha. cbn. congruence.
  - cbn [tree_of printable] in *. injection E as E. cbn [evaluate]. now rewrite (IH e').
  - cbn [tree_of printable] in *. injection E as E. cbn [evaluate]. now rewrite (IH e').
  - cbn [tree_of printable] in *. injection E as E. cbn [evaluate]. now rewrite (IH e').
  - cbn [tree_of printable] in *. injection E as Eo El Er. apply symbol_inj in Eo. subst o'. destruct P, P'. cbn [evaluate]. now rewrite (IHl l'), (IHr r').
  - apply printable_Sum in P, P'. cbn [tree_of] in E. injection E as E. now apply (acc_same KSum).
  - apply printable_Prod in P, P'. cbn [tree_of] in E. injection E as E. now apply (acc_same KProd).
Qed.
End Same.

Lemma text_tree kind kind' e e' : printable kind e -> printable kind' e' -> str_expr e = str_expr e' -> tree_of e = tree_of e'.
Proof.
  intros P P' E. rewrite (str_tree kind e P), (str_tree kind' e' P') in E. apply text_inj; [now apply (tree_wf kind)|now apply (tree_wf kind')|exact E].
Qed.
Lemma text_determines kind e e' : printable kind e -> printable kind e' -> str_expr e = str_expr e' ->
  forall ps s, evaluate ps s e = evaluate ps s e'.
Proof.
  intros P P' E ps s. apply (tree_same kind kind ps ps s); [|assumption|assumption|now apply (text_tree kind kind)].
  intros x. now destruct (kind x).
Qed.

(** ** The operators build printable expressions *)
Definition elem (k : acckind) (e : expr) : bool :=
  match e, k with Const _, _ => false | Sum _ _, KSum => false | Prod _ _, KProd => false | _, _ => true end.
(** Elements of sums and products are neither constants nor of the same class. *)
Fixpoint normal (e : expr) : bool :=
  match e with
  | Const _ | Var _ | Param _ _ => true
  | Neg e1 | Abs e1 | Not e1 => normal e1
  | Bin _ l r => normal l && normal r
  | Sum es c => forallb (fun e => elem KSum e && normal e) es
  | Prod es c => forallb (fun e => elem KProd e && normal e) es
  end.
Lemma normal_acc k es c : normal (mk_acc k es c) = forallb (fun e => elem k e && normal e) es.
Proof. destruct k; reflexivity. Qed.
Definition fine kind (e : expr) : Prop := printable kind e /\ normal e = true.
Definition fine_elem kind k (e : expr) : Prop := fine kind e /\ elem k e = true.
Lemma fine_elems kind k es c : fine kind (mk_acc k es c) -> Forall (fine_elem kind k) es.
Proof.
  intros [P N]. apply printable_acc in P. destruct P as [_ P]. rewrite normal_acc, forallb_forall in N. rewrite Forall_forall in *. intros e He.
  specialize (N e He). apply andb_true_iff in N. destruct N. repeat split; auto.
Qed.
Lemma fine_elem_of kind k e : fine kind e -> (forall z, e <> Const z) -> as_acc k e = None -> fine_elem kind k e.
Proof. intros F Hc Ha. split; [exact F|]. destruct e; destruct k; try reflexivity; try discriminate Ha; now destruct (Hc z). Qed.
Lemma fine_elem_ok kind k e : fine_elem kind k e -> elem_ok k e.
Proof.
  intros [[P _] E]. assert (He : as_empty_acc e = None).
  { destruct (as_empty_acc e) as [c|] eqn:Ee; [|reflexivity]. apply as_empty_acc_inv in Ee. destruct Ee as (k' & ->). apply printable_acc in P. destruct P as [P _].
    exfalso. unfold three_values in P. destruct (c =? neutral k'); discriminate. }
  split; [|split; [|assumption]]; destruct e; destruct k; try discriminate; reflexivity.
Qed.
Lemma fine_const kind z : fine kind (Const z).
Proof. split; [exact I|reflexivity]. Qed.
Lemma fine_bin kind o l r : fine kind l -> fine kind r -> fine kind (Bin o l r).
Proof. intros [P N] [P' N']. split; [now split|]. cbn [normal]. now rewrite N, N'. Qed.
Lemma fine_bin_inv kind o l r : fine kind (Bin o l r) -> fine kind l /\ fine kind r.
Proof. intros [[P P'] N]. cbn [normal] in N. apply andb_true_iff in N. destruct N. now repeat split. Qed.
Lemma fine_acc_init kind k es c : Forall (fine_elem kind k) es -> three_values k es c = true -> fine kind (acc_init k es c).
Proof.
  intros H H3. unfold acc_init. rewrite acc_loop_copy by (eapply Forall_impl; [|exact H]; intros e; apply fine_elem_ok).
  cbn [app]. rewrite Forall_forall in H. split.
  - apply printable_acc. split; [exact H3|]. apply Forall_forall. intros e He. apply (H e He).
  - rewrite normal_acc. apply forallb_forall. intros e He. destruct (H e He) as [[_ N] E]. now rewrite E, N.
Qed.
Lemma fine_make_acc kind k l r : fine kind (coerce l) -> fine kind (coerce r) -> fine kind (make_acc k l r).
Proof.
  intros Hl Hr. unfold make_acc.
  pose proof (macc_loop_Forall k (fine kind) (fine_elem kind k) (fine_elem_of kind k) (fine_elems kind k) (expand k l ++ expand k r) (neutral k) []) as H.
  destruct (macc_loop k (expand k l ++ expand k r) (neutral k) []) as [const elist]. cbn [snd] in H.
  specialize (H ltac:(apply Forall_app; split; (apply expand_Forall; [intros a b; apply fine_bin_inv|assumption])) (Forall_nil _)).
  destruct elist as [|e1 [|e2 [|e3 es]]].
  - apply fine_const.
  - inversion H as [|? ? [H1 _] _]; subst. destruct (const =? neutral k); [assumption|]. apply fine_bin; [apply fine_const|assumption].
  - inversion H as [|? ? [H1 _] H']; subst. inversion H' as [|? ? [H2 _] _]; subst.
    destruct (const =? neutral k) eqn:E; [now apply fine_bin|]. apply fine_acc_init; [assumption|]. unfold three_values. now rewrite E.
  - destruct (const =? neutral k) eqn:E; apply fine_acc_init; try assumption; unfold three_values; apply Nat.leb_le; cbn [length]; lia.
Qed.
(** Any property closed under the ways of building expressions. *)
Section Closed.
Variable P : expr -> Prop.
Hypothesis Pconst : forall z, P (Const z).
Hypothesis Pneg : forall e, P e -> P (Neg e).
Hypothesis Pbin : forall o l r, P l -> P r -> P (Bin o l r).
Hypothesis Pacc : forall k l r, P (coerce l) -> P (coerce r) -> P (make_acc k l r).
Ltac crush := repeat match goal with
  | E : context [if ?c then _ else _] |- _ => destruct c
  | E : context [match as_const ?r with _ => _ end] |- _ => destruct (as_const r)
  | E : Ok _ = Ok _ |- _ => injection E as <-
  | E : Err _ = Ok _ |- _ => discriminate E
  | E : bind ?x _ = Ok _ |- _ => destruct x; cbn [bind] in E
  end; cbn [coerce]; auto.
Lemma closed_py_op u a b o : P (coerce a) -> P (coerce b) -> py_op u a b = Ok o -> P (coerce o).
Proof.
  intros Ha Hb H.
  assert (Hcmp : forall op l r o, P l -> P (coerce r) -> expr_cmp op l r = Ok o -> P (coerce o)).
  { intros op l r o' Hl Hr E. unfold expr_cmp in E. destruct l; crush. }
  assert (Hexpr : forall u l r o, P l -> P (coerce r) -> expr_op u l r = Ok o -> P (coerce o)).
  { intros u' l r o' Hl Hr E. destruct u'; cbn [expr_op cmp_of] in E; try discriminate E.
    - unfold expr_add in E. destruct l; crush.
    - unfold expr_sub in E. destruct l; crush.
    - unfold expr_mul in E. destruct l; crush.
    - unfold expr_div in E. destruct l; crush.
    - unfold expr_mod in E. destruct l; crush.
    - unfold expr_pow in E. destruct l; crush.
    - destruct r as [n|r]; [|destruct (is_var_param l r)]; (eapply Hcmp; [| |exact E]; auto).
    - destruct r as [n|r]; [|destruct (is_var_param l r)]; (eapply Hcmp; [| |exact E]; auto).
    - destruct r as [n|r]; [|destruct (is_var_param l r)]; (eapply Hcmp; [| |exact E]; auto).
    - destruct r as [n|r]; [|destruct (is_var_param l r)]; (eapply Hcmp; [| |exact E]; auto).
    - destruct r as [n|r]; [|destruct (is_var_param l r)]; (eapply Hcmp; [| |exact E]; auto).
    - destruct r as [n|r]; [|destruct (is_var_param l r)]; (eapply Hcmp; [| |exact E]; auto).
    - rewrite expr_logic_is_cmp in E. eapply Hcmp; [| |exact E]; auto.
    - rewrite expr_logic_is_cmp in E. eapply Hcmp; [| |exact E]; auto. }
  destruct a as [x|l]; [|now apply (Hexpr u l b)].
  destruct b as [y|r].
  - destruct u; cbn [py_op int_op] in H; crush.
  - destruct u; cbn [py_op int_expr_op cmp_of] in H; try discriminate H;
      try (injection H as <-; cbn [coerce]; apply Pbin; auto; fail);
      try (eapply Hcmp; [| |exact H]; auto; fail).
    + now apply (Hexpr UAdd (Const x) (OExpr r)).
    + now apply (Hexpr USub (Const x) (OExpr r)).
    + now apply (Hexpr UMul (Const x) (OExpr r)).
    + now apply (Hexpr UMod (Const x) (OExpr r)).
    + now apply (Hexpr UPow (Const x) (OExpr r)).
Qed.
End Closed.

Lemma build_fine kind f : forall o, f_named kind f -> build f = Ok o -> fine kind (coerce o).
Proof.
  assert (Hop : forall u a b o, fine kind (coerce a) -> fine kind (coerce b) -> py_op u a b = Ok o -> fine kind (coerce o)).
  { apply closed_py_op; [apply fine_const|intros e [P N]; now split|apply fine_bin|apply fine_make_acc]. }
  induction f as [n|x|p x|g IH|g IH|u g h IHg IHh|gs IH] using formula_ind'; intros o Hf H.
  - injection H as <-. apply fine_const.
  - injection H as <-. split; [exact Hf|reflexivity].
  - injection H as <-. split; [exact Hf|reflexivity].
  - cbn [build f_named] in *. destruct (build g) as [a|]; [|discriminate]. injection H as <-. specialize (IH a Hf eq_refl). destruct a; [apply fine_const|exact IH].
  - cbn [build f_named] in *. destruct (build g) as [a|]; [|discriminate]. injection H as <-. specialize (IH a Hf eq_refl). destruct a; [apply fine_const|exact IH].
  - cbn [build f_named] in *. destruct Hf as [Hg Hh]. destruct (build g) as [a|]; [|discriminate]. destruct (build h) as [b|]; [|discriminate]. cbn [bind] in H.
    eapply Hop; [| |exact H]; auto.
  - cbn [build f_named] in *. apply (all_Forall (f_named kind)) in Hf.
    assert (Hacc : fine kind (coerce (OInt 0))) by apply fine_const. revert Hacc H. generalize (OInt 0) as acc.
    induction gs as [|g gs IHgs]; intros acc Hacc H; [injection H as <-; assumption|].
    inversion IH as [|? ? IHg IH']; subst. inversion Hf as [|? ? Hg Hf']; subst.
    destruct (build g) as [a|] eqn:Eg; [|discriminate]. cbn [bind] in H.
    destruct (py_op UAdd acc a) as [acc'|] eqn:E; [|discriminate]. cbn [bind] in H.
    eapply IHgs; [assumption|assumption| |exact H]. eapply Hop; [exact Hacc|exact (IHg a Hg eq_refl)|exact E].
Qed.
Lemma formula_text_determines kind f f' e e' : f_named kind f -> f_named kind f' -> build f = Ok (OExpr e) -> build f' = Ok (OExpr e') ->
  str_expr e = str_expr e' -> forall ps s, evaluate ps s e = evaluate ps s e'.
Proof.
  intros N N' B B' E. apply (text_determines kind); [exact (proj1 (build_fine kind f _ N B))|exact (proj1 (build_fine kind f' _ N' B'))|exact E].
Qed.
