(** [repr] and its reading by Python. *)
From Coq Require Import Lia Permutation.
From Verif Require Import Dec DecFacts Repr SpecDemo SpecSafe ExprFacts DictFacts PyTextFacts CompileFacts SafeFacts StrFacts DemoMoreFacts PrintCryFacts ShowFacts SpecRepr.
Open Scope list_scope.
Open Scope Z_scope.

(** ** Ints *)
Lemma digit_is c : digit c = (if is_digit c then Some (digit_val c) else None).
Proof. unfold digit, is_digit, digit_val, nat_of_ascii. now rewrite N_nat_Z. Qed.
Lemma number_digits t : forall a, all_digits t = true -> number a t = Some (dval a t).
Proof.
  induction t as [|c t IH]; intros a H; [reflexivity|]. cbn [all_digits] in H. apply andb_true_iff in H. destruct H as [Hc H].
  cbn [number dval]. rewrite digit_is, Hc, IH by exact H. f_equal. f_equal. lia.
Qed.
Lemma str_natural n : 0 <= n -> natural n (str_nonneg n).
Proof.
  intros H. destruct (str_nonneg_dec n H) as (D & V & c & s & E & Hz). split; [now rewrite number_digits, V|].
  destruct (ascii_dec c "0") as [->|Hc]; [left; rewrite E, Hz; reflexivity|right; eauto].
Qed.
Lemma str_int_text z : int_text z (str_int z).
Proof.
  unfold str_int. destruct (Z.ltb_spec z 0); [right|left; now apply str_natural]. eexists. split; [reflexivity|]. apply str_natural. lia.
Qed.
Lemma number_digits_all t : forall a n, number a t = Some n -> allc isdigit t = true.
Proof.
  induction t as [|c t IH]; intros a n H; [reflexivity|]. cbn [number] in H. rewrite digit_is in H. destruct (is_digit c) eqn:E; [|discriminate].
  cbn [allc]. rewrite <- is_digit_isdigit, E. cbn. eapply IH; eauto.
Qed.
Lemma natural_first n t : natural n t -> exists c u, t = String c u /\ isdigit c = true.
Proof.
  intros [H1 H2]. apply number_digits_all in H1. destruct t as [|c u]; [destruct H2 as [H2|(c & u & H2 & _)]; discriminate|].
  exists c, u. split; [reflexivity|]. cbn in H1. now apply andb_true_iff in H1.
Qed.
Definition numeric (c : ascii) : bool := isdigit c || Ascii.eqb c "-".
Lemma int_numeric z t : int_text z t -> allc numeric t = true /\ exists c u, t = String c u /\ numeric c = true.
Proof.
  assert (G : forall n u, natural n u -> allc numeric u = true).
  { intros n u [H _]. apply number_digits_all in H. revert H. apply allc_impl. intros c Hc. unfold numeric. now rewrite Hc. }
  intros [H|(u & -> & H)].
  - split; [now apply (G z)|]. destruct (natural_first _ _ H) as (c & u & -> & Hc). exists c, u. split; [reflexivity|]. unfold numeric. now rewrite Hc.
  - split; [|eauto]. cbn. now apply (G (- z)).
Qed.
Lemma int_unique z z' t : int_text z t -> int_text z' t -> z = z'.
Proof.
  intros [H|(u & -> & H)] [H'|(u' & E & H')].
  - destruct H as [H _], H' as [H' _]. congruence.
  - exfalso. subst t. destruct (natural_first _ _ H) as (c & v & [= <- _] & Hc). discriminate.
  - exfalso. destruct (natural_first _ _ H') as (c & v & [= <- _] & Hc). discriminate.
  - injection E as <-. destruct H as [H _], H' as [H' _]. assert (- z = - z') by congruence. lia.
Qed.

(** ** Texts *)
(** The keyword argument after the elements [ts]. *)
Definition keyword (empty : Prop) (const : option Z) (tc : string) : Prop :=
  match const with
  | None => tc = ""%string
  | Some z => exists t, int_text z t /\ (tc = (", const=" ++ t)%string \/ empty /\ tc = ("const=" ++ t)%string)
  end.
(** As [reads], with a comma also before a single keyword argument. *)
Inductive written : pytree -> string -> Prop :=
| w_int z t : int_text z t -> written (TInt z) t
| w_text s t : literal t s -> written (TText s) t
| w_call f args ts const tc : identifier f = true -> written_all args ts ->
    keyword (ts = []) const tc ->
    written (TCall f args const) (f ++ "(" ++ sjoin ", " ts ++ tc ++ ")")
with written_all : list pytree -> list string -> Prop :=
| w_nil : written_all [] []
| w_cons T t Ts ts : written T t -> written_all Ts ts -> written_all (T :: Ts) (t :: ts).
Scheme written_mut := Induction for written Sort Prop with written_all_mut := Induction for written_all Sort Prop.
Combined Scheme written_both from written_mut, written_all_mut.

Definition stop (r : string) : Prop := r = ""%string \/ exists u, r = String ")" u \/ r = String "," u.
Lemma stop_hd p r : stop r -> p ","%char = false -> p ")"%char = false -> hdnot p r = true.
Proof. intros [->|(u & [->| ->])] H1 H2; cbn; [reflexivity| |]; now rewrite ?H1, ?H2. Qed.
Lemma ident_first f : identifier f = true -> exists c u, f = String c u /\ isname_start c = true.
Proof. destruct f as [|c u]; [discriminate|]. cbn. intros H. apply andb_true_iff in H. exists c, u. now split. Qed.
Definition opener (c : ascii) : bool := isname_start c || isdigit c || Ascii.eqb c "-" || Ascii.eqb c "'" || Ascii.eqb c """".
Lemma written_first T t : written T t -> exists c u, t = String c u /\ opener c = true.
Proof.
  intros [z t' H|s t' H|f args ts const tc Hf H Hc].
  - destruct (int_numeric _ _ H) as (_ & c & u & -> & Hc). exists c, u. split; [reflexivity|]. unfold opener. unfold numeric in Hc.
    apply orb_true_iff in Hc. destruct Hc as [->| ->]; now rewrite ?orb_true_r.
  - destruct H as (q & u & [->| ->] & -> & _); eauto.
  - destruct (ident_first f Hf) as (c & u & -> & H1). exists c. eexists. split; [reflexivity|]. unfold opener. now rewrite H1.
Qed.

Definition ending (r : string) (const : option Z) (rest : string) : Prop :=
  exists tc, keyword True const tc /\ r = (tc ++ ")" ++ rest)%string.
Lemma keyword_weak (P : Prop) const tc : keyword P const tc -> keyword True const tc.
Proof. destruct const as [z|]; [|auto]. intros (t & H & [->|[_ ->]]); exists t; auto. Qed.
Lemma keyword_stop (P : Prop) const tc r : keyword P const tc -> ~ P -> stop (tc ++ ")" ++ r).
Proof. destruct const as [z|]; [|intros -> _; right; cbn; eauto]. intros (t & _ & [->|[H _]]) HP; [right; cbn; eauto|contradiction]. Qed.

Lemma start_not_digit c : isname_start c = true -> isdigit c = false /\ Ascii.eqb c "-" = false /\ Ascii.eqb c "'" = false /\ Ascii.eqb c """" = false.
Proof. destruct c as [[|] [|] [|] [|] [|] [|] [|] [|]]; vm_compute; intros; try discriminate; auto. Qed.

Lemma ending_tail c c' rest rest' r : ending r c rest -> ending r c' rest' -> c = c' /\ rest = rest'.
Proof.
  intros (tc & H & ->) (tc' & H' & E). destruct c as [z|], c' as [z'|].
  - destruct H as (t & H & Ht), H' as (t' & H' & Ht').
    assert (E' : (t ++ ")" ++ rest = t' ++ ")" ++ rest')%string).
    { destruct Ht as [->|[_ ->]], Ht' as [->|[_ ->]]; rewrite !sapp_assoc in E; cbn [append] in E; try discriminate; injection E as E; exact E. }
    apply (tok_inj numeric) in E'; [|apply (int_numeric _ _ H)|apply (int_numeric _ _ H')|reflexivity|reflexivity].
    destruct E' as [-> E']. injection E' as ->. now rewrite (int_unique _ _ _ H H').
  - cbn in H'. subst tc'. destruct H as (t & _ & [->|[_ ->]]); discriminate.
  - cbn in H. subst tc. destruct H' as (t & _ & [->|[_ ->]]); discriminate.
  - cbn in H, H'. subst tc tc'. cbn in E. injection E as ->. auto.
Qed.

(** An element is not the keyword argument. *)
Lemma element_not_const T t r t' : written T t -> stop r -> (t ++ r <> "const=" ++ t')%string.
Proof.
  intros H Hr E. destruct H as [z t H|s t H|f args ts const tc Hf H Hc].
  - destruct (int_numeric _ _ H) as (_ & c & u & -> & Hc). injection E as -> _. discriminate.
  - destruct H as (q & u & [->| ->] & -> & _); discriminate.
  - rewrite !sapp_assoc in E. change ("const=" ++ t')%string with ("const" ++ "=" ++ t')%string in E.
    apply (tok_inj isname_char) in E; [|apply (ident_chars f Hf)|reflexivity|reflexivity|reflexivity]. destruct E as [_ E]. discriminate.
Qed.

Lemma written_prefix :
  (forall T t, written T t -> forall T' t' r r', written T' t' -> stop r -> stop r' -> (t ++ r = t' ++ r')%string -> T = T' /\ r = r') /\
  (forall Ts ts, written_all Ts ts -> forall Ts' ts' c c' e e' r r', written_all Ts' ts' -> ending r c e -> ending r' c' e' -> (ts <> [] -> stop r) -> (ts' <> [] -> stop r') ->
     (sjoin ", " ts ++ r = sjoin ", " ts' ++ r')%string -> Ts = Ts' /\ r = r').
Proof.
  assert (Hnil : forall T t (Ts : list pytree) ts r r' c e, written T t -> stop r -> ending r' c e -> (sjoin ", " (t :: ts) ++ r <> r')%string).
  { intros T t Ts ts r r' c e HT Hr (tc & Hc & ->) E.
    assert (E' : exists r0, stop r0 /\ (t ++ r0 = tc ++ ")" ++ e)%string).
    { destruct ts as [|t2 ts]; [now exists r|]. change (sjoin ", " (t :: t2 :: ts)) with (t ++ ", " ++ sjoin ", " (t2 :: ts))%string in E. rewrite !sapp_assoc in E.
      eexists. split; [|exact E]. right. cbn. eauto. }
    destruct E' as (r0 & Hr0 & E').
    assert (Hf : forall d u, (t ++ r0)%string = String d u -> opener d = true).
    { destruct (written_first _ _ HT) as (d & u & -> & Hd). cbn [append]. intros d' u' [= <- _]. exact Hd. }
    destruct c as [z|]; [destruct Hc as (t0 & Ht & [->|[_ ->]])|cbn in Hc; subst tc].
    - rewrite !sapp_assoc in E'. apply Hf in E'. discriminate.
    - rewrite !sapp_assoc in E'. revert E'. now apply (element_not_const T).
    - apply Hf in E'. discriminate. }
  apply written_both.
  - intros z t H T' t' r r' H' Hr Hr' E. destruct H' as [z' t' H'|s t' H'|f args ts const tc Hf H' Hc].
    + apply (tok_inj numeric) in E; [|apply (int_numeric _ _ H)|apply (int_numeric _ _ H')|now apply stop_hd|now apply stop_hd].
      destruct E as [-> ->]. now rewrite (int_unique _ _ _ H H').
    + exfalso. destruct (int_numeric _ _ H) as (_ & c & u & -> & Hc). destruct H' as (q & v & [->| ->] & -> & _); injection E as -> _; discriminate.
    + exfalso. destruct (int_numeric _ _ H) as (_ & c & u & -> & Hn). destruct (ident_first f Hf) as (d & v & -> & Hd). injection E as -> _.
      destruct (start_not_digit d Hd) as (E1 & E2 & _). unfold numeric in Hn. rewrite E1, E2 in Hn. discriminate.
  - intros s t H T' t' r r' H' Hr Hr' E. destruct H' as [z' t' H'|s' t' H'|f args ts const tc Hf H' Hc].
    + exfalso. destruct (int_numeric _ _ H') as (_ & c & u & -> & Hc). destruct H as (q & v & [->| ->] & -> & _); injection E as <- _; discriminate.
    + apply (literal_split _ _ _ _ _ _ H H') in E. destruct E as [-> ->]. auto.
    + exfalso. destruct (ident_first f Hf) as (d & v & -> & Hd). destruct (start_not_digit d Hd) as (_ & _ & E3 & E4).
      destruct H as (q & u & [->| ->] & -> & _); injection E as <- _; discriminate.
  - intros f args ts const tc Hf Hall IH Hc T' t' r r' H' Hr Hr' E. destruct H' as [z' t' H'|s' t' H'|f' args' ts' const' tc' Hf' H' Hc'].
    + exfalso. destruct (int_numeric _ _ H') as (_ & c & u & -> & Hn). destruct (ident_first f Hf) as (d & v & -> & Hd). injection E as <- _.
      destruct (start_not_digit d Hd) as (E1 & E2 & _). unfold numeric in Hn. rewrite E1, E2 in Hn. discriminate.
    + exfalso. destruct (ident_first f Hf) as (d & v & -> & Hd). destruct (start_not_digit d Hd) as (_ & _ & E3 & E4).
      destruct H' as (q & u & [->| ->] & -> & _); injection E as -> _; discriminate.
    + rewrite !sapp_assoc in E. apply (tok_inj isname_char) in E; [|apply (ident_chars f Hf)|apply (ident_chars f' Hf')|reflexivity|reflexivity].
      destruct E as [-> E]. cbn [append] in E. injection E as E.
      destruct (IH args' ts' const const' r r' (tc ++ ")" ++ r)%string (tc' ++ ")" ++ r')%string) as [-> E2]; auto;
        [exists tc; eauto using keyword_weak|exists tc'; eauto using keyword_weak|eapply keyword_stop; eauto|eapply keyword_stop; eauto|].
      assert (H1 : ending (tc ++ ")" ++ r) const r) by (exists tc; eauto using keyword_weak).
      assert (H2 : ending (tc ++ ")" ++ r) const' r') by (exists tc'; rewrite E2; eauto using keyword_weak).
      destruct (ending_tail _ _ _ _ _ H1 H2) as [-> ->]. auto.
  - intros Ts' ts' c c' e e' r r' H' Hr Hr' Hn Hn' E. destruct H' as [|T t Ts ts HT Hs]; [auto|]. exfalso.
    exact (Hnil T t Ts ts r' r c e HT (Hn' ltac:(discriminate)) Hr (eq_sym E)).
  - intros T t Ts ts HT IHT Hs IHs Ts' ts' c c' e e' r r' H' Hr Hr' Hn Hn' E. destruct H' as [|T' t' Ts' ts' HT' Hs'].
    + exfalso. exact (Hnil T t Ts ts r r' c' e' HT (Hn ltac:(discriminate)) Hr' E).
    + specialize (Hn ltac:(discriminate)). specialize (Hn' ltac:(discriminate)). set (tail := fun (l : list string) (r : string) => match l with [] => r | _ => (", " ++ sjoin ", " l ++ r)%string end).
      assert (Et : forall u v q, (sjoin ", " (u :: v) ++ q = u ++ tail v q)%string) by (intros u [|w v] q; cbn [sjoin tail]; [reflexivity|now rewrite !sapp_assoc]).
      rewrite !Et in E.
      assert (Hstop : forall l q, stop q -> stop (tail l q)) by (intros [|w l] q Hq; [exact Hq|right; cbn; eauto]).
      destruct (IHT _ _ _ _ HT' (Hstop ts _ Hn) (Hstop ts' _ Hn') E) as [-> E2]. clear E.
      assert (Hno : forall Us us q r0 x0 y0, written_all Us us -> us <> [] -> stop q -> stop r0 -> ending r0 x0 y0 -> tail us q <> r0).
      { intros Us us q r0 x0 y0 HU Hne Hq Hs0 (tc & Htc & ->) E. destruct HU as [|U w Us us HU HUs]; [now apply Hne|].
        destruct x0 as [z0|]; [destruct Htc as (t0 & Ht0 & [->|[_ ->]])|cbn in Htc; subst tc; discriminate]; [|discriminate].
        cbn [tail] in E. rewrite !sapp_assoc in E. cbn [append] in E. injection E as E. change (sjoin ", " (w :: us) ++ q = "const=" ++ (t0 ++ String ")" y0))%string in E. rewrite Et in E.
        exact (element_not_const _ _ _ _ HU (Hstop us q Hq) E). }
      inversion Hs as [|U1 u1 Us1 us1 HU1 HUs1]; subst; inversion Hs' as [|U2 u2 Us2 us2 HU2 HUs2]; subst.
      * auto.
      * exfalso. symmetry in E2. revert E2. cbn [tail]. apply (Hno (U2 :: Us2) (u2 :: us2) r' r c e); auto. discriminate.
      * exfalso. revert E2. apply (Hno (U1 :: Us1) (u1 :: us1) r r' c' e'); auto. discriminate.
      * cbn [tail append] in E2. injection E2 as E2. destruct (IHs _ _ c c' e e' r r' Hs' Hr Hr' (fun _ => Hn) (fun _ => Hn') E2) as [-> ->]. auto.
Qed.

Lemma written_unique T T' t : written T t -> written T' t -> T = T'.
Proof.
  intros H H'. destruct (proj1 written_prefix T t H T' t ""%string ""%string H') as [E _]; [now left|now left|reflexivity|exact E].
Qed.

Scheme reads_mut := Induction for reads Sort Prop with reads_all_mut := Induction for reads_all Sort Prop.
Combined Scheme reads_both from reads_mut, reads_all_mut.

Lemma sjoin_snoc l t : l <> [] -> sjoin ", " (l ++ [t]) = (sjoin ", " l ++ ", " ++ t)%string.
Proof.
  induction l as [|x l IH]; intros H; [now destruct H|]. destruct l as [|y l]; [reflexivity|].
  change ((x :: y :: l) ++ [t]) with (x :: (y :: l) ++ [t]). change (sjoin ", " (x :: (y :: l) ++ [t])) with (x ++ ", " ++ sjoin ", " ((y :: l) ++ [t]))%string.
  rewrite IH by discriminate. change (sjoin ", " (x :: y :: l)) with (x ++ ", " ++ sjoin ", " (y :: l))%string. now rewrite !sapp_assoc.
Qed.

Lemma reads_written : (forall T t, reads T t -> written T t) /\ (forall Ts ts, reads_all Ts ts -> written_all Ts ts).
Proof.
  apply reads_both; try (constructor; assumption).
  - intros f args ts const tc Hf H IH Hc. destruct const as [z|].
    + destruct Hc as (t & Ht & ->). destruct ts as [|t0 ts].
      * change (f ++ "(" ++ sjoin ", " ([] ++ ["const=" ++ t]) ++ ")")%string with (f ++ "(" ++ sjoin ", " [] ++ ("const=" ++ t) ++ ")")%string.
        constructor; auto. exists t. auto.
      * rewrite sjoin_snoc by discriminate. rewrite !sapp_assoc. apply (w_call f args (t0 :: ts) (Some z) (", const=" ++ t)%string); auto. exists t. auto.
    + subst tc. rewrite app_nil_r. change (sjoin ", " ts ++ ")")%string with (sjoin ", " ts ++ "" ++ ")")%string. constructor; auto. reflexivity.
Qed.
Lemma reads_unique T T' t : reads T t -> reads T' t -> T = T'.
Proof. intros H H'. apply (written_unique T T' t); now apply reads_written. Qed.

(** ** [repr] *)
Fixpoint tree_of (e : expr) : pytree :=
  match e with
  | Const z => TCall "Const" [TInt z] None
  | Var x => TCall "Variable" [TText x] None
  | Param _ x => TCall "Parameter" [TText x] None
  | Neg e1 => TCall "Neg" [tree_of e1] None
  | Abs e1 => TCall "Abs" [tree_of e1] None
  | Not e1 => TCall "Not" [tree_of e1] None
  | Bin o l r => TCall (bin_class o) [tree_of l; tree_of r] None
  | Sum es c => TCall "Sum" (map tree_of es) (Some c)
  | Prod es c => TCall "Prod" (map tree_of es) (Some c)
  end.

Lemma written_1 f T t : identifier f = true -> written T t -> written (TCall f [T] None) (f ++ "(" ++ t ++ ")").
Proof. intros Hf H. apply (w_call f [T] [t] None ""); [exact Hf|repeat constructor; exact H|reflexivity]. Qed.
Lemma bin_class_ident o : identifier (bin_class o) = true.
Proof. destruct o; reflexivity. Qed.

Lemma repr_written kind e : named kind e -> written (tree_of e) (repr_expr e).
Proof.
  induction e as [z|y|p y|e IH|e IH|e IH|o l r IHl IHr|es c IH|es c IH] using expr_ind'; intros H; inversion H; subst; cbn [repr_expr tree_of].
  - apply (written_1 "Const"); [reflexivity|]. constructor. apply str_int_text.
  - apply (written_1 "Variable"); [reflexivity|]. constructor. now apply repr_literal.
  - apply (written_1 "Parameter"); [reflexivity|]. constructor. now apply repr_literal.
  - apply (written_1 "Neg"); [reflexivity|auto].
  - apply (written_1 "Abs"); [reflexivity|auto].
  - apply (written_1 "Not"); [reflexivity|auto].
  - pose proof (w_call (bin_class o) [tree_of l; tree_of r] [repr_expr l; repr_expr r] None ""%string (bin_class_ident o)) as G.
    cbn [sjoin] in G. rewrite !sapp_assoc in G. apply G; [repeat constructor; auto|reflexivity].
  - pose proof (w_call "Sum" (map tree_of es) (map repr_expr es) (Some c) (", const=" ++ str_int c)%string eq_refl) as G.
    rewrite !sapp_assoc in G. apply G; [|exists (str_int c); split; [apply str_int_text|now left]].
    match goal with H : Forall (named kind) es |- _ => revert IH H end. clear. induction es as [|e es IH']; intros IH H; [constructor|].
    inversion IH; inversion H; subst. constructor; auto.
  - pose proof (w_call "Prod" (map tree_of es) (map repr_expr es) (Some c) (", const=" ++ str_int c)%string eq_refl) as G.
    rewrite !sapp_assoc in G. apply G; [|exists (str_int c); split; [apply str_int_text|now left]].
    match goal with H : Forall (named kind) es |- _ => revert IH H end. clear. induction es as [|e es IH']; intros IH H; [constructor|].
    inversion IH; inversion H; subst. constructor; auto.
Qed.

Lemma bin_class_inj o o' : bin_class o = bin_class o' -> o = o'.
Proof. destruct o, o'; cbn; intros; try discriminate; reflexivity. Qed.
Lemma bin_class_other o : bin_class o <> "Const"%string /\ bin_class o <> "Variable"%string /\ bin_class o <> "Parameter"%string /\ bin_class o <> "Neg"%string /\
  bin_class o <> "Abs"%string /\ bin_class o <> "Not"%string /\ bin_class o <> "Sum"%string /\ bin_class o <> "Prod"%string.
Proof. destruct o; repeat split; discriminate. Qed.

Lemma tree_inj kind e : forall e', named kind e -> named kind e' -> tree_of e = tree_of e' -> e = e'.
Proof.
  assert (L : forall es, Forall (fun e => forall e', named kind e -> named kind e' -> tree_of e = tree_of e' -> e = e') es ->
    forall es', Forall (named kind) es -> Forall (named kind) es' -> map tree_of es = map tree_of es' -> es = es').
  { induction 1 as [|x es Hx Hes IH]; intros [|x' es'] H H' E; try discriminate; [reflexivity|]. inversion H; inversion H'; subst. cbn in E. injection E as E1 E2.
    rewrite (Hx x') by assumption. rewrite (IH es') by assumption. reflexivity. }
  induction e as [z|y|p y|e IH|e IH|e IH|o l r IHl IHr|es c IH|es c IH] using expr_ind'; intros e' H H' E;
    destruct e' as [z'|y'|p' y'|e'|e'|e'|o' l' r'|es' c'|es' c']; cbn [tree_of] in E;
    try discriminate; try (destruct (bin_class_other o) as (? & ? & ? & ? & ? & ? & ? & ?)); try (destruct (bin_class_other o') as (? & ? & ? & ? & ? & ? & ? & ?));
    injection E; clear E; intros; subst; try congruence; inversion H; inversion H'; subst.
  - congruence.
  - f_equal. auto.
  - f_equal. auto.
  - f_equal. auto.
  - f_equal; [now apply bin_class_inj|auto|auto].
  - f_equal. now apply (L es IH).
  - f_equal. now apply (L es IH).
Qed.

Lemma repr_injective kind e e' : named kind e -> named kind e' -> repr_expr e = repr_expr e' -> e = e'.
Proof.
  intros H H' E. apply (tree_inj kind); auto. apply (written_unique _ _ (repr_expr e)); [now apply (repr_written kind)|rewrite E; now apply (repr_written kind)].
Qed.

Lemma literals_inj l : forall l' r r', Forall ascii_only l -> Forall ascii_only l' ->
  (sjoin ", " (map py_repr l) ++ "]" ++ r = sjoin ", " (map py_repr l') ++ "]" ++ r')%string -> l = l' /\ r = r'.
Proof.
  assert (Et : forall u v q, (sjoin ", " (u :: v) ++ q = u ++ match v with [] => q | _ => ", " ++ sjoin ", " v ++ q end)%string) by (intros u [|w v] q; cbn [sjoin]; [reflexivity|now rewrite !sapp_assoc]).
  assert (Hq : forall x, ascii_only x -> exists q u, py_repr x = String q u /\ q <> "]"%char).
  { intros x _. unfold py_repr. eexists _, _. split; [reflexivity|]. destruct (quote_ok x) as [->| ->]; discriminate. }
  induction l as [|x l IH]; intros [|x' l'] r r' H H' E.
  - cbn in E. injection E as E. auto.
  - exfalso. inversion H' as [|? ? Hx _]; subst. destruct (Hq x' Hx) as (q & u & Eq & Hne). cbn [map] in E. rewrite Et, Eq in E. cbn in E. injection E as E _. congruence.
  - exfalso. inversion H as [|? ? Hx _]; subst. destruct (Hq x Hx) as (q & u & Eq & Hne). cbn [map] in E. rewrite Et, Eq in E. cbn in E. injection E as E _. congruence.
  - inversion H as [|? ? Hx Hl]; inversion H' as [|? ? Hx' Hl']; subst. cbn [map] in E. rewrite !Et in E.
    apply (literal_split _ _ _ _ _ _ (repr_literal x Hx) (repr_literal x' Hx')) in E. destruct E as [-> E].
    destruct l as [|y l], l' as [|y' l']; cbn [map] in E.
    + cbn in E. injection E as E. auto.
    + discriminate.
    + discriminate.
    + cbn [append] in E. injection E as E. destruct (IH (y' :: l') r r' Hl Hl' E) as [-> ->]. auto.
Qed.

Lemma constraint_repr kind c c' : named_body kind c -> named_body kind c' -> repr_constraint c = repr_constraint c' -> same_body c c'.
Proof.
  intros H H' E. destruct c as [b|e|xs], c' as [b'|e'|xs']; try discriminate; cbn in *.
  - destruct b, b'; try discriminate; reflexivity.
  - injection E as E. f_equal.
    pose proof (repr_written kind e H) as W. pose proof (repr_written kind e' H') as W'.
    assert (Hst : stop ")") by (right; eauto). destruct (proj1 written_prefix _ _ W _ _ ")"%string ")"%string W' Hst Hst E) as [Et _].
    now apply (tree_inj kind).
  - injection E as E.
    assert (Hs : forall zs, Forall ascii_only zs -> Forall ascii_only (sorted_strings (dedup zs))).
    { intros zs Hz. rewrite Forall_forall in *. intros x Hx. apply Hz, dedup_In. exact (Permutation_in x (sorted_perm _) Hx). }
    destruct (literals_inj _ _ ")"%string ")"%string (Hs xs H) (Hs xs' H') E) as [El _].
    assert (Hi : forall zs x, In x zs <-> In x (sorted_strings (dedup zs))).
    { intros zs x. rewrite <- (dedup_In zs). split; intros Hx; [exact (Permutation_in x (Permutation_sym (sorted_perm _)) Hx)|exact (Permutation_in x (sorted_perm _) Hx)]. }
    intros x. rewrite (Hi xs), (Hi xs'), El. reflexivity.
Qed.

Lemma objective_repr kind o o' : named kind (o_expr o) -> named kind (o_expr o') -> repr_objective o = repr_objective o' -> o = o'.
Proof.
  intros H H' E. destruct o as [e m], o' as [e' m']. cbn [o_expr] in *. unfold repr_objective in E. cbn [o_expr o_max] in E.
  destruct m, m'; cbn [append] in E; try discriminate; injection E as E.
  all: assert (Hst : stop ")") by (right; eauto);
    destruct (proj1 written_prefix _ _ (repr_written kind e H) _ _ ")"%string ")"%string (repr_written kind e' H') Hst Hst E) as [Et _];
    now rewrite (tree_inj kind e e' H H' Et).
Qed.

(** ** [eval] *)
Lemma inside_trans a b c : inside b c -> inside a b -> inside a c.
Proof.
  intros H. revert a. induction H; intros a Ha; [exact Ha|constructor|constructor|constructor|apply i_left|apply i_right|eapply i_sum; [eassumption|]|eapply i_prod; [eassumption|]]; auto.
Qed.
Lemma several_part e e' : several e -> inside e' e -> several e'.
Proof. intros H Hi e'' He. apply H. exact (inside_trans _ _ _ Hi He). Qed.

Lemma repr_reads kind e : named kind e -> several e -> reads (tree_of e) (repr_expr e).
Proof.
  assert (R1 : forall f T t, identifier f = true -> reads T t -> reads (TCall f [T] None) (f ++ "(" ++ t ++ ")")).
  { intros f T t Hf H. apply (reads_call f [T] [t] None []); [exact Hf|repeat constructor; exact H|reflexivity]. }
  assert (RL : forall es, Forall (fun e => named kind e -> several e -> reads (tree_of e) (repr_expr e)) es -> Forall (named kind) es -> Forall several es ->
    reads_all (map tree_of es) (map repr_expr es)).
  { induction 1 as [|x es Hx Hes IH]; intros H H'; [constructor|]. inversion H; inversion H'; subst. constructor; auto. }
  induction e as [z|y|p y|e IH|e IH|e IH|o l r IHl IHr|es c IH|es c IH] using expr_ind'; intros H Hs; inversion H; subst; cbn [repr_expr tree_of].
  - apply (R1 "Const"%string); [reflexivity|]. constructor. apply str_int_text.
  - apply (R1 "Variable"%string); [reflexivity|]. constructor. now apply repr_literal.
  - apply (R1 "Parameter"%string); [reflexivity|]. constructor. now apply repr_literal.
  - apply (R1 "Neg"%string); [reflexivity|]. apply IH; [assumption|]. apply (several_part _ _ Hs). now repeat constructor.
  - apply (R1 "Abs"%string); [reflexivity|]. apply IH; [assumption|]. apply (several_part _ _ Hs). now repeat constructor.
  - apply (R1 "Not"%string); [reflexivity|]. apply IH; [assumption|]. apply (several_part _ _ Hs). now repeat constructor.
  - pose proof (reads_call (bin_class o) [tree_of l; tree_of r] [repr_expr l; repr_expr r] None [] (bin_class_ident o)) as G.
    cbn [sjoin app] in G. rewrite !sapp_assoc in G. apply G; [|reflexivity]. repeat constructor.
    + apply IHl; [assumption|]. apply (several_part _ _ Hs). apply i_left. constructor.
    + apply IHr; [assumption|]. apply (several_part _ _ Hs). apply i_right. constructor.
  - pose proof (reads_call "Sum" (map tree_of es) (map repr_expr es) (Some c) ["const=" ++ str_int c]%string eq_refl) as G.
    rewrite sjoin_snoc in G.
    + rewrite !sapp_assoc in G. apply G; [|exists (str_int c); split; [apply str_int_text|reflexivity]]. apply RL; auto.
      apply Forall_forall. intros x Hx. apply (several_part _ _ Hs). eapply i_sum; [exact Hx|constructor].
    + specialize (Hs _ (i_self _)). cbn in Hs. destruct es; [cbn in Hs; lia|discriminate].
  - pose proof (reads_call "Prod" (map tree_of es) (map repr_expr es) (Some c) ["const=" ++ str_int c]%string eq_refl) as G.
    rewrite sjoin_snoc in G.
    + rewrite !sapp_assoc in G. apply G; [|exists (str_int c); split; [apply str_int_text|reflexivity]]. apply RL; auto.
      apply Forall_forall. intros x Hx. apply (several_part _ _ Hs). eapply i_prod; [exact Hx|constructor].
    + specialize (Hs _ (i_self _)). cbn in Hs. destruct es; [cbn in Hs; lia|discriminate].
Qed.

Fixpoint evals (l : list pytree) : res (list pyval) :=
  match l with [] => Ok [] | t1 :: l' => let! v := eval t1 in let! vs := evals l' in Ok (v :: vs) end.
Lemma eval_call f args const : eval (TCall f args const) = let! vs := evals args in let! e := call f vs const in Ok (VExpr e).
Proof. reflexivity. Qed.
Lemma call_bin o l r : call (bin_class o) [VExpr l; VExpr r] None = Ok (Bin o l r).
Proof. destruct o; reflexivity. Qed.

Definition rebuilds (e : expr) : Prop := callable e /\ eval (tree_of e) = Ok (VExpr e) \/ ~ callable e /\ eval (tree_of e) = Err TypeError.

Lemma evals_cases es : Forall rebuilds es -> (exists vs, evals (map tree_of es) = Ok vs /\ List.length vs = List.length es) \/ evals (map tree_of es) = Err TypeError.
Proof.
  induction 1 as [|e es He Hes IH]; [left; exists []; auto|]. cbn [map evals].
  destruct He as [[_ ->]|[_ ->]]; [|right; reflexivity]. cbn [bind].
  destruct IH as [(vs & -> & El)|E]; [left; eexists; split; [reflexivity|cbn; now rewrite El]|right; now rewrite E].
Qed.

Lemma repr_rebuilds e : several e -> rebuilds e.
Proof.
  assert (C1 : forall (mk : expr -> expr) f, (forall x, eval (tree_of (mk x)) = let! vs := evals [tree_of x] in let! e := call f vs None in Ok (VExpr e)) ->
    (forall x, call f [VExpr x] None = Ok (mk x)) -> (forall x y, inside x y -> inside x (mk y)) ->
    (forall x, callable x -> callable (mk x)) -> forall x, rebuilds x -> rebuilds (mk x)).
  { intros mk f Ev Ec Hi Hc x [[H E]|[H E]]; [left|right].
    - split; [auto|]. rewrite Ev. cbn [evals]. rewrite E. cbn [bind]. rewrite Ec. reflexivity.
    - split; [|rewrite Ev; cbn [evals]; now rewrite E]. intros G. apply H. intros e' He. apply G. auto. }
  induction e as [z|y|p y|e IH|e IH|e IH|o l r IHl IHr|es c IH|es c IH] using expr_ind'; intros Hs.
  - left. split; [intros e' He; inversion He; exact Logic.I|reflexivity].
  - left. split; [intros e' He; inversion He; exact Logic.I|reflexivity].
  - right. split; [intros H; apply (H _ (i_self _))|reflexivity].
  - apply (C1 Neg "Neg"%string); try reflexivity; [now constructor| |].
    + intros x Hx e' He. inversion He; subst; [exact Logic.I|now apply Hx].
    + apply IH. apply (several_part _ _ Hs). now repeat constructor.
  - apply (C1 Abs "Abs"%string); try reflexivity; [now constructor| |].
    + intros x Hx e' He. inversion He; subst; [exact Logic.I|now apply Hx].
    + apply IH. apply (several_part _ _ Hs). now repeat constructor.
  - apply (C1 Not "Not"%string); try reflexivity; [now constructor| |].
    + intros x Hx e' He. inversion He; subst; [exact Logic.I|now apply Hx].
    + apply IH. apply (several_part _ _ Hs). now repeat constructor.
  - assert (Hl : rebuilds l) by (apply IHl, (several_part _ _ Hs), i_left; constructor).
    assert (Hr : rebuilds r) by (apply IHr, (several_part _ _ Hs), i_right; constructor).
    unfold rebuilds. cbn [tree_of]. rewrite eval_call. cbn [evals].
    destruct Hl as [[Hl El]|[Hl El]]; rewrite El; cbn [bind].
    + destruct Hr as [[Hr Er]|[Hr Er]]; rewrite Er; cbn [bind].
      * left. split; [intros e' He; inversion He; subst; [exact Logic.I|now apply Hl|now apply Hr]|]. now rewrite call_bin.
      * right. split; [|reflexivity]. intros G. apply Hr. intros e' He. apply G. now apply i_right.
    + right. split; [|reflexivity]. intros G. apply Hl. intros e' He. apply G. now apply i_left.
  - right. split; [intros H; apply (H _ (i_self _))|]. cbn [tree_of]. rewrite eval_call.
    assert (Hes : Forall rebuilds es).
    { rewrite Forall_forall in *. intros x Hx. apply IH; [exact Hx|]. apply (several_part _ _ Hs). eapply i_sum; [exact Hx|constructor]. }
    destruct (evals_cases es Hes) as [(vs & -> & El)| ->]; [|reflexivity]. specialize (Hs _ (i_self _)). cbn in Hs. rewrite <- El in Hs.
    destruct vs as [|v1 [|v2 vs]]; [cbn in Hs; lia|cbn in Hs; lia|reflexivity].
  - right. split; [intros H; apply (H _ (i_self _))|]. cbn [tree_of]. rewrite eval_call.
    assert (Hes : Forall rebuilds es).
    { rewrite Forall_forall in *. intros x Hx. apply IH; [exact Hx|]. apply (several_part _ _ Hs). eapply i_prod; [exact Hx|constructor]. }
    destruct (evals_cases es Hes) as [(vs & -> & El)| ->]; [|reflexivity]. specialize (Hs _ (i_self _)). cbn in Hs. rewrite <- El in Hs.
    destruct vs as [|v1 [|v2 vs]]; [cbn in Hs; lia|cbn in Hs; lia|reflexivity].
Qed.

Lemma repr_evaluates kind e : named kind e -> several e ->
  exists T, reads T (repr_expr e) /\ (forall T', reads T' (repr_expr e) -> T' = T) /\
    (callable e -> eval T = Ok (VExpr e)) /\ (~ callable e -> eval T = Err TypeError).
Proof.
  intros H Hs. pose proof (repr_reads kind e H Hs) as R. exists (tree_of e). split; [exact R|]. split; [intros T' R'; exact (reads_unique _ _ _ R' R)|].
  destruct (repr_rebuilds e Hs) as [[Hc E]|[Hc E]]; rewrite E; split; tauto.
Qed.
