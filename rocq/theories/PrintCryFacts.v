(** Lemmas behind Properties_Print.v: printed cryptarithms. *)
From Coq Require Import Permutation Sorted Arith.
From Verif Require Import DemoPrint SpecCryptarithm SpecPrint DictFacts.
Open Scope list_scope.
Open Scope Z_scope.

(** ** Sorting strings *)
Lemma compare_refl a : String.compare a a = Eq.
Proof. induction a as [|c a IH]; [reflexivity|]. simpl. unfold Ascii.compare. now rewrite N.compare_refl. Qed.
Lemma leb_total x y : String.leb x y = false -> String.leb y x = true.
Proof. unfold String.leb. rewrite (String.compare_antisym y x). now destruct (String.compare x y). Qed.
Lemma leb_antisym x y : String.leb x y = true -> String.leb y x = true -> x = y.
Proof.
  unfold String.leb. rewrite (String.compare_antisym y x). destruct (String.compare x y) eqn:E; try discriminate.
  intros _ _. now apply String.compare_eq_iff.
Qed.
Lemma leb_trans x y z : String.leb x y = true -> String.leb y z = true -> String.leb x z = true.
Proof.
  unfold String.leb. revert y z. induction x as [|c x IH]; intros [|d y] [|e z]; simpl; auto; try discriminate.
  unfold Ascii.compare. destruct (N.compare_spec (N_of_ascii c) (N_of_ascii d)) as [E1|E1|E1]; try discriminate;
  destruct (N.compare_spec (N_of_ascii d) (N_of_ascii e)) as [E2|E2|E2]; try discriminate; intros H1 H2;
  destruct (N.compare_spec (N_of_ascii c) (N_of_ascii e)) as [E3|E3|E3]; try reflexivity; try lia; eauto.
Qed.
Definition leq (x y : string) : Prop := String.leb x y = true.
Lemma insert_perm x l : Permutation (insert_string x l) (x :: l).
Proof.
  induction l as [|y l IH]; [reflexivity|]. simpl. destruct (String.leb x y); [reflexivity|].
  rewrite IH. apply perm_swap.
Qed.
Lemma sorted_perm l : Permutation (sorted_strings l) l.
Proof. induction l as [|x l IH]; [reflexivity|]. simpl. rewrite insert_perm. now constructor. Qed.
Lemma insert_sorted x l : StronglySorted leq l -> StronglySorted leq (insert_string x l).
Proof.
  intros H. induction H as [|y l Hl IH Hy]; simpl; [repeat constructor|]. destruct (String.leb x y) eqn:E.
  - constructor; [now constructor|]. constructor; [exact E|]. eapply Forall_impl; [|exact Hy]. intros z Hz. now apply leb_trans with y.
  - constructor; [exact IH|]. apply Forall_forall. intros z Hz. apply (Permutation_in _ (insert_perm x l)) in Hz.
    destruct Hz as [<-|Hz]; [now apply leb_total|]. rewrite Forall_forall in Hy. auto.
Qed.
Lemma sorted_sorted l : StronglySorted leq (sorted_strings l).
Proof. induction l; simpl; [constructor|now apply insert_sorted]. Qed.
Lemma sorted_unique l l' : StronglySorted leq l -> StronglySorted leq l' -> Permutation l l' -> l = l'.
Proof.
  intros H. revert l'. induction H as [|x l Hl IH Hx]; intros l' H' Hp.
  - symmetry. now apply Permutation_nil.
  - destruct H' as [|y l' Hl' Hy]; [symmetry in Hp; apply Permutation_nil in Hp; discriminate|].
    rewrite Forall_forall in Hx, Hy.
    assert (E : x = y).
    { apply leb_antisym.
      - assert (Hin : In y (x :: l)) by (eapply Permutation_in; [symmetry; exact Hp|now left]). destruct Hin as [<-|Hin]; [|now apply Hx].
        destruct (String.leb x x) eqn:E; [reflexivity|]. pose proof (leb_total _ _ E). congruence.
      - assert (Hin : In x (y :: l')) by (eapply Permutation_in; [exact Hp|now left]). destruct Hin as [<-|Hin]; [|now apply Hy].
        destruct (String.leb y y) eqn:E; [reflexivity|]. pose proof (leb_total _ _ E). congruence. }
    subst y. f_equal. apply IH; [exact Hl'|]. now apply Permutation_cons_inv in Hp.
Qed.

Lemma letters_leq x y : letter_before x y -> leq x y.
Proof.
  intros (u & v & -> & -> & H). unfold leq, String.leb. simpl. unfold Ascii.compare, ord in *.
  destruct (N.compare_spec (N_of_ascii u) (N_of_ascii v)); [lia|reflexivity|lia].
Qed.
Lemma letters_sorted l : ForallOrdPairs letter_before l -> StronglySorted leq l.
Proof.
  intros H. induction H as [|x l Hx Hl IH]; constructor; [exact IH|]. eapply Forall_impl; [|exact Hx]. intros y. apply letters_leq.
Qed.

(** ** Replacement of characters *)
Fixpoint smap (f : ascii -> ascii) (s : string) : string :=
  match s with EmptyString => EmptyString | String c s' => String (f c) (smap f s') end.
Lemma smap_app f a b : smap f (a ++ b) = (smap f a ++ smap f b)%string.
Proof. induction a; simpl; congruence. Qed.
Lemma smap_list f l : smap f (string_of_list_ascii l) = string_of_list_ascii (map f l).
Proof. induction l; simpl; congruence. Qed.
Lemma smap_chars f s : list_ascii_of_string (smap f s) = map f (list_ascii_of_string s).
Proof. induction s; simpl; congruence. Qed.
Lemma smap_smap f g s : smap f (smap g s) = smap (fun c => f (g c)) s.
Proof. induction s; simpl; congruence. Qed.
Lemma smap_ext f g s : (forall c, f c = g c) -> smap f s = smap g s.
Proof. intros H. induction s; simpl; congruence. Qed.
Lemma smap_id s f : (forall c, In c (list_ascii_of_string s) -> f c = c) -> smap f s = s.
Proof. induction s as [|c s IH]; intros H; simpl; [reflexivity|]. rewrite H by now left. rewrite IH; [reflexivity|]. intros d Hd. apply H. now right. Qed.

Definition digit (v : Z) : ascii := ascii_of_nat (48 + Z.to_nat v).
Lemma str_digit v : 0 <= v <= 9 -> str_int v = String (digit v) "".
Proof.
  intros H. assert (Hn : v = 0 \/ v = 1 \/ v = 2 \/ v = 3 \/ v = 4 \/ v = 5 \/ v = 6 \/ v = 7 \/ v = 8 \/ v = 9) by lia.
  repeat (destruct Hn as [->|Hn]; [reflexivity|]). subst v. reflexivity.
Qed.
Lemma digit_ord v : 0 <= v <= 9 -> ord (digit v) = 48 + v.
Proof.
  intros H. assert (Hn : v = 0 \/ v = 1 \/ v = 2 \/ v = 3 \/ v = 4 \/ v = 5 \/ v = 6 \/ v = 7 \/ v = 8 \/ v = 9) by lia.
  repeat (destruct Hn as [->|Hn]; [reflexivity|]). subst v. reflexivity.
Qed.
Lemma replace_char u d s : replace_from (String u "") (String d "") 0 s = smap (fun c => if Ascii.eqb c u then d else c) s.
Proof.
  induction s as [|c s IH]; [reflexivity|]. cbn [replace_from String.prefix String.length Nat.sub smap].
  destruct (ascii_dec u c) as [->|Hn].
  - rewrite Ascii.eqb_refl, IH. destruct s; reflexivity.
  - destruct (Ascii.eqb_spec c u) as [E|E]; [congruence|]. now rewrite IH.
Qed.

(** The replacement of the letters of [b], one after the other. *)
Fixpoint rep (b : list (string * Z)) (c : ascii) : ascii :=
  match b with
  | [] => c
  | (x, v) :: b' => rep b' (if String.eqb (String c "") x then digit v else c)
  end.
Lemma eqb_char c u : String.eqb (String c "") (String u "") = Ascii.eqb c u.
Proof. simpl. now destruct (Ascii.eqb c u). Qed.

Definition letters_ok (b : list (string * Z)) : Prop :=
  forall x v, In (x, v) b -> 0 <= v <= 9 /\ exists u, x = String u "" /\ is_upper u.
Lemma rep_other b c : letters_ok b -> (forall v, ~ In (String c "", v) b) -> rep b c = c.
Proof.
  induction b as [|[x v] b IH]; intros Hok Hc; [reflexivity|]. cbn [rep]. destruct (String.eqb_spec (String c "") x) as [E|E].
  - exfalso. apply (Hc v). rewrite E. now left.
  - apply IH; [intros y w Hy; apply Hok; now right|]. intros w Hw. apply (Hc w). now right.
Qed.
Lemma rep_letter b c v : letters_ok b -> NoDup (map fst b) -> In (String c "", v) b -> rep b c = digit v.
Proof.
  induction b as [|[x w] b IH]; intros Hok Hnd Hin; [contradiction|]. inversion Hnd as [|? ? Hx Hb]; subst. cbn [rep].
  assert (Hok' : letters_ok b) by (intros y z Hy; apply Hok; now right).
  destruct (String.eqb_spec (String c "") x) as [E|E].
  - assert (w = v).
    { destruct Hin as [Hin|Hin]; [congruence|]. exfalso. apply Hx. rewrite <- E. now apply (in_map fst) in Hin. }
    subst w. apply rep_other; [exact Hok'|]. intros z Hz. destruct (Hok' _ _ Hz) as (_ & u & Eu & Hu). injection Eu as <-.
    unfold is_upper in Hu. rewrite digit_ord in Hu; [|apply (Hok x v); now left]. pose proof (proj1 (Hok x v (or_introl eq_refl))). lia.
  - destruct Hin as [Hin|Hin]; [congruence|]. now apply IH.
Qed.

Lemma cry_lines_spec sol b : letters_ok b -> (forall x v, In (x, v) b -> get_item sol x = Ok v) -> forall s,
  cry_lines sol (map fst b) s = Ok (map (fun p => fst p ++ " = " ++ str_int (snd p))%string b, smap (rep b) s).
Proof.
  induction b as [|[x v] b IH]; intros Hok Hg s.
  - simpl. now rewrite smap_id.
  - cbn [map fst snd cry_lines]. rewrite (Hg x v) by now left. cbn [bind].
    destruct (Hok x v (or_introl eq_refl)) as (Hv & u & -> & Hu). rewrite (str_digit v Hv), replace_char.
    rewrite IH; [|intros y w Hy; apply Hok; now right|intros y w Hy; apply Hg; now right]. cbn [bind fst snd]. f_equal. f_equal.
    rewrite smap_smap. apply smap_ext. intros c. cbn [rep]. now rewrite eqb_char.
Qed.

Lemma chars_list_app a b : list_ascii_of_string (a ++ b)%string = list_ascii_of_string a ++ list_ascii_of_string b.
Proof. induction a; simpl; congruence. Qed.

(** ** Equations *)
Fixpoint emap (f : ascii -> ascii) (e : cexp) : cexp :=
  match e with
  | EWord w => EWord (map f w)
  | EAdd a b => EAdd (emap f a) (emap f b)
  | ESub a b => ESub (emap f a) (emap f b)
  | EMul a b => EMul (emap f a) (emap f b)
  | ENeg a => ENeg (emap f a)
  | EPos a => EPos (emap f a)
  end.

Section Replaced.
Variable f : ascii -> ascii.
Hypothesis Hother : forall c, ~ is_upper c -> f c = c.
Hypothesis Hword : forall c, is_dig c \/ (exists u, stands_for c u) -> is_dig (f c) \/ exists u, stands_for (f c) u.

Lemma smap_blank s : blank s -> smap f s = s.
Proof. intros H. apply smap_id. intros c Hc. rewrite (H c Hc). apply Hother. unfold is_upper. vm_compute. intuition congruence. Qed.
Lemma smap_symbol c : ~ is_upper c -> smap f (String c "") = String c "".
Proof. intros H. simpl. now rewrite Hother. Qed.
Lemma word_map w : is_word w -> is_word (map f w).
Proof.
  intros [Hne H]. split; [destruct w; [contradiction|discriminate]|].
  intros d Hd. apply in_map_iff in Hd. destruct Hd as (c & <- & Hc). auto.
Qed.

Scheme tf_ind := Minimality for text_factor Sort Prop
  with tp_ind := Minimality for text_product Sort Prop
  with ts_ind := Minimality for text_sum Sort Prop.
Combined Scheme text_ind from tf_ind, tp_ind, ts_ind.

Lemma text_map :
  (forall s e, text_factor s e -> text_factor (smap f s) (emap f e)) /\
  (forall s e, text_product s e -> text_product (smap f s) (emap f e)) /\
  (forall s e, text_sum s e -> text_sum (smap f s) (emap f e)).
Proof.
  assert (Hs : forall c, In c ["("; ")"; "*"; "+"; "-"]%char -> smap f (String c "") = String c "").
  { intros c Hc. apply smap_symbol. simpl in Hc. unfold is_upper. repeat (destruct Hc as [<-|Hc]; [vm_compute; intuition congruence|]). contradiction. }
  apply text_ind; intros.
  - rewrite !smap_app, smap_list, !smap_blank by assumption. apply t_word; [assumption|now apply word_map|assumption].
  - rewrite !smap_app, (smap_blank s), (smap_blank t) by assumption. rewrite !Hs by (simpl; tauto). now apply t_paren.
  - rewrite !smap_app, (smap_blank s) by assumption. rewrite Hs by (simpl; tauto). now apply t_neg.
  - rewrite !smap_app, (smap_blank s) by assumption. rewrite Hs by (simpl; tauto). now apply t_pos.
  - now apply t_factor.
  - rewrite !smap_app. rewrite Hs by (simpl; tauto). now apply t_mul.
  - now apply t_product.
  - rewrite !smap_app. rewrite Hs by (simpl; tauto). now apply t_add.
  - rewrite !smap_app. rewrite Hs by (simpl; tauto). now apply t_sub.
Qed.

Lemma rel_map r : smap f (rel_text r) = rel_text r.
Proof.
  apply smap_id. intros c Hc. apply Hother. unfold is_upper.
  destruct r; simpl in Hc; repeat (destruct Hc as [<-|Hc]; [vm_compute; intuition congruence|]); contradiction.
Qed.
Lemma equation_map s e r g : text_equation s (Equation e r g) -> text_equation (smap f s) (Equation (emap f e) r (emap f g)).
Proof.
  intros H. inversion H; subst. rewrite !smap_app, rel_map. constructor; now apply text_map.
Qed.
Lemma words_map e : words_of (emap f e) = map (map f) (words_of e).
Proof. induction e; simpl; rewrite ?map_app; congruence. Qed.

Lemma value_map a a' e n : (forall w c v, In w (words_of e) -> In c w -> char_value a c v -> char_value a' (f c) v) ->
  value a e n -> value a' (emap f e) n.
Proof.
  intros Hv H. induction H as [w n (vs & Hw & ->)|e1 e2 m n H1 IH1 H2 IH2|e1 e2 m n H1 IH1 H2 IH2|e1 e2 m n H1 IH1 H2 IH2|e m H IH|e m H IH]; simpl;
    try (constructor; [apply IH1|apply IH2]; intros w c v Hw; apply Hv; simpl; apply in_or_app; auto);
    try (constructor; apply IH; exact Hv).
  constructor. exists vs. split; [|reflexivity]. assert (Hv' := fun c v => Hv w c v (or_introl eq_refl)). clear - Hv' Hw.
  induction Hw; constructor; [apply Hv'; [now left|assumption]|]. apply IHHw. intros c v Hc. apply Hv'. now right.
Qed.
End Replaced.

(** Characters of words occur in the text. *)
Lemma text_chars :
  (forall s e, text_factor s e -> forall w c, In w (words_of e) -> In c w -> In c (list_ascii_of_string s)) /\
  (forall s e, text_product s e -> forall w c, In w (words_of e) -> In c w -> In c (list_ascii_of_string s)) /\
  (forall s e, text_sum s e -> forall w c, In w (words_of e) -> In c w -> In c (list_ascii_of_string s)).
Proof.
  apply text_ind; intros; rewrite ?chars_list_app; eauto;
    try (simpl in *; match goal with H : In _ (_ ++ _) |- _ => apply in_app_iff in H; destruct H end; rewrite ?in_app_iff; simpl; eauto; fail).
  - rewrite !in_app_iff. right. left. rewrite list_ascii_of_string_of_list_ascii. destruct H2 as [<-|[]]. assumption.
  - rewrite !in_app_iff. right. right. left. eauto.
  - rewrite !in_app_iff. right. right. eauto.
  - rewrite !in_app_iff. right. right. eauto.
Qed.

(** Letters of the text occur in words, and words are words. *)
Lemma text_upper :
  (forall s e, text_factor s e -> forall c, In c (list_ascii_of_string s) -> is_upper c -> exists w, In w (words_of e) /\ In c w) /\
  (forall s e, text_product s e -> forall c, In c (list_ascii_of_string s) -> is_upper c -> exists w, In w (words_of e) /\ In c w) /\
  (forall s e, text_sum s e -> forall c, In c (list_ascii_of_string s) -> is_upper c -> exists w, In w (words_of e) /\ In c w).
Proof.
  assert (Hbl : forall s c, blank s -> In c (list_ascii_of_string s) -> is_upper c -> False).
  { intros s c Hb Hc Hu. rewrite (Hb c Hc) in Hu. unfold is_upper in Hu. vm_compute in Hu. intuition congruence. }
  assert (Hsy : forall c, In c ["("; ")"; "*"; "+"; "-"]%char -> is_upper c -> False).
  { intros c Hc Hu. unfold is_upper in Hu. simpl in Hc. repeat (destruct Hc as [<-|Hc]; [vm_compute in Hu; intuition congruence|]). contradiction. }
  apply text_ind; intros; eauto; rewrite ?chars_list_app, ?in_app_iff in *; simpl in *.
  - rewrite list_ascii_of_string_of_list_ascii in *. exists w. split; [now left|]. destruct H2 as [H2|[H2|H2]]; [exfalso; eauto|assumption|exfalso; eauto].
  - destruct H3 as [H3|[[H3|[]]|[H3|[[H3|[]]|H3]]]]; try (exfalso; eauto; fail); try (exfalso; apply (Hsy c); [rewrite <- H3; simpl; tauto|assumption]). eauto.
  - destruct H2 as [H2|[[H2|[]]|H2]]; [exfalso; eauto|exfalso; apply (Hsy c); [rewrite <- H2; simpl; tauto|assumption]|eauto].
  - destruct H2 as [H2|[[H2|[]]|H2]]; [exfalso; eauto|exfalso; apply (Hsy c); [rewrite <- H2; simpl; tauto|assumption]|eauto].
  - destruct H3 as [H3|[[H3|[]]|H3]].
    + destruct (H0 c H3 H4) as (w & ? & ?). exists w. rewrite in_app_iff. auto.
    + exfalso; apply (Hsy c); [rewrite <- H3; simpl; tauto|assumption].
    + destruct (H2 c H3 H4) as (w & ? & ?). exists w. rewrite in_app_iff. auto.
  - destruct H3 as [H3|[[H3|[]]|H3]].
    + destruct (H0 c H3 H4) as (w & ? & ?). exists w. rewrite in_app_iff. auto.
    + exfalso; apply (Hsy c); [rewrite <- H3; simpl; tauto|assumption].
    + destruct (H2 c H3 H4) as (w & ? & ?). exists w. rewrite in_app_iff. auto.
  - destruct H3 as [H3|[[H3|[]]|H3]].
    + destruct (H0 c H3 H4) as (w & ? & ?). exists w. rewrite in_app_iff. auto.
    + exfalso; apply (Hsy c); [rewrite <- H3; simpl; tauto|assumption].
    + destruct (H2 c H3 H4) as (w & ? & ?). exists w. rewrite in_app_iff. auto.
Qed.
Lemma upper_in_word s q : text_equation s q -> forall c, In c (list_ascii_of_string s) -> is_upper c -> exists w, In w (equation_words q) /\ In c w.
Proof.
  intros H c Hc Hu. destruct H as [x y e r g Hx Hy]. rewrite !chars_list_app, !in_app_iff in Hc. simpl. destruct Hc as [Hc|[Hc|Hc]].
  - destruct (proj2 (proj2 text_upper) _ _ Hx c Hc Hu) as (w & ? & ?). exists w. rewrite in_app_iff. auto.
  - exfalso. unfold is_upper in Hu. destruct r; simpl in Hc; repeat (destruct Hc as [<-|Hc]; [vm_compute in Hu; intuition congruence|]); contradiction.
  - destruct (proj2 (proj2 text_upper) _ _ Hy c Hc Hu) as (w & ? & ?). exists w. rewrite in_app_iff. auto.
Qed.
Lemma text_words :
  (forall s e, text_factor s e -> forall w, In w (words_of e) -> is_word w) /\
  (forall s e, text_product s e -> forall w, In w (words_of e) -> is_word w) /\
  (forall s e, text_sum s e -> forall w, In w (words_of e) -> is_word w).
Proof.
  apply text_ind; intros; eauto; simpl in *; try (match goal with H : In _ (_ ++ _) |- _ => apply in_app_iff in H; destruct H end; eauto; fail).
  destruct H2 as [<-|[]]. assumption.
Qed.
Lemma word_is_word s q w : text_equation s q -> In w (equation_words q) -> is_word w.
Proof.
  intros H Hin. destruct H as [x y e r g Hx Hy]. simpl in Hin. apply in_app_iff in Hin.
  destruct Hin as [Hin|Hin]; [exact (proj2 (proj2 text_words) _ _ Hx w Hin)|exact (proj2 (proj2 text_words) _ _ Hy w Hin)].
Qed.

(** ** The printed solution *)
Lemma lookup_In b x v : NoDup (map fst b) -> In (x, v) b -> lookup b x = v.
Proof.
  unfold lookup. induction b as [|[y w] b IH]; intros Hnd Hin; [contradiction|]. simpl. inversion Hnd as [|? ? Hy Hb]; subst.
  destruct (String.eqb_spec y x) as [E|E]; simpl.
  - destruct Hin as [Hin|Hin]; [congruence|]. exfalso. apply Hy. rewrite E. now apply (in_map fst) in Hin.
  - destruct Hin as [Hin|Hin]; [congruence|]. now apply IH.
Qed.
Lemma ord_nat c : ord c = Z.of_nat (nat_of_ascii c).
Proof. unfold ord, nat_of_ascii. lia. Qed.

Lemma cryptarithm_printed s q sol b :
  text_equation s q -> (forall c, In c (list_ascii_of_string s) -> ~ is_lower c) -> cry_solution q b -> Permutation sol b ->
  exists t q', print_cryptarithm_solution sol s =
      Ok (map (fun p => fst p ++ " = " ++ str_int (snd p))%string b ++ [("==> " ++ t)%string]) /\
    Forall2 (printed_char b) (list_ascii_of_string s) (list_ascii_of_string t) /\
    text_equation t q' /\ (forall w c, In w (equation_words q') -> In c w -> is_dig c) /\
    true_equation (fun _ => 0) q'.
Proof.
  intros Ht Hlow (Hkeys & Hord & Hval & Hnd & Htrue) Hp. destruct q as [e r g].
  assert (Hup : forall x, In x (map fst b) -> exists u, x = String u "" /\ is_upper u).
  { intros x Hx. apply Hkeys in Hx. destruct Hx as (w & c & u & _ & _ & [Hu _] & ->). eauto. }
  assert (Hok : letters_ok b).
  { intros x v Hx. split; [apply (Hval x v Hx)|]. apply Hup. now apply (in_map fst) in Hx. }
  assert (Hnk : NoDup (map fst b)).
  { clear - Hord. induction Hord as [|x l Hx Hl IH]; constructor; [|exact IH]. intros Hin. rewrite Forall_forall in Hx.
    destruct (Hx x Hin) as (u & v & E1 & E2 & Hlt). rewrite E1 in E2. injection E2 as ->. lia. }
  assert (Hsort : sorted_strings (dkeys sol) = map fst b).
  { apply sorted_unique; [apply sorted_sorted|now apply letters_sorted|]. rewrite sorted_perm. unfold dkeys. now apply Permutation_map. }
  assert (Hget : forall x v, In (x, v) b -> get_item sol x = Ok v).
  { intros x v Hx. unfold get_item.
    assert (E : dget sol x = Some v); [|now rewrite E].
    apply dget_NoDup.
    - unfold dkeys. eapply Permutation_NoDup; [|exact Hnk]. apply Permutation_map. now symmetry.
    - eapply Permutation_in; [symmetry; exact Hp|exact Hx]. }
  set (f := rep b).
  assert (Hf1 : forall c, ~ is_upper c -> f c = c).
  { intros c Hc. apply rep_other; [exact Hok|]. intros v Hv. destruct (Hok _ _ Hv) as (_ & u & Eu & Hu). injection Eu as <-. contradiction. }
  assert (Hf2 : forall c v, In (String c "", v) b -> f c = digit v) by (intros c v Hv; now apply rep_letter).
  assert (Hdig : forall c v, In (String c "", v) b -> is_dig (f c)).
  { intros c v Hv. rewrite (Hf2 c v Hv). unfold is_dig. rewrite digit_ord by apply (Hok _ _ Hv). pose proof (proj1 (Hok _ _ Hv)). lia. }
  inversion Ht as [x y e0 r0 g0 Hx Hy E1 E2]. subst e0 r0 g0. rewrite E1.
  assert (Hw : forall w c, In w (equation_words (Equation e r g)) -> In c w -> In c (list_ascii_of_string s)).
  { intros w c Hin Hc. rewrite <- E1, !chars_list_app, !in_app_iff. simpl in Hin. apply in_app_iff in Hin. destruct Hin as [Hin|Hin].
    - left. eapply text_chars; eassumption.
    - right. right. eapply text_chars; eassumption. }
  assert (Hlet : forall w c, In w (equation_words (Equation e r g)) -> In c w -> is_upper c -> exists v, In (String c "", v) b).
  { intros w c Hin Hc Hu. assert (Hk : In (String c "") (map fst b)).
    { apply Hkeys. exists w, c, c. repeat split; auto; apply Hu. }
    apply in_map_iff in Hk. destruct Hk as ([y' v] & E & Hk). simpl in E. subst y'. eauto. }
  assert (Hcv : forall w c v, In w (equation_words (Equation e r g)) -> In c w -> char_value (lookup b) c v -> is_dig (f c) /\ v = ord (f c) - 48).
  { intros w c v Hin Hc [[Hd ->]|(u & [Hu [->|[Hl _]]] & ->)].
    - rewrite Hf1; [auto|]. unfold is_dig, is_upper in *. lia.
    - destruct (Hlet w u Hin Hc Hu) as (v & Hv). split; [now apply Hdig with v|]. rewrite (Hf2 u v Hv), digit_ord by apply (Hok _ _ Hv).
      rewrite (lookup_In b _ v Hnk Hv). lia.
    - exfalso. apply (Hlow c); [now apply (Hw w)|exact Hl]. }
  assert (Hwf : forall c, is_dig c \/ (exists u, stands_for c u) -> is_dig (f c) \/ exists u, stands_for (f c) u).
  { intros c Hc. destruct (in_dec string_dec (String c "") (map fst b)) as [Hin|Hin].
    - left. apply in_map_iff in Hin. destruct Hin as ([y' v] & E & Hk). simpl in E. subst y'. now apply Hdig with v.
    - unfold f. rewrite rep_other; [exact Hc|exact Hok|]. intros v Hv. apply Hin. now apply (in_map fst) in Hv. }
  exists (smap f s), (Equation (emap f e) r (emap f g)). split; [|split; [|split; [|split]]].
  - unfold print_cryptarithm_solution. rewrite Hsort, (cry_lines_spec sol b Hok Hget). reflexivity.
  - rewrite smap_chars. assert (Hall : forall c, In c (list_ascii_of_string s) -> In c (list_ascii_of_string s)) by auto.
    assert (Hpc : forall c, In c (list_ascii_of_string s) -> printed_char b c (f c)).
    { intros c Hc. unfold printed_char. rewrite <- ord_nat. destruct (65 <=? ord c) eqn:E65; [destruct (ord c <=? 90) eqn:E90|]; simpl.
      - apply Z.leb_le in E65, E90. assert (Hu : is_upper c) by (split; assumption).
        destruct (upper_in_word s _ Ht c Hc Hu) as (w & Hin & Hcw). destruct (Hlet w c Hin Hcw Hu) as (v & Hv). exists v. split; [exact Hv|].
        rewrite <- ord_nat, (Hf2 c v Hv). apply digit_ord, (Hok _ _ Hv).
      - apply Hf1. unfold is_upper. apply Z.leb_gt in E90. lia.
      - apply Hf1. unfold is_upper. apply Z.leb_gt in E65. lia. }
    clear - Hpc. induction (list_ascii_of_string s) as [|c l IH]; constructor; [apply Hpc; now left|]. apply IH. intros d Hd. apply Hpc. now right.
  - now apply equation_map.
  - intros w c Hin Hc. simpl in Hin. rewrite !words_map, <- map_app in Hin. apply in_map_iff in Hin. destruct Hin as (w0 & <- & Hin).
    apply in_map_iff in Hc. destruct Hc as (c0 & <- & Hc0).
    assert (Hword : is_word w0) by (eapply word_is_word; eassumption). destruct Hword as [_ Hword]. destruct (Hword c0 Hc0) as [Hd|(u & Hu)].
    + apply (Hcv w0 c0 (ord c0 - 48) Hin Hc0). left. auto.
    + apply (Hcv w0 c0 (lookup b (String u "")) Hin Hc0). right. eauto.
  - simpl in Htrue. destruct Htrue as (m & n & Hm & Hn & Hr). exists m, n. split; [|split; [|exact Hr]].
    + apply (value_map f (lookup b) _ e m); [|exact Hm]. intros w c v Hin Hc Hv. left. apply (Hcv w c v); auto. simpl. apply in_or_app. auto.
    + apply (value_map f (lookup b) _ g n); [|exact Hn]. intros w c v Hin Hc Hv. left. apply (Hcv w c v); auto. simpl. apply in_or_app. auto.
Qed.
