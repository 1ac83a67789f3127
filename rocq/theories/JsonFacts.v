(** Proofs: the reader of JSON reads exactly the texts of the language. *)
From Verif Require Import Json SpecJson.
From Coq Require Import Ascii Lia.
Open Scope list_scope.
Open Scope Z_scope.

Lemma ws_iff : forall c, is_ws c = true <-> In (nat_of_ascii c) [32; 9; 10; 13]%nat.
Proof.
  intros c. unfold is_ws. rewrite !Bool.orb_true_iff, !Ascii.eqb_eq. split.
  - intros [[[->| ->]| ->]| ->]; cbn; tauto.
  - intros H. rewrite <- (ascii_nat_embedding c). destruct H as [<-|[<-|[<-|[<-|[]]]]]; cbn; tauto.
Qed.
Lemma blanks_nil : blanks [].
Proof. intros c []. Qed.
Lemma blanks_cons : forall c w, blanks (c :: w) <-> is_ws c = true /\ blanks w.
Proof.
  intros c w. rewrite ws_iff. split.
  - intros H. split; [apply H; now left|]. intros d Hd. apply H. now right.
  - intros [H1 H2] d [<-|Hd]; auto.
Qed.
Lemma blanks_app : forall a b, blanks a -> blanks b -> blanks (a ++ b).
Proof. intros a b Ha Hb c Hc. apply in_app_or in Hc. destruct Hc; auto. Qed.

Definition solid (l : list ascii) : Prop := match l with c :: _ => is_ws c = false | [] => True end.
Lemma skip_ws_app : forall w l, blanks w -> skip_ws (w ++ l) = skip_ws l.
Proof. induction w as [|c w IH]; intros l H; [reflexivity|]. apply blanks_cons in H. destruct H as [H1 H2]. cbn. rewrite H1. now apply IH. Qed.
Lemma skip_ws_solid : forall l, solid l -> skip_ws l = l.
Proof. destruct l as [|c l]; intros H; [reflexivity|]. cbn in *. now rewrite H. Qed.
Lemma skip_ws_split : forall l, exists w, blanks w /\ l = w ++ skip_ws l.
Proof.
  induction l as [|c l [w [Hw IH]]]; [exists []; split; [apply blanks_nil|reflexivity]|].
  cbn. destruct (is_ws c) eqn:E.
  - exists (c :: w). split; [now apply blanks_cons|]. cbn. now rewrite <- IH.
  - exists []. split; [apply blanks_nil|reflexivity].
Qed.
Lemma after_hd : forall c l, after c (c :: l) = Some l.
Proof. intros. cbn. now rewrite Ascii.eqb_refl. Qed.
Lemma after_some : forall c l r, after c l = Some r -> l = c :: r.
Proof. intros c [|d l] r H; [discriminate|]. cbn in H. destruct (Ascii.eqb c d) eqn:E; [|discriminate]. apply Ascii.eqb_eq in E. congruence. Qed.
Lemma after_ne : forall c d l, c <> d -> after c (d :: l) = None.
Proof. intros c d l H. cbn. destruct (Ascii.eqb c d) eqn:E; [|reflexivity]. apply Ascii.eqb_eq in E. contradiction. Qed.

(** ** Digits *)
Lemma digit_iff : forall c, is_digit c = true <-> exists d, decimal_digit c d.
Proof.
  intros c. unfold is_digit, decimal_digit. rewrite Bool.andb_true_iff, !Nat.leb_le. split.
  - intros [H1 H2]. exists (Z.of_nat (nat_of_ascii c) - 48). lia.
  - intros [d H]. lia.
Qed.
Lemma digit_value_of : forall c d, decimal_digit c d -> digit_value c = d.
Proof. unfold decimal_digit, digit_value. intros c d H. lia. Qed.
Lemma digit_decimal : forall c, is_digit c = true -> decimal_digit c (digit_value c).
Proof. intros c H. apply digit_iff in H. destruct H as [d H]. now rewrite (digit_value_of _ _ H). Qed.
Lemma code_inj : forall c d, nat_of_ascii c = nat_of_ascii d -> c = d.
Proof. intros c d H. rewrite <- (ascii_nat_embedding c), <- (ascii_nat_embedding d). now rewrite H. Qed.

Definition no_digit_first (l : list ascii) : Prop := match l with c :: _ => is_digit c = false | [] => True end.
Lemma span_all : forall ds rest, Forall (fun c => is_digit c = true) ds -> no_digit_first rest -> span_digits (ds ++ rest) = (ds, rest).
Proof.
  induction ds as [|c ds IH]; intros rest H Hr.
  - destruct rest as [|c rest]; [reflexivity|]. cbn in *. now rewrite Hr.
  - apply Forall_cons_iff in H. destruct H as [H1 H2]. cbn. now rewrite H1, (IH rest H2 Hr).
Qed.
Lemma span_split : forall l ds rest, span_digits l = (ds, rest) -> l = ds ++ rest /\ Forall (fun c => is_digit c = true) ds.
Proof.
  induction l as [|c l IH]; intros ds rest H; cbn in H.
  - injection H as <- <-. split; [reflexivity|constructor].
  - destruct (is_digit c) eqn:E.
    + destruct (span_digits l) as [ds' rest'] eqn:E2. injection H as <- <-. destruct (IH _ _ eq_refl) as [-> H2]. split; [reflexivity|now constructor].
    + injection H as <- <-. split; [reflexivity|constructor].
Qed.
Lemma digit_text_iff : forall l, digit_text l <-> l <> [] /\ Forall (fun c => is_digit c = true) l.
Proof.
  intros l. unfold digit_text. rewrite Forall_forall. split; intros [H1 H2]; (split; [exact H1|]); intros c Hc.
  - apply digit_iff. auto.
  - apply digit_iff. auto.
Qed.
Lemma digits_value_snoc : forall l c, digits_value (l ++ [c]) = 10 * digits_value l + digit_value c.
Proof. intros. unfold digits_value. now rewrite fold_left_app. Qed.

Lemma number_shape : forall l n, number_of l n -> l <> [] /\ Forall (fun c => is_digit c = true) l /\ digits_value l = n /\ 0 <= n /\
  (n = 0 -> l = ["0"%char]) /\ (n <> 0 -> exists c l', l = c :: l' /\ c <> "0"%char).
Proof.
  intros l n H. induction H as [c d Hd|l n c d H [I1 [I2 [I3 [I4 [I5 I6]]]]] Hd Hn].
  - assert (Hc : is_digit c = true) by (apply digit_iff; eauto).
    split; [discriminate|]. split; [repeat constructor; exact Hc|]. split; [unfold digits_value; cbn; rewrite (digit_value_of _ _ Hd); lia|].
    destruct Hd as [Hd1 Hd2]. split; [lia|]. split.
    + intros ->. f_equal. apply code_inj. cbn. lia.
    + intros Hn. exists c, []. split; [reflexivity|]. intros ->. change (Z.of_nat (nat_of_ascii "0")) with 48 in Hd2. lia.
  - assert (Hc : is_digit c = true) by (apply digit_iff; eauto).
    split; [destruct l; discriminate|]. split; [apply Forall_app; split; [exact I2|repeat constructor; exact Hc]|].
    split; [rewrite digits_value_snoc, I3, (digit_value_of _ _ Hd); reflexivity|].
    destruct Hd as [Hd1 Hd2]. split; [lia|]. split; [lia|]. intros _. destruct (I6 Hn) as [c' [l' [-> Hc']]]. exists c', (l' ++ [c]). split; [reflexivity|exact Hc'].
Qed.
Lemma digits_number : forall l, Forall (fun c => is_digit c = true) l -> (exists c l', l = c :: l' /\ c <> "0"%char) -> number_of l (digits_value l) /\ digits_value l <> 0.
Proof.
  induction l as [|c l IH] using rev_ind; intros H [c' [l' [El Hc']]]; [discriminate|].
  apply Forall_app in H. destruct H as [H1 H2]. apply Forall_cons_iff in H2. destruct H2 as [H2 _].
  pose proof (digit_decimal _ H2) as Hd.
  destruct l as [|c2 l].
  - cbn in El. injection El as <- <-. assert (Ev : digits_value [c] = digit_value c) by (unfold digits_value; cbn [fold_left]; lia). cbn [app]. rewrite Ev. split.
    + now constructor.
    + destruct Hd as [Hd1 Hd2]. intros E. apply Hc'. apply code_inj. cbn. lia.
  - cbn in El. injection El as <- <-. destruct IH as [I1 I2]; [exact H1|exists c2, l; auto|].
    rewrite digits_value_snoc. split; [now apply no_more|]. pose proof (number_shape _ _ I1) as [_ [_ [_ [I3 _]]]]. destruct Hd. lia.
Qed.

Lemma unsigned_complete : forall l n rest, number_of l n -> no_digit_first rest -> scan_unsigned (l ++ rest) = Some (n, rest).
Proof.
  intros l n rest H Hr. destruct (number_shape _ _ H) as [H1 [H2 [H3 [H4 [H5 H6]]]]]. unfold scan_unsigned.
  destruct (Z.eq_dec n 0) as [->|Hn].
  - rewrite (H5 eq_refl). cbn. reflexivity.
  - destruct (H6 Hn) as [c [l' [-> Hc]]]. change ((c :: l') ++ rest) with (c :: (l' ++ rest)). rewrite after_ne by congruence.
    change (c :: (l' ++ rest)) with ((c :: l') ++ rest). rewrite (span_all _ _ H2 Hr). now rewrite H3.
Qed.
Lemma unsigned_sound : forall l n rest, scan_unsigned l = Some (n, rest) -> exists t, l = t ++ rest /\ number_of t n.
Proof.
  intros l n rest H. unfold scan_unsigned in H. destruct (after "0" l) as [l'|] eqn:E.
  - injection H as <- <-. apply after_some in E. exists ["0"%char]. split; [exact E|]. constructor. split; [lia|reflexivity].
  - destruct (span_digits l) as [ds r] eqn:E2. destruct ds as [|c ds]; [discriminate|]. injection H as <- <-.
    destruct (span_split _ _ _ E2) as [-> Hd]. exists (c :: ds). split; [reflexivity|]. apply digits_number; [exact Hd|].
    exists c, ds. split; [reflexivity|]. intros ->. cbn in E. discriminate.
Qed.

(** ** Numbers *)
Definition stops (l : list ascii) : Prop :=
  match l with c :: _ => is_digit c = false /\ c <> "."%char /\ c <> "e"%char /\ c <> "E"%char | [] => True end.
Lemma stops_no_digit : forall l, stops l -> no_digit_first l.
Proof. intros [|c l]; cbn; tauto. Qed.
Lemma frac_none : forall l, stops l -> scan_frac l = (false, l).
Proof. intros [|c l] H; [reflexivity|]. unfold scan_frac. rewrite after_ne; [reflexivity|]. cbn in H. intuition congruence. Qed.
Lemma exp_none : forall l, stops l -> scan_exp l = (false, l).
Proof.
  intros [|c l] H; [reflexivity|]. unfold scan_exp. cbn in H. destruct H as [_ [_ [H1 H2]]].
  apply Ascii.eqb_neq in H1. apply Ascii.eqb_neq in H2. now rewrite H1, H2.
Qed.
Lemma tail_none : forall n l, stops l -> scan_tail n l = (JInt n, l).
Proof. intros n l H. unfold scan_tail. now rewrite (frac_none _ H), (exp_none _ H). Qed.
Lemma frac_some : forall f rest, frac_text f -> no_digit_first rest -> scan_frac (f ++ rest) = (true, rest).
Proof.
  intros f rest [ds [-> H]] Hr. apply digit_text_iff in H. destruct H as [H1 H2]. unfold scan_frac.
  change (("." :: ds)%char ++ rest) with ("."%char :: (ds ++ rest)). rewrite after_hd, (span_all _ _ H2 Hr). destruct ds; [congruence|reflexivity].
Qed.
Lemma digits_head : forall ds, digit_text ds -> exists c l, ds = c :: l /\ is_digit c = true /\ c <> "-"%char /\ c <> "+"%char.
Proof.
  intros ds H. apply digit_text_iff in H. destruct H as [H1 H2]. destruct ds as [|c l]; [congruence|]. apply Forall_cons_iff in H2. destruct H2 as [H2 _].
  exists c, l. split; [reflexivity|]. split; [exact H2|]. split; intros ->; discriminate.
Qed.
Lemma exp_some : forall e rest, exp_text e -> no_digit_first rest -> scan_exp (e ++ rest) = (true, rest).
Proof.
  intros x rest [e [sign [ds [-> [He [Hs H]]]]]] Hr. destruct (digits_head _ H) as [c [l [Ec [Hc1 [Hc2 Hc3]]]]].
  apply digit_text_iff in H. destruct H as [H1 H2].
  assert (Ee : (Ascii.eqb e "e" || Ascii.eqb e "E")%bool = true) by (destruct He as [<-|[<-|[]]]; reflexivity).
  unfold scan_exp. cbn [app]. rewrite Ee.
  assert (E : match (sign ++ ds) ++ rest with d :: l2 => if (Ascii.eqb d "-" || Ascii.eqb d "+")%bool then l2 else (sign ++ ds) ++ rest | [] => [] end = ds ++ rest).
  { apply Ascii.eqb_neq in Hc2. apply Ascii.eqb_neq in Hc3. destruct Hs as [<-|[<-|[<-|[]]]]; cbn [app]; [rewrite Ec; cbn [app]; now rewrite Hc2, Hc3|reflexivity|reflexivity]. }
  rewrite E, (span_all _ _ H2 Hr). destruct ds; [congruence|reflexivity].
Qed.
Lemma frac_sound : forall l b rest, scan_frac l = (b, rest) -> if b then exists f, l = f ++ rest /\ frac_text f else rest = l.
Proof.
  intros l b rest H. unfold scan_frac in H. destruct (after "." l) as [l'|] eqn:E; [|injection H as <- <-; reflexivity].
  destruct (span_digits l') as [ds r] eqn:E2. destruct ds as [|c ds]; injection H as <- <-; [reflexivity|].
  apply after_some in E. destruct (span_split _ _ _ E2) as [-> Hd]. exists ("."%char :: c :: ds). split; [exact E|]. exists (c :: ds). split; [reflexivity|].
  apply digit_text_iff. split; [discriminate|exact Hd].
Qed.
Lemma exp_sound : forall l b rest, scan_exp l = (b, rest) -> if b then exists f, l = f ++ rest /\ exp_text f else rest = l.
Proof.
  intros l b rest H. unfold scan_exp in H. destruct l as [|c l']; [injection H as <- <-; reflexivity|].
  destruct (Ascii.eqb c "e" || Ascii.eqb c "E")%bool eqn:Ec; [|injection H as <- <-; reflexivity].
  assert (He : In c ["e"%char; "E"%char]). { apply Bool.orb_true_iff in Ec. rewrite !Ascii.eqb_eq in Ec. cbn. intuition. }
  remember (match l' with d :: l2 => if (Ascii.eqb d "-" || Ascii.eqb d "+")%bool then l2 else l' | [] => [] end) as l1 eqn:El.
  assert (Hs : exists sign, l' = sign ++ l1 /\ In sign [[]; ["-"%char]; ["+"%char]]).
  { destruct l' as [|d l2]; [exists []; split; [now rewrite El|now left]|].
    destruct (Ascii.eqb d "-") eqn:D1; [|destruct (Ascii.eqb d "+") eqn:D2]; cbn in El; subst l1.
    - apply Ascii.eqb_eq in D1. subst d. exists ["-"%char]. split; [reflexivity|cbn; tauto].
    - apply Ascii.eqb_eq in D2. subst d. exists ["+"%char]. split; [reflexivity|cbn; tauto].
    - exists []. split; [reflexivity|cbn; tauto]. }
  destruct (span_digits l1) as [ds r] eqn:E2. destruct ds as [|x ds]; injection H as <- <-; [reflexivity|].
  destruct (span_split _ _ _ E2) as [E3 Hd]. destruct Hs as [sign [Es Hs]]. exists (c :: sign ++ x :: ds). split.
  - rewrite Es, E3. cbn. now rewrite <- app_assoc.
  - exists c, sign, (x :: ds). split; [reflexivity|]. split; [exact He|]. split; [exact Hs|]. apply digit_text_iff. split; [discriminate|exact Hd].
Qed.
Lemma frac_first : forall f rest, frac_text f -> no_digit_first (f ++ rest).
Proof. intros f rest [ds [-> _]]. reflexivity. Qed.
Lemma exp_first : forall e rest, exp_text e -> no_digit_first (e ++ rest) /\ after "." (e ++ rest) = None.
Proof. intros x rest [e [sign [ds [-> [He _]]]]]. destruct He as [<-|[<-|[]]]; split; reflexivity. Qed.
Lemma exp_no_frac : forall e rest, exp_text e -> scan_frac (e ++ rest) = (false, e ++ rest).
Proof. intros e rest H. unfold scan_frac. now rewrite (proj2 (exp_first _ rest H)). Qed.

Lemma signed_complete : forall l n rest, int_text l n -> no_digit_first rest -> scan_number (l ++ rest) = Some (scan_tail n rest).
Proof.
  intros l n rest H Hr. unfold scan_number. destruct H as [l n H|l n H].
  - destruct (number_shape _ _ H) as [H1 [H2 _]]. destruct l as [|c l]; [congruence|]. apply Forall_cons_iff in H2. destruct H2 as [H2 _].
    change ((c :: l) ++ rest) with (c :: (l ++ rest)) at 1. rewrite after_ne by (intros <-; discriminate). now rewrite (unsigned_complete _ _ _ H Hr).
  - change (("-" :: l)%char ++ rest) with ("-"%char :: (l ++ rest)) at 1. rewrite after_hd. now rewrite (unsigned_complete _ _ _ H Hr).
Qed.
Definition number_text (l : list ascii) (v : json) : Prop :=
  exists a n b, l = a ++ b /\ int_text a n /\ (b = [] /\ v = JInt n \/ v = JFloat /\ (frac_text b \/ exp_text b \/ exists f e, b = f ++ e /\ frac_text f /\ exp_text e)).
Lemma number_complete : forall l v rest, number_text l v -> stops rest -> scan_number (l ++ rest) = Some (v, rest).
Proof.
  intros l v rest [a [n [b [-> [Hi [[-> ->]|[-> H]]]]]]] Hr; pose proof (stops_no_digit _ Hr) as Hd.
  - rewrite app_nil_r. rewrite (signed_complete _ _ _ Hi Hd). now rewrite (tail_none _ _ Hr).
  - rewrite <- app_assoc. destruct H as [H|[H|[f [e [-> [Hf He]]]]]].
    + rewrite (signed_complete _ _ _ Hi (frac_first _ _ H)). unfold scan_tail. rewrite (frac_some _ _ H Hd), (exp_none _ Hr). reflexivity.
    + rewrite (signed_complete _ _ _ Hi (proj1 (exp_first _ _ H))). unfold scan_tail. rewrite (exp_no_frac _ _ H), (exp_some _ _ H Hd). reflexivity.
    + rewrite <- app_assoc. rewrite (signed_complete _ _ _ Hi (frac_first _ _ Hf)). unfold scan_tail.
      rewrite (frac_some _ _ Hf (proj1 (exp_first _ _ He))), (exp_some _ _ He Hd). reflexivity.
Qed.
Lemma tail_sound : forall n l v rest, scan_tail n l = (v, rest) -> exists b, l = b ++ rest /\
  (b = [] /\ v = JInt n \/ v = JFloat /\ (frac_text b \/ exp_text b \/ exists f e, b = f ++ e /\ frac_text f /\ exp_text e)).
Proof.
  intros n l v rest H. unfold scan_tail in H. destruct (scan_frac l) as [fr l1] eqn:E1. destruct (scan_exp l1) as [ex l2] eqn:E2. injection H as <- <-.
  apply frac_sound in E1. apply exp_sound in E2. destruct fr, ex; cbn in *.
  - destruct E1 as [f [-> Hf]]. destruct E2 as [e [-> He]]. exists (f ++ e). split; [now rewrite <- app_assoc|]. right. split; [reflexivity|]. right. right. eauto.
  - destruct E1 as [f [-> Hf]]. subst l2. exists f. split; [reflexivity|]. right. auto.
  - subst l1. destruct E2 as [e [-> He]]. exists e. split; [reflexivity|]. right. auto.
  - subst. exists []. split; [reflexivity|]. now left.
Qed.
Lemma number_sound : forall l v rest, scan_number l = Some (v, rest) -> exists t, l = t ++ rest /\ number_text t v.
Proof.
  intros l v rest H. unfold scan_number in H. destruct (after "-" l) as [l'|] eqn:E.
  - apply after_some in E. destruct (scan_unsigned l') as [[n r]|] eqn:E2; [|discriminate]. injection H as H.
    destruct (unsigned_sound _ _ _ E2) as [t [-> Ht]]. destruct (tail_sound _ _ _ _ H) as [b [-> Hb]]. exists (("-"%char :: t) ++ b).
    split; [now rewrite E; cbn; rewrite <- app_assoc|]. exists ("-"%char :: t), (- n), b. split; [reflexivity|]. split; [now constructor|exact Hb].
  - destruct (scan_unsigned l) as [[n r]|] eqn:E2; [|discriminate]. injection H as H.
    destruct (unsigned_sound _ _ _ E2) as [t [-> Ht]]. destruct (tail_sound _ _ _ _ H) as [b [-> Hb]]. exists (t ++ b).
    split; [now rewrite <- app_assoc|]. exists t, n, b. split; [reflexivity|]. split; [now constructor|exact Hb].
Qed.
Lemma number_value : forall l v, number_text l v -> value_text l v.
Proof.
  intros l v [a [n [b [-> [Hi [[-> ->]|[-> H]]]]]]].
  - rewrite app_nil_r. now constructor.
  - destruct H as [H|[H|[f [e [-> [Hf He]]]]]]; [now apply vt_frac with n|now apply vt_exp with n|now apply vt_frac_exp with n].
Qed.

(** ** Strings *)
Lemma hex_iff : forall c d, hex_of c d <-> hex_value c = Some d.
Proof.
  intros c d. split.
  - intros [Hd H]. do 16 (destruct d as [|d]; [destruct H as [H|H]; injection H as <-; reflexivity|]). lia.
  - intros H. destruct c as [[] [] [] [] [] [] [] []]; vm_compute in H; try discriminate H; injection H as <-; (split; [lia|]); cbn; tauto.
Qed.
Lemma simple_iff : forall e c, In (e, c) [("""", """"); ("\", "\"); ("/", "/"); ("b", "008"); ("f", "012"); ("n", "010"); ("r", "013"); ("t", "009")]%char <-> simple_escape e = Some c.
Proof.
  intros e c. split.
  - intros H. cbn in H. repeat destruct H as [H|H]; try contradiction H; injection H as <- <-; reflexivity.
  - intros H. unfold simple_escape in H.
    repeat match type of H with (if Ascii.eqb e ?d then _ else _) = _ => let E := fresh "E" in destruct (Ascii.eqb e d) eqn:E; [apply Ascii.eqb_eq in E; subst e; injection H as <-; cbn; tauto|] end.
    discriminate H.
Qed.
Lemma unicode_iff : forall h1 h2 h3 h4 n, unicode_escape h1 h2 h3 h4 = Some n <->
  exists i j k l, hex_of h1 i /\ hex_of h2 j /\ hex_of h3 k /\ hex_of h4 l /\ n = 4096 * Z.of_nat i + 256 * Z.of_nat j + 16 * Z.of_nat k + Z.of_nat l.
Proof.
  intros h1 h2 h3 h4 c. split.
  - unfold unicode_escape. destruct (hex_value h1) as [i|] eqn:E1; try discriminate. destruct (hex_value h2) as [j|] eqn:E2; try discriminate.
    destruct (hex_value h3) as [k|] eqn:E3; try discriminate. destruct (hex_value h4) as [l|] eqn:E4; try discriminate.
    intros H. injection H as <-. exists i, j, k, l. rewrite !hex_iff. auto 10.
  - intros [i [j [k [l [H1 [H2 [H3 [H4 ->]]]]]]]]. apply hex_iff in H1, H2, H3, H4. unfold unicode_escape. now rewrite H1, H2, H3, H4.
Qed.
Lemma char_complete : forall l c rest, char_text l c -> scan_units (l ++ rest) = bind (scan_units rest) (fun r => Ok (c :: fst r, snd r)).
Proof.
  intros l c rest H. destruct H as [c H1 H2 H3|e c H|h1 h2 h3 h4 i j k m H1 H2 H3 H4].
  - cbn [app scan_units]. apply Ascii.eqb_neq in H2, H3. rewrite H2, H3. destruct (Nat.ltb_spec (nat_of_ascii c) 32); [lia|reflexivity].
  - pose proof (proj1 (simple_iff _ _) H) as H'. cbn [app scan_units]. change (Ascii.eqb "\" """") with false. change (nat_of_ascii "\" <? 32)%nat with false. change (Ascii.eqb "\" "\") with true. cbv iota.
    destruct (Ascii.eqb e "u") eqn:E; [apply Ascii.eqb_eq in E; subst e; discriminate H'|]. now rewrite H'.
  - assert (E : unicode_escape h1 h2 h3 h4 = Some (4096 * Z.of_nat i + 256 * Z.of_nat j + 16 * Z.of_nat k + Z.of_nat m)) by (apply unicode_iff; exists i, j, k, m; auto 10).
    cbn [app scan_units]. change (Ascii.eqb "\" """") with false. change (nat_of_ascii "\" <? 32)%nat with false. change (Ascii.eqb "\" "\") with true. change (Ascii.eqb "u" "u") with true. cbv iota.
    rewrite E. reflexivity.
Qed.
Lemma units_complete : forall l s rest, units_text l s -> scan_units (l ++ """"%char :: rest) = Ok (s, rest).
Proof.
  intros l s rest H. induction H as [|l c l' s Hc H IH]; [reflexivity|]. rewrite <- app_assoc, (char_complete _ _ _ Hc), IH. reflexivity.
Qed.
Lemma units_sound : forall k l s rest, (length l <= k)%nat -> scan_units l = Ok (s, rest) -> exists t, l = t ++ """"%char :: rest /\ units_text t s.
Proof.
  induction k as [|k IH]; intros l s rest Hk H; destruct l as [|c l]; try discriminate H; cbn in Hk; try lia.
  cbn [scan_units] in H. destruct (Ascii.eqb c """") eqn:Eq.
  - injection H as <- <-. apply Ascii.eqb_eq in Eq. subst c. exists []. split; [reflexivity|constructor].
  - destruct (Nat.ltb_spec (nat_of_ascii c) 32) as [|Hc]; [discriminate|]. destruct (Ascii.eqb c "\") eqn:Eb.
    + apply Ascii.eqb_eq in Eb. subst c. destruct l as [|e l]; [discriminate|]. cbn in Hk. destruct (Ascii.eqb e "u") eqn:Eu.
      * apply Ascii.eqb_eq in Eu. subst e. destruct l as [|h1 [|h2 [|h3 [|h4 l]]]]; try discriminate H. destruct (unicode_escape h1 h2 h3 h4) as [a|] eqn:Ea; [|discriminate].
        destruct (scan_units l) as [[s' r]|] eqn:Es; [|discriminate]. injection H as <- <-. cbn in Hk. destruct (IH l s' r ltac:(lia) Es) as [t [-> Ht]].
        apply unicode_iff in Ea. destruct Ea as [i [j [n [m [H1 [H2 [H3 [H4 ->]]]]]]]].
        exists (["\"; "u"; h1; h2; h3; h4]%char ++ t). split; [reflexivity|]. constructor; [now constructor|exact Ht].
      * destruct (simple_escape e) as [a|] eqn:Ea; [|discriminate]. destruct (scan_units l) as [[s' r]|] eqn:Es; [|discriminate]. injection H as <- <-.
        destruct (IH l s' r ltac:(lia) Es) as [t [-> Ht]]. exists (["\"; e]%char ++ t). split; [reflexivity|]. constructor; [|exact Ht]. constructor. now apply simple_iff.
    + destruct (scan_units l) as [[s' r]|] eqn:Es; [|discriminate]. injection H as <- <-. destruct (IH l s' r ltac:(lia) Es) as [t [-> Ht]].
      exists ([c] ++ t). split; [reflexivity|]. constructor; [|exact Ht]. apply Ascii.eqb_neq in Eq, Eb. now constructor.
Qed.

Definition bytes_of (s : string) : list Z := map (fun c => Z.of_nat (nat_of_ascii c)) (list_ascii_of_string s).
Lemma bytes_inj : forall s t, bytes_of s = bytes_of t -> s = t.
Proof.
  induction s as [|c s IH]; intros [|d t] E; try discriminate; [reflexivity|]. unfold bytes_of in E. cbn [list_ascii_of_string map] in E. injection E as E1 E2. rewrite (IH t E2).
  assert (E3 : nat_of_ascii c = nat_of_ascii d) by lia. apply (f_equal ascii_of_nat) in E3. rewrite !ascii_nat_embedding in E3. now rewrite E3.
Qed.
Lemma bytes_app : forall s t, bytes_of (s ++ t)%string = bytes_of s ++ bytes_of t.
Proof. induction s as [|c s IH]; intros t; [reflexivity|]. unfold bytes_of in *. cbn. now rewrite IH. Qed.
Lemma utf8_encoded : forall n, 0 <= n < 1114112 -> encoded n (utf8 n).
Proof.
  intros n Hn. unfold utf8. destruct (Z.ltb_spec n 128); [now constructor|]. assert (M : 0 <= n mod 64 < 64) by (apply Z.mod_pos_bound; lia). pose proof (Z.div_mod n 64 ltac:(lia)) as E1.
  destruct (Z.ltb_spec n 2048).
  - assert (E : n = 64 * (n / 64) + n mod 64) by exact E1. rewrite E at 1. constructor; [|exact M|lia]. split; [apply Z.div_pos; lia|apply Z.div_lt_upper_bound; lia].
  - assert (M2 : 0 <= (n / 64) mod 64 < 64) by (apply Z.mod_pos_bound; lia). pose proof (Z.div_mod (n / 64) 64 ltac:(lia)) as E2. rewrite Z.div_div in E2 by lia. change (64 * 64) with 4096 in E2.
    destruct (Z.ltb_spec n 65536).
    + assert (E : n = 4096 * (n / 4096) + 64 * ((n / 64) mod 64) + n mod 64) by lia. rewrite E at 1. constructor; try assumption; [|lia]. split; [apply Z.div_pos; lia|apply Z.div_lt_upper_bound; lia].
    + assert (M3 : 0 <= (n / 4096) mod 64 < 64) by (apply Z.mod_pos_bound; lia). pose proof (Z.div_mod (n / 4096) 64 ltac:(lia)) as E3. rewrite Z.div_div in E3 by lia. change (4096 * 64) with 262144 in E3.
      assert (E : n = 262144 * (n / 262144) + 4096 * ((n / 4096) mod 64) + 64 * ((n / 64) mod 64) + n mod 64) by lia. rewrite E at 1. constructor; try assumption; [|lia].
      split; [apply Z.div_pos; lia|apply Z.div_lt_upper_bound; lia].
Qed.
Lemma encoded_bound : forall n bs, encoded n bs -> forall b, In b bs -> 0 <= b < 256.
Proof. intros n bs H b Hb. destruct H; cbn [In] in Hb; repeat (destruct Hb as [<-|Hb]; [lia|]); contradiction. Qed.
Lemma encoded_unique : forall n bs, encoded n bs -> bs = utf8 n.
Proof.
  intros n bs H. unfold utf8. destruct H as [n H|a b Ha Hb H|a b c Ha Hb Hc H|a b c d Ha Hb Hc Hd H].
  - destruct (Z.ltb_spec n 128); [reflexivity|lia].
  - destruct (Z.ltb_spec (64 * a + b) 128); [lia|]. destruct (Z.ltb_spec (64 * a + b) 2048); [|lia].
    assert (E1 : (64 * a + b) / 64 = a) by (symmetry; apply (Z.div_unique _ _ a b); lia). assert (E2 : (64 * a + b) mod 64 = b) by (symmetry; apply (Z.mod_unique _ _ a b); lia). now rewrite E1, E2.
  - set (n := 4096 * a + 64 * b + c) in *. destruct (Z.ltb_spec n 128); [lia|]. destruct (Z.ltb_spec n 2048); [lia|]. destruct (Z.ltb_spec n 65536); [|lia].
    assert (E1 : n / 4096 = a) by (symmetry; apply (Z.div_unique _ _ a (64 * b + c)); lia). assert (E2 : n mod 64 = c) by (symmetry; apply (Z.mod_unique _ _ (64 * a + b) c); lia).
    assert (E3 : n / 64 = 64 * a + b) by (symmetry; apply (Z.div_unique _ _ (64 * a + b) c); lia). assert (E4 : (64 * a + b) mod 64 = b) by (symmetry; apply (Z.mod_unique _ _ a b); lia).
    now rewrite E1, E2, E3, E4.
  - set (n := 262144 * a + 4096 * b + 64 * c + d) in *. destruct (Z.ltb_spec n 128); [lia|]. destruct (Z.ltb_spec n 2048); [lia|]. destruct (Z.ltb_spec n 65536); [lia|].
    assert (E1 : n / 262144 = a) by (symmetry; apply (Z.div_unique _ _ a (4096 * b + 64 * c + d)); lia). assert (E2 : n mod 64 = d) by (symmetry; apply (Z.mod_unique _ _ (4096 * a + 64 * b + c) d); lia).
    assert (E3 : n / 64 = 4096 * a + 64 * b + c) by (symmetry; apply (Z.div_unique _ _ (4096 * a + 64 * b + c) d); lia).
    assert (E4 : (4096 * a + 64 * b + c) mod 64 = c) by (symmetry; apply (Z.mod_unique _ _ (64 * a + b) c); lia).
    assert (E5 : n / 4096 = 64 * a + b) by (symmetry; apply (Z.div_unique _ _ (64 * a + b) (64 * c + d)); lia).
    assert (E6 : (64 * a + b) mod 64 = b) by (symmetry; apply (Z.mod_unique _ _ a b); lia). now rewrite E1, E2, E3, E4, E5, E6.
Qed.
Lemma utf8_bytes : forall n, 0 <= n < 1114112 -> bytes_of (utf8_text n) = utf8 n.
Proof.
  intros n Hn. pose proof (encoded_bound _ _ (utf8_encoded n Hn)) as Hb. unfold utf8_text, bytes_of. rewrite list_ascii_of_string_of_list_ascii, map_map.
  rewrite <- (map_id (utf8 n)) at 2. apply map_ext_in. intros b H. specialize (Hb b H). unfold byte. rewrite nat_ascii_embedding by lia. lia.
Qed.
Lemma hex_bound : forall c d, hex_of c d -> 0 <= Z.of_nat d < 16.
Proof. intros c d [H _]. lia. Qed.
Definition code_ok (u : junit) : Prop := match u with Byte _ => True | Code n => 0 <= n < 65536 end.
Lemma units_ok : forall l us, units_text l us -> Forall code_ok us.
Proof.
  intros l us H. induction H as [|l u l' us Hu H IH]; constructor; [|exact IH]. destruct Hu as [| |h1 h2 h3 h4 i j k m H1 H2 H3 H4]; unfold code_ok; auto.
  apply hex_bound in H1, H2, H3, H4. lia.
Qed.
Lemma join_characters : forall k us, (length us <= k)%nat -> Forall code_ok us -> characters us (bytes_of (join_units us)).
Proof.
  induction k as [|k IH]; intros us Hk Hok; destruct us as [|u us]; try (cbn in Hk; lia); try constructor. cbn in Hk. inversion Hok as [|? ? Hu Hus]; subst.
  destruct u as [c|n]; cbn [join_units].
  - unfold bytes_of. cbn [list_ascii_of_string map]. constructor. apply IH; [lia|exact Hus].
  - cbn in Hu. assert (S : ~ (high n /\ exists m us', low m /\ us = Code m :: us') -> characters (Code n :: us) (bytes_of (utf8_text n ++ join_units us)%string)).
    { intros Hn. rewrite bytes_app, utf8_bytes by lia. constructor; [exact Hn|apply utf8_encoded; lia|apply IH; [lia|exact Hus]]. }
    destruct us as [|[c|m] us]; try (apply S; intros [_ [m' [us' [_ E]]]]; discriminate E).
    destruct (((55296 <=? n) && (n <=? 56319)) && ((56320 <=? m) && (m <=? 57343))) eqn:E.
    + apply Bool.andb_true_iff in E. destruct E as [E1 E2]. apply Bool.andb_true_iff in E1, E2. rewrite !Z.leb_le in *. rewrite bytes_app, utf8_bytes by lia.
      constructor; [unfold high; lia|unfold low; lia|apply utf8_encoded; lia|]. cbn in Hk. inversion Hus; subst. apply IH; [lia|assumption].
    + apply S. intros [Hh [m' [us' [Hl E']]]]. injection E' as <- <-. unfold high, low in *. apply Bool.andb_false_iff in E. rewrite !Bool.andb_false_iff, !Z.leb_gt in E. lia.
Qed.
Lemma characters_unique : forall us bs, characters us bs -> forall bs', characters us bs' -> bs = bs'.
Proof.
  intros us bs H. induction H as [|c us bs H IH|n m us u bs Hh Hl He H IH|n us u bs Hn He H IH]; intros bs' H'; inversion H'; subst.
  - reflexivity.
  - f_equal. now apply IH.
  - f_equal; [|now apply IH]. apply encoded_unique in He. match goal with H2 : encoded _ _ |- _ => apply encoded_unique in H2 end. congruence.
  - exfalso. match goal with H2 : ~ _ |- _ => apply H2 end. eauto.
  - exfalso. apply Hn. eauto.
  - f_equal; [|now apply IH]. apply encoded_unique in He. match goal with H2 : encoded _ _ |- _ => apply encoded_unique in H2 end. congruence.
Qed.
Lemma string_complete : forall l s rest, string_text l s -> scan_string (l ++ """"%char :: rest) = Ok (s, rest).
Proof.
  intros l s rest [us [bs [H1 [H2 H3]]]]. unfold scan_string. rewrite (units_complete _ _ _ H1). cbn [bind fst snd]. do 2 f_equal. apply bytes_inj. unfold bytes_of at 2. rewrite H3.
  exact (characters_unique _ _ (join_characters _ _ (le_n _) (units_ok _ _ H1)) _ H2).
Qed.
Lemma string_sound : forall k l s rest, (length l <= k)%nat -> scan_string l = Ok (s, rest) -> exists t, l = t ++ """"%char :: rest /\ string_text t s.
Proof.
  intros k l s rest Hk H. unfold scan_string in H. destruct (scan_units l) as [[us r]|] eqn:E; [|discriminate]. cbn [bind fst snd] in H. injection H as <- <-.
  destruct (units_sound k l us r Hk E) as [t [-> Ht]]. exists t. split; [reflexivity|]. exists us, (bytes_of (join_units us)). split; [exact Ht|]. split; [|reflexivity].
  exact (join_characters _ _ (le_n _) (units_ok _ _ Ht)).
Qed.

(** ** Literals *)
Lemma strip_iff : forall p l r, strip_prefix p l = Some r <-> l = p ++ r.
Proof.
  induction p as [|c p IH]; intros l r; cbn; [split; congruence|]. destruct l as [|d l]; [split; discriminate|].
  destruct (Ascii.eqb c d) eqn:E.
  - apply Ascii.eqb_eq in E. subst d. rewrite IH. split; congruence.
  - apply Ascii.eqb_neq in E. split; [discriminate|congruence].
Qed.
Lemma literal_sound : forall ls l v rest, scan_literal ls l = Some (v, rest) -> exists p, In (p, v) ls /\ l = list_ascii_of_string p ++ rest.
Proof.
  induction ls as [|[p w] ls IH]; intros l v rest H; cbn in H; [discriminate|]. destruct (strip_prefix (list_ascii_of_string p) l) as [r|] eqn:E.
  - injection H as <- <-. apply strip_iff in E. exists p. split; [now left|exact E].
  - destruct (IH _ _ _ H) as [q [H1 H2]]. exists q. split; [now right|exact H2].
Qed.
Lemma number_head : forall l v, number_text l v -> exists c l', l = c :: l' /\
  (is_digit c = true \/ c = "-"%char /\ exists d l2, l' = d :: l2 /\ is_digit d = true).
Proof.
  intros l v [a [n [b [-> [Hi _]]]]]. destruct Hi as [a n H|a n H]; destruct (number_shape _ _ H) as [H1 [H2 _]]; (destruct a as [|c a]; [congruence|]);
    apply Forall_cons_iff in H2; destruct H2 as [H2 _]; cbn [app].
  - exists c, (a ++ b). auto.
  - exists "-"%char, (c :: a ++ b). split; [reflexivity|]. right. split; [reflexivity|]. eauto.
Qed.
Lemma literal_number : forall l v rest, number_text l v -> scan_literal literals (l ++ rest) = None.
Proof.
  intros l v rest H. destruct (scan_literal literals (l ++ rest)) as [[w r]|] eqn:E; [|reflexivity]. exfalso.
  destruct (number_head _ _ H) as [c [l' [-> Hc]]]. apply literal_sound in E. destruct E as [p [Hp E]].
  cbn in Hp. repeat destruct Hp as [Hp|Hp]; try contradiction Hp; injection Hp as <- <-; cbn in E; injection E as -> E; destruct Hc as [Hc|[Hc Hd]]; try discriminate Hc.
  destruct Hd as [d [l2 [-> Hd]]]. cbn in E. injection E as -> _. discriminate Hd.
Qed.

(** ** Values *)
Scheme value_mind := Minimality for value_text Sort Prop
with items_mind := Minimality for items_text Sort Prop
with members_mind := Minimality for members_text Sort Prop.
Combined Scheme texts_mind from value_mind, items_mind, members_mind.

Lemma stops_ws : forall w c l, blanks w -> stops (c :: l) -> stops (w ++ c :: l).
Proof.
  intros [|d w] c l Hw H; [exact H|]. apply blanks_cons in Hw. destruct Hw as [Hd _]. apply ws_iff in Hd. cbn [app stops].
  assert (Hn : forall x, In x [46; 101; 69]%nat \/ (48 <= x <= 57)%nat -> nat_of_ascii d <> x) by (intros x; cbn in *; lia).
  split; [|split; [|split]].
  - unfold is_digit. destruct (Nat.leb_spec 48 (nat_of_ascii d)); [|reflexivity]. destruct (Nat.leb_spec (nat_of_ascii d) 57); [|reflexivity].
    exfalso. apply (Hn (nat_of_ascii d)); [lia|reflexivity].
  - intros ->. apply (Hn 46%nat); [cbn; tauto|reflexivity].
  - intros ->. apply (Hn 101%nat); [cbn; tauto|reflexivity].
  - intros ->. apply (Hn 69%nat); [cbn; tauto|reflexivity].
Qed.
Lemma stops_blanks : forall w, blanks w -> stops w.
Proof.
  intros w Hw. destruct w as [|c w]; [exact I|]. assert (H : stops ((c :: w) ++ [","%char])) by (apply stops_ws; [exact Hw|repeat split; discriminate]). exact H.
Qed.

(** The first character of the text of a value. *)
Definition opens (l : list ascii) : Prop := exists c l', l = c :: l' /\ is_ws c = false /\ c <> "]"%char.
Lemma digit_opens : forall c, is_digit c = true -> is_ws c = false /\ c <> "]"%char.
Proof. intros c H. unfold is_digit in H. apply Bool.andb_true_iff in H. rewrite !Nat.leb_le in H. split.
  - destruct (is_ws c) eqn:E; [|reflexivity]. apply ws_iff in E. cbn in E. lia.
  - intros ->. cbn in H. lia.
Qed.
Lemma number_opens : forall l v, number_text l v -> opens l.
Proof.
  intros l v H. destruct (number_head _ _ H) as [c [l' [-> [Hc|[-> _]]]]]; [|exists "-"%char, l'; repeat split; discriminate].
  exists c, l'. destruct (digit_opens _ Hc) as [H1 H2]. auto.
Qed.
Lemma value_opens : forall l v, value_text l v -> opens l.
Proof.
  intros l v H. destruct H; try (eexists; eexists; split; [reflexivity|split; [reflexivity|discriminate]]).
  - destruct H as [<-|[<-|[<-|[]]]]; (eexists; eexists; split; [reflexivity|split; [reflexivity|discriminate]]).
  - apply (number_opens l (JInt n)). exists l, n, []. rewrite app_nil_r. auto.
  - apply (number_opens _ JFloat). exists l, n, f. auto 10.
  - apply (number_opens _ JFloat). exists l, n, e. auto 10.
  - apply (number_opens _ JFloat). exists l, n, (f ++ e). split; [reflexivity|]. split; [assumption|]. right. split; [reflexivity|]. right. right. eauto.
Qed.
Lemma opens_solid : forall l r, opens l -> solid (l ++ r).
Proof. intros l r [c [l' [-> [H _]]]]. exact H. Qed.
Lemma opens_after : forall l r, opens l -> after "]" (l ++ r) = None.
Proof. intros l r [c [l' [-> [_ H]]]]. apply after_ne. congruence. Qed.

Lemma scan_number_value : forall l v fuel rest, number_text l v -> (length l <= fuel)%nat -> stops rest -> scan_once fuel (l ++ rest) = Ok (v, rest).
Proof.
  intros l v fuel rest H Hf Hr. destruct (number_head _ _ H) as [c [l' [El Hc]]]. destruct fuel as [|fuel]; [subst l; cbn in Hf; lia|].
  assert (H1 : Ascii.eqb c """" = false /\ Ascii.eqb c "[" = false /\ Ascii.eqb c "{" = false).
  { destruct Hc as [Hc|[-> _]]; [|repeat split; reflexivity]. repeat split; apply Ascii.eqb_neq; intros ->; discriminate Hc. }
  destruct H1 as [H1 [H2 H3]]. pose proof (number_complete _ _ _ H Hr) as Hn. pose proof (literal_number _ _ rest H) as Hl. rewrite El in *. cbn [app] in *.
  cbn [scan_once]. now rewrite H1, H2, H3, Hl, Hn.
Qed.

Definition P_value (l : list ascii) (v : json) : Prop := forall fuel rest, (length l <= fuel)%nat -> stops rest -> scan_once fuel (l ++ rest) = Ok (v, rest).
Definition P_items (l : list ascii) (vs : list json) : Prop := forall fuel rest, (length l < fuel)%nat ->
  after "]" (skip_ws (l ++ "]"%char :: rest)) = None /\ scan_items fuel (skip_ws (l ++ "]"%char :: rest)) = Ok (vs, rest).
Definition P_members (l : list ascii) (kvs : list (string * json)) : Prop := forall fuel d rest, (length l < fuel)%nat ->
  after "}" (skip_ws (l ++ "}"%char :: rest)) = None /\ scan_members fuel d (skip_ws (l ++ "}"%char :: rest)) = Ok (dict_of kvs d, rest).

Lemma literal_value : forall p v fuel rest, In (p, v) literals -> (length (list_ascii_of_string p) <= fuel)%nat -> scan_once fuel (list_ascii_of_string p ++ rest) = Ok (v, rest).
Proof.
  intros p v fuel rest H Hf. destruct fuel as [|fuel]; cbn in H; repeat destruct H as [H|H]; try contradiction H; injection H as <- <-; cbn in Hf; try lia; reflexivity.
Qed.
Ltac ln := repeat (rewrite ?app_length in *; cbn [length app] in *); lia.
Lemma complete_all : (forall l v, value_text l v -> P_value l v) /\ (forall l vs, items_text l vs -> P_items l vs) /\ (forall l kvs, members_text l kvs -> P_members l kvs).
Proof.
  apply texts_mind; unfold P_value, P_items, P_members.
  - intros fuel rest Hf _. apply (literal_value "null"); [cbn; tauto|exact Hf].
  - intros fuel rest Hf _. apply (literal_value "true"); [cbn; tauto|exact Hf].
  - intros fuel rest Hf _. apply (literal_value "false"); [cbn; tauto|exact Hf].
  - intros s Hs fuel rest Hf _. apply (literal_value s); [|exact Hf]. destruct Hs as [<-|[<-|[<-|[]]]]; cbn; tauto.
  - intros l n H fuel rest Hf Hr. apply scan_number_value; [|exact Hf|exact Hr]. exists l, n, []. rewrite app_nil_r. auto.
  - intros l n f H1 H2 fuel rest Hf Hr. apply scan_number_value; [|exact Hf|exact Hr]. exists l, n, f. auto 10.
  - intros l n f H1 H2 fuel rest Hf Hr. apply scan_number_value; [|exact Hf|exact Hr]. exists l, n, f. auto 10.
  - intros l n f e H1 H2 H3 fuel rest Hf Hr. apply scan_number_value; [|exact Hf|exact Hr]. exists l, n, (f ++ e). split; [reflexivity|]. split; [assumption|]. right. split; [reflexivity|]. right. right. eauto.
  - intros l s H fuel rest Hf Hr. destruct fuel as [|fuel]; [ln|]. cbn [app scan_once]. change (Ascii.eqb """" """") with true. cbv iota.
    rewrite <- app_assoc. cbn [app]. rewrite (string_complete _ _ _ H). reflexivity.
  - intros w Hw fuel rest Hf Hr. destruct fuel as [|fuel]; [ln|]. cbn [app scan_once]. change (Ascii.eqb "[" """") with false. change (Ascii.eqb "[" "[") with true. cbv iota zeta.
    rewrite <- app_assoc, (skip_ws_app _ _ Hw). reflexivity.
  - intros l vs H IH fuel rest Hf Hr. destruct fuel as [|fuel]; [ln|]. cbn [app scan_once]. change (Ascii.eqb "[" """") with false. change (Ascii.eqb "[" "[") with true. cbv iota zeta.
    rewrite <- app_assoc. cbn [app]. destruct (IH fuel rest) as [I1 I2]; [ln|]. rewrite I1, I2. reflexivity.
  - intros w Hw fuel rest Hf Hr. destruct fuel as [|fuel]; [ln|]. cbn [app scan_once]. change (Ascii.eqb "{" """") with false. change (Ascii.eqb "{" "[") with false. change (Ascii.eqb "{" "{") with true. cbv iota zeta.
    rewrite <- app_assoc, (skip_ws_app _ _ Hw). reflexivity.
  - intros l kvs H IH fuel rest Hf Hr. destruct fuel as [|fuel]; [ln|]. cbn [app scan_once]. change (Ascii.eqb "{" """") with false. change (Ascii.eqb "{" "[") with false. change (Ascii.eqb "{" "{") with true. cbv iota zeta.
    rewrite <- app_assoc. cbn [app]. destruct (IH fuel [] rest) as [I1 I2]; [ln|]. rewrite I1, I2. reflexivity.
  - intros w1 l v w2 H1 H IH H2 fuel rest Hf. pose proof (value_opens _ _ H) as Ho. rewrite <- !app_assoc, (skip_ws_app _ _ H1).
    rewrite (skip_ws_solid _ (opens_solid _ _ Ho)). split; [now apply opens_after|]. destruct fuel as [|fuel]; [ln|]. cbn [scan_items].
    rewrite IH; [|ln|apply stops_ws; [exact H2|repeat split; discriminate]]. cbn [bind fst snd]. rewrite (skip_ws_app _ _ H2). reflexivity.
  - intros w1 l v w2 ls vs H1 H IH H2 _ IHs fuel rest Hf. pose proof (value_opens _ _ H) as Ho. rewrite <- !app_assoc, (skip_ws_app _ _ H1).
    rewrite (skip_ws_solid _ (opens_solid _ _ Ho)). split; [now apply opens_after|]. destruct fuel as [|fuel]; [ln|]. cbn [scan_items].
    rewrite IH; [|ln|apply stops_ws; [exact H2|repeat split; discriminate]]. cbn [bind fst snd]. rewrite (skip_ws_app _ _ H2). cbn [app].
    destruct (IHs fuel rest) as [I1 I2]; [ln|]. change (skip_ws ("," :: (ls ++ "]" :: rest))%char) with ("," :: (ls ++ "]" :: rest))%char.
    rewrite after_hd, after_ne by discriminate. rewrite I2. reflexivity.
  - intros w1 k s w2 w3 l v w4 H1 Hk H2 H3 H IH H4 fuel d rest Hf. repeat (rewrite <- ?app_assoc; cbn [app]). rewrite (skip_ws_app _ _ H1).
    pose proof (value_opens _ _ H) as Ho.
    rewrite (skip_ws_solid (""""%char :: _)) by reflexivity. split; [reflexivity|]. destruct fuel as [|fuel]; [ln|]. cbn [scan_members]. rewrite after_hd.
    rewrite (string_complete _ _ _ Hk). cbn [bind fst snd]. rewrite (skip_ws_app _ _ H2), (skip_ws_solid (":"%char :: _)) by reflexivity. rewrite after_hd.
    rewrite (skip_ws_app _ _ H3), (skip_ws_solid _ (opens_solid _ _ Ho)). rewrite IH; [|ln|apply stops_ws; [exact H4|repeat split; discriminate]].
    cbn [bind fst snd]. rewrite (skip_ws_app _ _ H4). reflexivity.
  - intros w1 k s w2 w3 l v w4 ls kvs H1 Hk H2 H3 H IH H4 _ IHs fuel d rest Hf. repeat (rewrite <- ?app_assoc; cbn [app]). rewrite (skip_ws_app _ _ H1).
    pose proof (value_opens _ _ H) as Ho.
    rewrite (skip_ws_solid (""""%char :: _)) by reflexivity. split; [reflexivity|]. destruct fuel as [|fuel]; [ln|]. cbn [scan_members]. rewrite after_hd.
    rewrite (string_complete _ _ _ Hk). cbn [bind fst snd]. rewrite (skip_ws_app _ _ H2), (skip_ws_solid (":"%char :: _)) by reflexivity. rewrite after_hd.
    rewrite (skip_ws_app _ _ H3), (skip_ws_solid _ (opens_solid _ _ Ho)). rewrite IH; [|ln|apply stops_ws; [exact H4|repeat split; discriminate]].
    cbn [bind fst snd]. rewrite (skip_ws_app _ _ H4), (skip_ws_solid (","%char :: _)) by reflexivity. rewrite after_hd, after_ne by discriminate.
    cbn [dict_of]. apply (IHs fuel (dset d s v) rest). ln.
Qed.

(** ** Soundness *)
Lemma items_blank : forall w l vs, blanks w -> items_text l vs -> items_text (w ++ l) vs.
Proof. intros w l vs Hw H. destruct H; rewrite app_assoc; constructor; auto using blanks_app. Qed.
Lemma members_blank : forall w l kvs, blanks w -> members_text l kvs -> members_text (w ++ l) kvs.
Proof. intros w l vs Hw H. destruct H; rewrite app_assoc; constructor; auto using blanks_app. Qed.
Definition S_value fuel := forall l v rest, scan_once fuel l = Ok (v, rest) -> exists t, l = t ++ rest /\ value_text t v.
Definition S_items fuel := forall l vs rest, scan_items fuel l = Ok (vs, rest) -> exists t, l = t ++ "]"%char :: rest /\ items_text t vs.
Definition S_members fuel := forall d l d' rest, scan_members fuel d l = Ok (d', rest) -> exists t kvs, l = t ++ "}"%char :: rest /\ members_text t kvs /\ d' = dict_of kvs d.
Lemma sound_all : forall fuel, S_value fuel /\ S_items fuel /\ S_members fuel.
Proof.
  induction fuel as [|fuel [IHv [IHi IHm]]].
  { split; [|split]; intros ?; intros; discriminate. }
  split; [|split].
  - intros l v rest H. destruct l as [|c l]; [discriminate|]. cbn [scan_once] in H. destruct (Ascii.eqb c """") eqn:E1.
    { apply Ascii.eqb_eq in E1. subst c. destruct (scan_string l) as [[s r]|] eqn:Es; [|discriminate]. injection H as <- <-.
      destruct (string_sound _ _ _ _ (le_n _) Es) as [t [-> Ht]]. exists (""""%char :: t ++ [""""%char]). split; [cbn; now rewrite <- app_assoc|now constructor]. }
    destruct (Ascii.eqb c "[") eqn:E2.
    { apply Ascii.eqb_eq in E2. subst c. cbv zeta in H. destruct (skip_ws_split l) as [w [Hw El]]. destruct (after "]" (skip_ws l)) as [r|] eqn:Ea.
      - injection H as <- <-. apply after_some in Ea. exists ("["%char :: w ++ ["]"%char]). split; [rewrite El, Ea; cbn; now rewrite <- app_assoc|now constructor].
      - destruct (scan_items fuel (skip_ws l)) as [[vs r]|] eqn:Ei; [|discriminate]. injection H as <- <-. destruct (IHi _ _ _ Ei) as [t [Et Ht]].
        exists ("["%char :: (w ++ t) ++ ["]"%char]). split; [rewrite El, Et; cbn; now rewrite <- !app_assoc|]. constructor. now apply items_blank. }
    destruct (Ascii.eqb c "{") eqn:E3.
    { apply Ascii.eqb_eq in E3. subst c. cbv zeta in H. destruct (skip_ws_split l) as [w [Hw El]]. destruct (after "}" (skip_ws l)) as [r|] eqn:Ea.
      - injection H as <- <-. apply after_some in Ea. exists ("{"%char :: w ++ ["}"%char]). split; [rewrite El, Ea; cbn; now rewrite <- app_assoc|now constructor].
      - destruct (scan_members fuel [] (skip_ws l)) as [[vs r]|] eqn:Ei; [|discriminate]. injection H as <- <-. destruct (IHm _ _ _ _ Ei) as [t [kvs [Et [Ht ->]]]].
        exists ("{"%char :: (w ++ t) ++ ["}"%char]). split; [rewrite El, Et; cbn; now rewrite <- !app_assoc|]. constructor. now apply members_blank. }
    destruct (scan_literal literals (c :: l)) as [[w r]|] eqn:E4.
    { injection H as <- <-. apply literal_sound in E4. destruct E4 as [p [Hp E4]]. exists (list_ascii_of_string p). split; [exact E4|].
      cbn in Hp. repeat destruct Hp as [Hp|Hp]; try contradiction Hp; injection Hp as <- <-; try constructor; cbn; tauto. }
    destruct (scan_number (c :: l)) as [[w r]|] eqn:E5; [|discriminate]. injection H as <- <-. destruct (number_sound _ _ _ E5) as [t [Et Ht]].
    exists t. split; [exact Et|now apply number_value].
  - intros l vs rest H. cbn [scan_items] in H. destruct (scan_once fuel l) as [[v r]|] eqn:Ev; [|discriminate]. cbn [bind fst snd] in H. destruct (IHv _ _ _ Ev) as [t [-> Ht]].
    destruct (skip_ws_split r) as [w [Hw Er]]. cbv zeta in H. destruct (after "]" (skip_ws r)) as [r2|] eqn:Ea.
    + injection H as <- <-. apply after_some in Ea. exists ([] ++ t ++ w). split; [rewrite Er, Ea; cbn; now rewrite <- app_assoc|]. constructor; [apply blanks_nil|exact Ht|exact Hw].
    + destruct (after "," (skip_ws r)) as [r2|] eqn:Eb; [|discriminate]. apply after_some in Eb. destruct (skip_ws_split r2) as [w2 [Hw2 Er2]].
      destruct (scan_items fuel (skip_ws r2)) as [[vs' r3]|] eqn:Ei; [|discriminate]. injection H as <- <-. destruct (IHi _ _ _ Ei) as [t2 [Et2 Ht2]].
      exists ([] ++ t ++ w ++ ","%char :: (w2 ++ t2)). split.
      * rewrite Er, Eb, Er2, Et2. cbn. rewrite <- !app_assoc. cbn. now rewrite <- !app_assoc.
      * constructor; [apply blanks_nil|exact Ht|exact Hw|now apply items_blank].
  - intros d l d' rest H. cbn [scan_members] in H. destruct (after """" l) as [l1|] eqn:E1; [|discriminate]. apply after_some in E1.
    destruct (scan_string l1) as [[k r1]|] eqn:Es; [|discriminate]. cbn [bind fst snd] in H. destruct (string_sound _ _ _ _ (le_n _) Es) as [tk [-> Hk]].
    destruct (skip_ws_split r1) as [w2 [Hw2 Er1]]. destruct (after ":" (skip_ws r1)) as [l2|] eqn:E2; [|discriminate]. apply after_some in E2.
    destruct (skip_ws_split l2) as [w3 [Hw3 El2]]. destruct (scan_once fuel (skip_ws l2)) as [[v r2]|] eqn:Ev; [|discriminate]. cbn [bind fst snd] in H. destruct (IHv _ _ _ Ev) as [t [Et Ht]].
    cbv zeta in H. destruct (skip_ws_split r2) as [w4 [Hw4 Er2]]. destruct (after "}" (skip_ws r2)) as [r3|] eqn:Ea.
    + injection H as <- <-. apply after_some in Ea. exists ([] ++ """"%char :: tk ++ """"%char :: w2 ++ ":"%char :: w3 ++ t ++ w4), [(k, v)]. split; [|split; [|reflexivity]].
      * rewrite E1, Er1, E2, El2, Et, Er2, Ea. cbn. repeat (rewrite <- ?app_assoc; cbn). reflexivity.
      * constructor; auto using blanks_nil.
    + destruct (after "," (skip_ws r2)) as [r3|] eqn:Eb; [|discriminate]. apply after_some in Eb. destruct (skip_ws_split r3) as [w5 [Hw5 Er3]].
      destruct (IHm _ _ _ _ H) as [t2 [kvs [Et2 [Ht2 ->]]]].
      exists ([] ++ """"%char :: tk ++ """"%char :: w2 ++ ":"%char :: w3 ++ t ++ w4 ++ ","%char :: (w5 ++ t2)), ((k, v) :: kvs). split; [|split; [|reflexivity]].
      * rewrite E1, Er1, E2, El2, Et, Er2, Eb, Er3, Et2. cbn. repeat (rewrite <- ?app_assoc; cbn). reflexivity.
      * constructor; auto using blanks_nil, members_blank.
Qed.

Theorem loads_iff : forall s v, json_loads s = Ok v <-> json_text s v.
Proof.
  intros s v. unfold json_loads, json_text. cbv zeta. split.
  - destruct (scan_once (S (length (list_ascii_of_string s))) (skip_ws (list_ascii_of_string s))) as [[w r]|] eqn:E; [|discriminate]. cbn [bind fst snd].
    destruct (skip_ws r) eqn:Er; [|discriminate]. intros H. injection H as <-.
    destruct (proj1 (sound_all _) _ _ _ E) as [t [Et Ht]]. destruct (skip_ws_split (list_ascii_of_string s)) as [w1 [Hw1 E1]].
    destruct (skip_ws_split r) as [w2 [Hw2 E2]]. exists w1, t, w2. rewrite E1, Et at 1. rewrite Er, app_nil_r in E2. rewrite E2 at 1. auto.
  - intros [w1 [l [w2 [E [H1 [H H2]]]]]]. rewrite E, (skip_ws_app _ _ H1), (skip_ws_solid _ (opens_solid _ _ (value_opens _ _ H))).
    rewrite (proj1 complete_all _ _ H); [|rewrite !app_length; lia|now apply stops_blanks]. cbn [bind fst snd].
    rewrite <- (app_nil_r w2), (skip_ws_app _ _ H2). reflexivity.
Qed.
Corollary text_unique : forall s v w, json_text s v -> json_text s w -> v = w.
Proof. intros s v w Hv Hw. apply loads_iff in Hv, Hw. congruence. Qed.

(** ** Errors *)
Lemma units_error : forall k l ex, (length l <= k)%nat -> scan_units l = Err ex -> ex = ValueError.
Proof.
  induction k as [|k IH]; intros l ex Hk H; (destruct l as [|c l]; [cbn in H; congruence|]); cbn in Hk; [lia|]. cbn [scan_units] in H.
  assert (R : forall l' u, (length l' <= k)%nat -> (let! r := scan_units l' in Ok (u :: fst r, snd r)) = Err ex -> ex = ValueError).
  { intros l' u Hl E. destruct (scan_units l') as [r|ex'] eqn:Es; cbn in E; [discriminate|]. injection E as <-. now apply (IH l'). }
  destruct (Ascii.eqb c """"); [discriminate|]. destruct (nat_of_ascii c <? 32)%nat; [congruence|]. destruct (Ascii.eqb c "\").
  - destruct l as [|e l]; [congruence|]. cbn in Hk. destruct (Ascii.eqb e "u").
    + destruct l as [|h1 [|h2 [|h3 [|h4 l]]]]; try congruence. destruct (unicode_escape h1 h2 h3 h4) as [n|]; [|congruence]. cbn in Hk. apply (R l (Code n)); [lia|exact H].
    + destruct (simple_escape e) as [a|]; [|congruence]. apply (R l (Byte a)); [lia|exact H].
  - apply (R l (Byte c)); [lia|exact H].
Qed.
Lemma string_error : forall l ex, scan_string l = Err ex -> ex = ValueError.
Proof. intros l ex H. unfold scan_string in H. destruct (scan_units l) as [r|ex'] eqn:E; cbn in H; [discriminate|]. injection H as <-. exact (units_error _ _ _ (le_n _) E). Qed.
Lemma scan_error : forall fuel, (forall l ex, scan_once fuel l = Err ex -> ex = ValueError) /\ (forall l ex, scan_items fuel l = Err ex -> ex = ValueError) /\
  (forall l d ex, scan_members fuel d l = Err ex -> ex = ValueError).
Proof.
  induction fuel as [|fuel [IH1 [IH2 IH3]]]; [repeat split; intros; cbn in *; congruence|]. split; [|split].
  - intros [|c l] ex H; [cbn in H; congruence|]. cbn [scan_once] in H. destruct (Ascii.eqb c """").
    { destruct (scan_string l) as [r|ex'] eqn:E; cbn in H; [discriminate|]. injection H as <-. exact (string_error _ _ E). }
    destruct (Ascii.eqb c "[").
    { destruct (after "]" (skip_ws l)); [discriminate|]. destruct (scan_items fuel (skip_ws l)) as [r|ex'] eqn:E; cbn in H; [discriminate|]. injection H as <-. exact (IH2 _ _ E). }
    destruct (Ascii.eqb c "{").
    { destruct (after "}" (skip_ws l)); [discriminate|]. destruct (scan_members fuel [] (skip_ws l)) as [r|ex'] eqn:E; cbn in H; [discriminate|]. injection H as <-. exact (IH3 _ _ _ E). }
    destruct (scan_literal literals (c :: l)); [discriminate|]. destruct (scan_number (c :: l)); [discriminate|congruence].
  - intros l ex H. cbn [scan_items] in H. destruct (scan_once fuel l) as [r|ex'] eqn:E; cbn [bind] in H; [|injection H as <-; exact (IH1 _ _ E)].
    destruct (after "]" (skip_ws (snd r))); [discriminate|]. destruct (after "," (skip_ws (snd r))) as [l3|]; [|congruence].
    destruct (scan_items fuel (skip_ws l3)) as [rs|ex'] eqn:E2; cbn in H; [discriminate|]. injection H as <-. exact (IH2 _ _ E2).
  - intros l d ex H. cbn [scan_members] in H. destruct (after """" l) as [l1|]; [|congruence].
    destruct (scan_string l1) as [k|ex'] eqn:E; cbn [bind] in H; [|injection H as <-; exact (string_error _ _ E)].
    destruct (after ":" (skip_ws (snd k))) as [l2|]; [|congruence]. destruct (scan_once fuel (skip_ws l2)) as [r|ex'] eqn:E1; cbn [bind] in H; [|injection H as <-; exact (IH1 _ _ E1)].
    destruct (after "}" (skip_ws (snd r))); [discriminate|]. destruct (after "," (skip_ws (snd r))) as [l4|]; [|congruence]. exact (IH3 _ _ _ H).
Qed.
Lemma loads_error : forall s ex, json_loads s = Err ex -> ex = ValueError.
Proof.
  intros s ex H. unfold json_loads in H. destruct (scan_once (S (length (list_ascii_of_string s))) (skip_ws (list_ascii_of_string s))) as [r|ex'] eqn:E; cbn [bind] in H.
  - destruct (skip_ws (snd r)); congruence.
  - injection H as <-. exact (proj1 (scan_error _) _ _ E).
Qed.
Lemma loads_bad : forall s, json_loads s = Err ValueError <-> forall v, ~ json_text s v.
Proof.
  intros s. split.
  - intros H v Hv. apply loads_iff in Hv. rewrite H in Hv. discriminate.
  - intros H. destruct (json_loads s) as [v|ex] eqn:E; [exfalso; apply (H v); now apply loads_iff|]. now rewrite (loads_error _ _ E).
Qed.
