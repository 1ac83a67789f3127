(** Lemmas behind the property of [type_on_off] in Properties_Print.v. *)
From Coq Require Import Lia.
From Verif Require Import DemoArgs SpecArgs.
From Coq Require Import String Ascii.
Open Scope list_scope.
Open Scope Z_scope.

Ltac chars c := destruct c as [[][][][][][][][]].

Lemma white_iff c : is_white c = true <-> white c.
Proof.
  unfold is_white, white, code. rewrite !Bool.orb_true_iff, !Bool.andb_true_iff, !Nat.leb_le, Nat.eqb_eq. lia.
Qed.
Lemma skip_split l : exists b, Forall white b /\ l = b ++ skip_white l.
Proof.
  induction l as [|c l (b & Hb & E)]; simpl; [exists []; auto|]. destruct (is_white c) eqn:Ew.
  - exists (c :: b). split; [constructor; [now apply white_iff|exact Hb]|]. simpl. now f_equal.
  - exists []. auto.
Qed.
Lemma skip_all b l : Forall white b -> skip_white (b ++ l) = skip_white l.
Proof. induction 1 as [|c b Hc Hb IH]; simpl; [reflexivity|]. apply white_iff in Hc. now rewrite Hc. Qed.
Lemma skip_none c l : ~ white c -> skip_white (c :: l) = c :: l.
Proof. intros H. simpl. destruct (is_white c) eqn:E; [|reflexivity]. now apply white_iff in E. Qed.
Lemma strip_split l : exists b a, Forall white b /\ Forall white a /\ l = b ++ strip_white l ++ a.
Proof.
  unfold strip_white. destruct (skip_split l) as (b & Hb & E). destruct (skip_split (rev (skip_white l))) as (a & Ha & E').
  exists b, (rev a). split; [exact Hb|]. split; [now apply Forall_rev|]. rewrite <- rev_app_distr, <- E', rev_involutive. exact E.
Qed.
Lemma strip_core b l a : Forall white b -> Forall white a -> (exists c l', l = c :: l' /\ ~ white c) -> (exists c l', l = l' ++ [c] /\ ~ white c) ->
  strip_white (b ++ l ++ a) = l.
Proof.
  intros Hb Ha (c & l1 & E1 & H1) (d & l2 & E2 & H2). unfold strip_white. rewrite skip_all by assumption.
  assert (E3 : skip_white (l ++ a) = l ++ a) by (rewrite E1; simpl app; now apply skip_none).
  rewrite E3, rev_app_distr, skip_all by now apply Forall_rev. rewrite E2, rev_app_distr. simpl app. rewrite skip_none by assumption.
  simpl. now rewrite rev_involutive.
Qed.

(** ** Digits *)
Lemma digit_white c v : digit_char c v -> ~ white c.
Proof. intros [H1 H2] [H|[H|H]]; lia. Qed.
Lemma digit_text_first l vs : digit_text l vs -> exists c l' v, l = c :: l' /\ digit_char c v.
Proof. destruct 1; eauto. Qed.
Lemma digit_text_last l vs : digit_text l vs -> exists c l' v, l = l' ++ [c] /\ digit_char c v.
Proof.
  induction 1 as [c v H|c v l vs H Hl (d & l' & w & E & Hd)|c v l vs H Hl (d & l' & w & E & Hd)].
  - exists c, [], v. auto.
  - exists d, (c :: l'), w. now rewrite E.
  - exists d, (c :: "_"%char :: l'), w. now rewrite E.
Qed.
Lemma read_digit c v l acc b : digit_char c v -> read_digits (c :: l) acc b = read_digits l (10 * acc + v) true.
Proof.
  intros [H1 H2]. unfold code in H2. cbn [read_digits]. replace (48 <=? nat_of_ascii c)%nat with true by (symmetry; apply Nat.leb_le; lia).
  replace (nat_of_ascii c <=? 57)%nat with true by (symmetry; apply Nat.leb_le; lia). cbn [andb]. f_equal. lia.
Qed.
Lemma pow_S n : 10 ^ Z.of_nat (S n) = 10 * 10 ^ Z.of_nat n.
Proof. rewrite Nat2Z.inj_succ, Z.pow_succ_r; lia. Qed.
Lemma read_text l vs : digit_text l vs -> forall acc b, read_digits l acc b = Ok (acc * 10 ^ Z.of_nat (List.length vs) + number vs).
Proof.
  induction 1 as [c v H|c v l vs H Hl IH|c v l vs H Hl IH]; intros acc b; rewrite (read_digit c v) by assumption; cbn [List.length number]; rewrite pow_S.
  - cbn [read_digits List.length]. f_equal. change (10 ^ Z.of_nat 0) with 1. lia.
  - rewrite IH. f_equal. lia.
  - change (read_digits ("_"%char :: l) (10 * acc + v) true) with (read_digits l (10 * acc + v) false). rewrite IH. f_equal. lia.
Qed.
Lemma read_inv l : forall acc b n, read_digits l acc b = Ok n ->
  (b = true /\ l = [] /\ n = acc) \/
  exists vs, (digit_text l vs \/ b = true /\ exists l', l = "_"%char :: l' /\ digit_text l' vs) /\ n = acc * 10 ^ Z.of_nat (List.length vs) + number vs.
Proof.
  induction l as [|c l IH]; intros acc b n H.
  - simpl in H. destruct b; [|discriminate]. injection H as <-. auto.
  - right. destruct ((48 <=? nat_of_ascii c) && (nat_of_ascii c <=? 57))%nat eqn:Ed.
    + assert (Hd : digit_char c (code c - 48)).
      { apply andb_prop in Ed. destruct Ed as [E1 E2]. apply Nat.leb_le in E1, E2. unfold digit_char, code. lia. }
      rewrite (read_digit c _ l acc b Hd) in H. apply IH in H. destruct H as [(_ & -> & ->)|(vs & [Hl|(_ & l' & -> & Hl)] & ->)].
      * exists [code c - 48]. split; [left; now constructor|]. cbn [number List.length]. rewrite pow_S. change (10 ^ Z.of_nat 0) with 1. lia.
      * exists (code c - 48 :: vs). split; [left; now constructor|]. cbn [number List.length]. rewrite pow_S. lia.
      * exists (code c - 48 :: vs). split; [left; now constructor|]. cbn [number List.length]. rewrite pow_S. lia.
    + cbn [read_digits] in H. rewrite Ed in H. destruct ((nat_of_ascii c =? 95)%nat && b)%bool eqn:Eu; [|discriminate].
      apply andb_prop in Eu. destruct Eu as [Eu ->]. apply Nat.eqb_eq in Eu.
      assert (c = "_"%char) as -> by (rewrite <- (ascii_nat_embedding c), Eu; reflexivity).
      apply IH in H. destruct H as [(H & _)|(vs & [Hl|(H & _)] & ->)]; try discriminate. exists vs. split; [right; eauto|reflexivity].
Qed.
Lemma read_err l : forall acc b e, read_digits l acc b = Err e -> e = ValueError.
Proof.
  induction l as [|c l IH]; intros acc b e H; cbn [read_digits] in H.
  - destruct b; congruence.
  - destruct ((48 <=? nat_of_ascii c) && (nat_of_ascii c <=? 57))%nat; [eauto|]. destruct ((nat_of_ascii c =? 95)%nat && b)%bool; [eauto|congruence].
Qed.

(** ** int(text) *)
Lemma int_of_list_cases l :
  (exists l', l = "-"%char :: l' /\ int_of_list l = let! n := read_digits l' 0 false in Ok (- n)) \/
  (exists l', l = "+"%char :: l' /\ int_of_list l = read_digits l' 0 false) \/ int_of_list l = read_digits l 0 false.
Proof.
  destruct l as [|c l]; [auto|]. chars c; try (right; right; reflexivity).
  - right. left. exists l. auto.
  - left. exists l. auto.
Qed.
Lemma read_none l n : read_digits l 0 false = Ok n -> exists vs, digit_text l vs /\ n = number vs.
Proof.
  intros H. apply read_inv in H. destruct H as [(H & _)|(vs & [Hl|(H & _)] & ->)]; try discriminate. exists vs. split; [exact Hl|lia].
Qed.
Lemma int_text_sound s n : int_of_text s = Ok n -> int_text s n.
Proof.
  unfold int_of_text. intros H'. destruct (strip_split (list_ascii_of_string s)) as (b & a & Hb & Ha & E).
  rewrite <- (string_of_list_ascii_of_string s), E. set (l := strip_white (list_ascii_of_string s)) in *. clearbody l.
  destruct (int_of_list_cases l) as [(l' & -> & E1)|[(l' & -> & E1)|E1]]; rewrite E1 in H'.
  - destruct (read_digits l' 0 false) as [m|] eqn:Er; [|discriminate]. injection H' as <-. apply read_none in Er. destruct Er as (vs & Hl & ->).
    simpl app. now apply it_minus.
  - apply read_none in H'. destruct H' as (vs & Hl & ->). simpl app. now apply it_plus.
  - apply read_none in H'. destruct H' as (vs & Hl & ->). now apply it_plain.
Qed.
Lemma plain_list l vs : digit_text l vs -> int_of_list l = Ok (number vs).
Proof.
  intros H. destruct (int_of_list_cases l) as [(l' & E & _)|[(l' & E & _)|E1]].
  - destruct (digit_text_first l vs H) as (c & l2 & v & E2 & Hd). rewrite E in E2. injection E2 as <- _. destruct Hd as [H1 H2]. change (code "-") with 45 in H2.
    exfalso. lia.
  - destruct (digit_text_first l vs H) as (c & l2 & v & E2 & Hd). rewrite E in E2. injection E2 as <- _. destruct Hd as [H1 H2]. change (code "+") with 43 in H2.
    exfalso. lia.
  - rewrite E1, (read_text l vs H). f_equal.
Qed.
Lemma strip_digits b sg l vs a : Forall white b -> Forall white a -> digit_text l vs -> sg = [] \/ sg = ["+"%char] \/ sg = ["-"%char] ->
  strip_white (b ++ (sg ++ l) ++ a) = sg ++ l.
Proof.
  intros Hb Ha Hl Hsg. apply strip_core; try assumption.
  - destruct (digit_text_first l vs Hl) as (c & l2 & v & -> & Hd). apply digit_white in Hd. destruct Hsg as [->|[->| ->]]; simpl; eexists; eexists; (split; [reflexivity|]); try assumption;
      intros Hw; apply white_iff in Hw; discriminate.
  - destruct (digit_text_last l vs Hl) as (c & l2 & v & -> & Hd). apply digit_white in Hd. exists c, (sg ++ l2). rewrite app_assoc. auto.
Qed.
Lemma int_text_complete s n : int_text s n -> int_of_text s = Ok n.
Proof.
  unfold int_of_text. intros [b l vs a Hb Ha Hl|b l vs a Hb Ha Hl|b l vs a Hb Ha Hl]; rewrite list_ascii_of_string_of_list_ascii.
  - change (b ++ l ++ a) with (b ++ ([] ++ l) ++ a). rewrite (strip_digits b [] l vs a Hb Ha Hl) by auto. now apply plain_list.
  - change (b ++ "+"%char :: l ++ a) with (b ++ (["+"%char] ++ l) ++ a). rewrite (strip_digits b ["+"%char] l vs a Hb Ha Hl) by auto. simpl. rewrite (read_text l vs Hl). f_equal.
  - change (b ++ "-"%char :: l ++ a) with (b ++ (["-"%char] ++ l) ++ a). rewrite (strip_digits b ["-"%char] l vs a Hb Ha Hl) by auto. simpl. rewrite (read_text l vs Hl). simpl. f_equal.
Qed.
Lemma int_of_text_err s e : int_of_text s = Err e -> e = ValueError.
Proof.
  unfold int_of_text. generalize (strip_white (list_ascii_of_string s)). intros l H.
  destruct (int_of_list_cases l) as [(l' & -> & E1)|[(l' & -> & E1)|E1]]; rewrite E1 in H; [|now apply read_err in H|now apply read_err in H].
  destruct (read_digits l' 0 false) eqn:Er; [discriminate|]. injection H as ->. now apply read_err in Er.
Qed.

(** ** Lower case *)
Lemma lower_white c : is_white (lower_char c) = is_white c.
Proof. chars c; reflexivity. Qed.
Lemma skip_lower l : skip_white (map lower_char l) = map lower_char (skip_white l).
Proof. induction l as [|c l IH]; simpl; [reflexivity|]. rewrite lower_white. destruct (is_white c); auto. Qed.
Lemma lower_digit c : lower_char c = c \/
  ((48 <=? nat_of_ascii (lower_char c)) && (nat_of_ascii (lower_char c) <=? 57) = false /\ (48 <=? nat_of_ascii c) && (nat_of_ascii c <=? 57) = false /\
   (nat_of_ascii (lower_char c) =? 95) = false /\ (nat_of_ascii c =? 95) = false)%nat.
Proof. chars c; try (left; reflexivity); right; repeat split; reflexivity. Qed.
Lemma read_lower l : forall acc b, read_digits (map lower_char l) acc b = read_digits l acc b.
Proof.
  induction l as [|c l IH]; intros acc b; [reflexivity|]. cbn [map]. destruct (lower_digit c) as [->|(E1 & E2 & E3 & E4)]; cbn [read_digits].
  - rewrite !IH. reflexivity.
  - rewrite E1, E2, E3, E4. reflexivity.
Qed.
Lemma lower_sign c : lower_char c = c \/ (lower_char c <> "-"%char /\ lower_char c <> "+"%char /\ c <> "-"%char /\ c <> "+"%char).
Proof. chars c; try (left; reflexivity); right; repeat split; discriminate. Qed.
Lemma int_of_list_plain c l : c <> "-"%char -> c <> "+"%char -> int_of_list (c :: l) = read_digits (c :: l) 0 false.
Proof.
  intros H1 H2. destruct (int_of_list_cases (c :: l)) as [(l' & E & _)|[(l' & E & _)|E]]; [congruence|congruence|exact E].
Qed.
Lemma int_lower l : int_of_list (map lower_char l) = int_of_list l.
Proof.
  destruct l as [|c l]; [reflexivity|]. destruct (ascii_dec c "-") as [->|N1]; [|destruct (ascii_dec c "+") as [->|N2]].
  - cbn [map]. change (lower_char "-") with "-"%char. cbn [int_of_list]. now rewrite read_lower.
  - cbn [map]. change (lower_char "+") with "+"%char. cbn [int_of_list]. now rewrite read_lower.
  - cbn [map]. rewrite !int_of_list_plain; try assumption; [apply (read_lower (c :: l))| |];
      destruct (lower_sign c) as [->|(H1 & H2 & _)]; assumption.
Qed.
Lemma int_of_text_lower s : int_of_text (str_lower s) = int_of_text s.
Proof.
  unfold int_of_text, str_lower. rewrite list_ascii_of_string_of_list_ascii. unfold strip_white.
  rewrite skip_lower, <- map_rev, skip_lower, <- map_rev. apply int_lower.
Qed.
Lemma lower_same c d : 97 <= code d <= 122 -> (lower_char c = d <-> same_letter c d).
Proof.
  intros Hd. unfold same_letter. split.
  - unfold lower_char. destruct ((65 <=? nat_of_ascii c) && (nat_of_ascii c <=? 90))%nat eqn:E; intros H; [|auto].
    right. split; [exact Hd|]. apply andb_prop in E. destruct E as [E1 E2]. apply Nat.leb_le in E1, E2. subst d. unfold code.
    rewrite nat_ascii_embedding by lia. lia.
  - unfold lower_char, code in *. intros [->|[_ H]].
    + replace (nat_of_ascii d <=? 90)%nat with false by (symmetry; apply Nat.leb_gt; lia). now rewrite Bool.andb_false_r.
    + replace (65 <=? nat_of_ascii c)%nat with true by (symmetry; apply Nat.leb_le; lia).
      replace (nat_of_ascii c <=? 90)%nat with true by (symmetry; apply Nat.leb_le; lia). cbn [andb].
      rewrite <- (ascii_nat_embedding d). f_equal. lia.
Qed.
Lemma lower_spells w s : Forall (fun d => 97 <= code d <= 122) (list_ascii_of_string w) -> (str_lower s = w <-> spells s w).
Proof.
  unfold str_lower, spells. intros Hw. rewrite <- (string_of_list_ascii_of_string w) at 1.
  assert (E : forall l1 l2, string_of_list_ascii l1 = string_of_list_ascii l2 <-> l1 = l2).
  { intros l1 l2. split; [|congruence]. intros E. rewrite <- (list_ascii_of_string_of_list_ascii l1), E. apply list_ascii_of_string_of_list_ascii. }
  rewrite E. clear E. revert Hw. generalize (list_ascii_of_string w). generalize (list_ascii_of_string s). clear.
  induction l as [|c l IH]; intros [|d l'] H.
  - split; [constructor|reflexivity].
  - split; [discriminate|inversion 1].
  - split; [discriminate|inversion 1].
  - inversion H as [|? ? Hd Hl]; subst. split.
    + intros E. simpl in E. injection E as E1 E2. constructor; [now apply lower_same|now apply IH].
    + intros E. inversion E; subst. simpl. f_equal; [now apply lower_same|now apply IH].
Qed.
Lemma words_lower w : In w ["on"; "true"; "off"; "false"]%string -> Forall (fun d => 97 <= code d <= 122) (list_ascii_of_string w).
Proof. intros [<-|[<-|[<-|[<-|[]]]]]; repeat constructor; vm_compute; congruence. Qed.
Lemma eqb_spells s w : In w ["on"; "true"; "off"; "false"]%string -> (String.eqb (str_lower s) w = true <-> spells s w).
Proof. intros H. rewrite String.eqb_eq. apply lower_spells. now apply words_lower. Qed.

(** A word is not a number. *)
Lemma word_no_number w s n : In w ["on"; "true"; "off"; "false"]%string -> spells s w -> int_text s n -> False.
Proof.
  intros Hw Hs Hn. apply int_text_complete in Hn. rewrite <- int_of_text_lower in Hn.
  apply lower_spells in Hs; [|now apply words_lower]. rewrite Hs in Hn. destruct Hw as [<-|[<-|[<-|[<-|[]]]]]; vm_compute in Hn; discriminate.
Qed.

Lemma on_off_exact s b : type_on_off s = Ok b <-> switch s b.
Proof.
  unfold type_on_off. rewrite int_of_text_lower.
  destruct (String.eqb (str_lower s) "on" || String.eqb (str_lower s) "true")%bool eqn:E1;
    [|destruct (String.eqb (str_lower s) "off" || String.eqb (str_lower s) "false")%bool eqn:E2].
  - assert (H : spells s "on" \/ spells s "true").
    { apply Bool.orb_prop in E1. destruct E1 as [E1|E1]; [left|right]; apply eqb_spells; simpl; auto. }
    split; [intros [= <-]; now constructor|]. intros Hs. destruct b; [reflexivity|exfalso]. inversion Hs as [|? H'|? H'|]; subst.
    + assert (E : str_lower s = "on"%string \/ str_lower s = "true"%string) by (destruct H as [H|H]; apply lower_spells in H; auto; apply words_lower; simpl; auto).
      assert (E' : str_lower s = "off"%string \/ str_lower s = "false"%string) by (destruct H' as [H'|H']; apply lower_spells in H'; auto; apply words_lower; simpl; auto).
      destruct E as [E|E], E' as [E'|E']; congruence.
    + destruct H as [H|H]; eapply word_no_number; try eassumption; simpl; auto.
  - assert (H : spells s "off" \/ spells s "false").
    { apply Bool.orb_prop in E2. destruct E2 as [E2|E2]; [left|right]; apply eqb_spells; simpl; auto. }
    split; [intros [= <-]; now constructor|]. intros Hs. destruct b; [exfalso|reflexivity]. inversion Hs as [? H'| | |? ? H' Hne]; subst.
    + assert (E : str_lower s = "off"%string \/ str_lower s = "false"%string) by (destruct H as [H|H]; apply lower_spells in H; auto; apply words_lower; simpl; auto).
      assert (E' : str_lower s = "on"%string \/ str_lower s = "true"%string) by (destruct H' as [H'|H']; apply lower_spells in H'; auto; apply words_lower; simpl; auto).
      destruct E as [E|E], E' as [E'|E']; congruence.
    + destruct H as [H|H]; eapply word_no_number; try eassumption; simpl; auto.
  - apply Bool.orb_false_elim in E1, E2. destruct E1 as [Ea Eb], E2 as [Ec Ed].
    assert (Hno : forall w, In w ["on"; "true"; "off"; "false"]%string -> ~ spells s w).
    { intros w Hw Hs. apply eqb_spells in Hs; [|exact Hw]. destruct Hw as [<-|[<-|[<-|[<-|[]]]]]; congruence. }
    split.
    + destruct (int_of_text s) as [n|e] eqn:En; [|discriminate]. simpl. intros [= <-]. apply int_text_sound in En.
      destruct (Z.eqb_spec n 0) as [->|Hne]; simpl; [now constructor|now apply sw_number with n].
    + intros Hs. inversion Hs as [s' [H|H]|s' [H|H]|s' H|s' n H Hne]; subst; try (exfalso; revert H; apply Hno; simpl; tauto).
      * apply int_text_complete in H. now rewrite H.
      * apply int_text_complete in H. rewrite H. simpl. apply Z.eqb_neq in Hne. now rewrite Hne.
Qed.
Lemma on_off_error s e : type_on_off s = Err e -> e = ValueError /\ forall b, ~ switch s b.
Proof.
  intros H. split; [|intros b Hb; apply on_off_exact in Hb; congruence]. unfold type_on_off in H.
  destruct (String.eqb (str_lower s) "on" || String.eqb (str_lower s) "true")%bool; [discriminate|].
  destruct (String.eqb (str_lower s) "off" || String.eqb (str_lower s) "false")%bool; [discriminate|].
  destruct (int_of_text (str_lower s)) eqn:E; [discriminate|]. injection H as <-. now apply int_of_text_err in E.
Qed.
