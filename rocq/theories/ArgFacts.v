(** Facts: the classification of the words of a command line. *)
From Verif Require Import DemoMain SpecMain.
From Coq Require Import Lia FinFun.
Open Scope list_scope.
Open Scope Z_scope.

(** ** Strings *)
Lemma app_nil_str s : (s ++ "")%string = s.
Proof. induction s as [|c s IH]; [reflexivity|]. cbn. now rewrite IH. Qed.
Lemma app_assoc_str a b c : ((a ++ b) ++ c)%string = (a ++ b ++ c)%string.
Proof. induction a as [|x a IH]; [reflexivity|]. cbn. now rewrite IH. Qed.
Lemma list_app a b : list_ascii_of_string (a ++ b)%string = list_ascii_of_string a ++ list_ascii_of_string b.
Proof. induction a as [|x a IH]; [reflexivity|]. cbn. now rewrite IH. Qed.

Lemma prefix_iff p s : String.prefix p s = true <-> exists q, s = (p ++ q)%string.
Proof.
  revert s. induction p as [|c p IH]; intro s.
  - split; [exists s; reflexivity|destruct s; reflexivity].
  - destruct s as [|d s]; cbn.
    + split; [discriminate|]. intros [q H]. discriminate H.
    + destruct (ascii_dec c d) as [<-|N].
      * rewrite IH. split; intros [q H]; exists q; [now rewrite H|now injection H].
      * split; [discriminate|]. intros [q H]. injection H as H _. congruence.
Qed.

Definition eq_free (s : string) : Prop := ~ In "="%char (list_ascii_of_string s).
Lemma split_some s a b : split_eq s = Some (a, b) <-> s = (a ++ "=" ++ b)%string /\ eq_free a.
Proof.
  revert a b. induction s as [|c s IH]; intros a b; cbn [split_eq].
  - split; [discriminate|]. intros [H _]. destruct a; discriminate H.
  - destruct (Ascii.eqb c "=") eqn:E.
    + apply Ascii.eqb_eq in E. subst c. split.
      * intros [= <- <-]. split; [reflexivity|]. intros [].
      * intros [H F]. destruct a as [|x a]; cbn in H; [now injection H as ->|]. injection H as <- _. exfalso. apply F. now left.
    + apply Ascii.eqb_neq in E. destruct (split_eq s) as [[a' b']|] eqn:S.
      * destruct (proj1 (IH a' b') eq_refl) as [-> F]. split.
        -- intros [= <- <-]. split; [reflexivity|]. intros [H|H]; [congruence|now apply F].
        -- intros [H G]. destruct a as [|x a]; cbn in H; [injection H as H _; congruence|]. injection H as <- H.
           assert (K : Some (a', b') = Some (a, b)).
           { apply IH. split; [exact H|]. intro I. apply G. now right. }
           now injection K as <- <-.
      * split; [discriminate|]. intros [H G]. destruct a as [|x a]; cbn in H; [injection H as H _; congruence|]. injection H as <- H.
        assert (K : None = Some (a, b)) by (apply IH; split; [exact H|]; intro I; apply G; now right). discriminate K.
Qed.
Lemma split_none s : split_eq s = None <-> eq_free s.
Proof.
  unfold eq_free. induction s as [|c s IH]; cbn [split_eq].
  - split; [intros _ []|reflexivity].
  - destruct (Ascii.eqb c "=") eqn:E.
    + apply Ascii.eqb_eq in E. subst c. split; [discriminate|]. intro H. exfalso. apply H. now left.
    + apply Ascii.eqb_neq in E. destruct (split_eq s) as [[a b]|] eqn:S.
      * split; [discriminate|]. intro H. exfalso. destruct IH as [_ IH]. discriminate IH. intro K. apply H. now right.
      * split; [|reflexivity]. intros _ [H|H]; [congruence|]. now apply IH.
Qed.

Lemma has_char_iff c s : has_char c s = true <-> In c (list_ascii_of_string s).
Proof.
  induction s as [|d s IH]; cbn; [split; [discriminate|intros []]|].
  rewrite orb_true_iff, IH, Ascii.eqb_eq. split; intros [H|H]; auto.
Qed.

(** ** Negative numbers *)
Lemma digit_iff c : In c (list_ascii_of_string "0123456789") <-> is_digit c = true.
Proof.
  split; intro H.
  - cbn in H. repeat destruct H as [<-|H]; try reflexivity. destruct H.
  - destruct c as [[] [] [] [] [] [] [] []]; try discriminate H; cbn; tauto.
Qed.
Lemma newline_digit : is_digit newline = false. Proof. reflexivity. Qed.
Definition final (e : list ascii) : Prop := e = [] \/ e = [newline].
Lemma all_digits_iff l : all_digits l = true <-> exists d e, l = d ++ e /\ (forall c, In c d -> is_digit c = true) /\ final e.
Proof.
  induction l as [|c l IH].
  - split; [intros _; exists [], []; repeat split; [intros ? []|now left]|reflexivity].
  - destruct l as [|c' l].
    + cbn [all_digits]. rewrite orb_true_iff, Ascii.eqb_eq. split.
      * intros [H| ->].
        -- exists [c], []. repeat split; [intros x [<-|[]]; exact H|now left].
        -- exists [], [newline]. repeat split; [intros ? []|now right].
      * intros (d & e & H & F & [->| ->]).
        -- left. apply F. rewrite app_nil_r in H. rewrite <- H. now left.
        -- right. destruct d as [|x [|y d]]; [|discriminate H|discriminate H]. now injection H.
    + cbn [all_digits] in *. rewrite andb_true_iff, IH. split.
      * intros (H & d & e & E & F & G). exists (c :: d), e. rewrite E. repeat split; [|exact G]. intros x [<-|I]; auto.
      * intros (d & e & E & F & G). destruct d as [|x d].
        -- destruct G as [->| ->]; discriminate E.
        -- injection E as <- E. split; [apply F; now left|]. exists d, e. repeat split; [exact E|intros x I; apply F; now right|exact G].
Qed.
Lemma some_digits_iff l : some_digits l = true <-> exists d e, l = d ++ e /\ d <> [] /\ (forall c, In c d -> is_digit c = true) /\ final e.
Proof.
  destruct l as [|c l]; cbn [some_digits].
  - split; [discriminate|]. intros (d & e & H & N & _). destruct d; [contradiction|discriminate H].
  - rewrite andb_true_iff, all_digits_iff. split.
    + intros (H & d & e & E & F & G). exists d, e. repeat split; try assumption.
      intros ->. destruct G as [->| ->]; [discriminate E|]. injection E as -> _. rewrite newline_digit in H. discriminate H.
    + intros (d & e & E & N & F & G). split; [|exists d, e; auto].
      destruct d as [|x d]; [contradiction|]. injection E as -> _. apply F. now left.
Qed.
Lemma after_digits_app d l : (forall c, In c d -> is_digit c = true) -> after_digits (d ++ l) = after_digits l.
Proof.
  induction d as [|c d IH]; intro H; [reflexivity|]. cbn. rewrite (H c (or_introl eq_refl)). apply IH. intros x I. apply H. now right.
Qed.
Lemma after_digits_split l : exists d, l = d ++ after_digits l /\ forall c, In c d -> is_digit c = true.
Proof.
  induction l as [|c l (d & H & F)]; [exists []; split; [reflexivity|intros ? []]|]. cbn.
  destruct (is_digit c) eqn:E; [|exists []; split; [reflexivity|intros ? []]].
  exists (c :: d). rewrite <- app_comm_cons, <- H. split; [reflexivity|]. intros x [<-|I]; auto.
Qed.
Lemma str_list a l : list_ascii_of_string a = l -> a = string_of_list_ascii l.
Proof. intros <-. symmetry. apply string_of_list_ascii_of_string. Qed.
Lemma digits_iff d : digits (string_of_list_ascii d) <-> d <> [] /\ forall c, In c d -> is_digit c = true.
Proof.
  unfold digits. rewrite list_ascii_of_string_of_list_ascii. split; intros [N F]; (split; [|intros c I; apply digit_iff, F, I]).
  - intros ->. now apply N.
  - destruct d; [contradiction|discriminate].
Qed.
Lemma soa_app a b : string_of_list_ascii (a ++ b) = (string_of_list_ascii a ++ string_of_list_ascii b)%string.
Proof. induction a as [|x a IH]; [reflexivity|]. cbn. now rewrite IH. Qed.
Lemma final_str e : e = ""%string \/ e = String newline "" <-> final (list_ascii_of_string e).
Proof.
  unfold final. split; intros [H|H].
  - left. now rewrite H.
  - right. now rewrite H.
  - left. now rewrite (str_list _ _ H).
  - right. now rewrite (str_list _ _ H).
Qed.
Lemma negative_iff s : negative_number s = true <-> negative s.
Proof.
  split.
  - unfold negative_number. destruct s as [|c s]; [discriminate|]. cbn [list_ascii_of_string].
    destruct (ascii_dec c "-") as [->|N].
    + intro H. apply orb_true_iff in H. destruct H as [H|H].
      * apply some_digits_iff in H. destruct H as (d & e & E & N & F & G).
        rewrite (str_list _ _ E), soa_app.
        apply (neg_int (string_of_list_ascii d) (string_of_list_ascii e)).
        -- apply digits_iff. auto.
        -- apply final_str. now rewrite list_ascii_of_string_of_list_ascii.
      * destruct (after_digits_split (list_ascii_of_string s)) as (d & E & F).
        destruct (after_digits (list_ascii_of_string s)) as [|x l]; [discriminate H|].
        destruct (ascii_dec x ".") as [->|N].
        -- apply some_digits_iff in H. destruct H as (d' & e & E' & N & F' & G). subst l.
           rewrite (str_list _ _ E), !soa_app.
           change (string_of_list_ascii ("."%char :: d' ++ e)) with ("." ++ string_of_list_ascii (d' ++ e))%string. rewrite soa_app.
           apply (neg_dec (string_of_list_ascii d) (string_of_list_ascii d') (string_of_list_ascii e)).
           ++ destruct d as [|y d]; [now left|right; apply digits_iff; split; [discriminate|exact F]].
           ++ apply digits_iff. auto.
           ++ apply final_str. now rewrite list_ascii_of_string_of_list_ascii.
        -- exfalso. destruct x as [[] [] [] [] [] [] [] []]; try discriminate H. now apply N.
    + intro H. exfalso. destruct c as [[] [] [] [] [] [] [] []]; try discriminate H. now apply N.
  - assert (D : forall d, digits d -> list_ascii_of_string d <> [] /\ forall c, In c (list_ascii_of_string d) -> is_digit c = true).
    { intros d H. apply digits_iff. now rewrite string_of_list_ascii_of_string. }
    unfold negative_number. intros [d e H G|d d' e H H' G]; cbn [append list_ascii_of_string]; rewrite orb_true_iff.
    + left. rewrite list_app. apply some_digits_iff. destruct (D d H) as [N F].
      exists (list_ascii_of_string d), (list_ascii_of_string e). repeat split; try assumption. now apply final_str.
    + right. rewrite list_app. rewrite after_digits_app.
      * cbn [append list_ascii_of_string after_digits]. change (is_digit ".") with false. cbn iota.
        rewrite list_app. apply some_digits_iff. destruct (D d' H') as [N F].
        exists (list_ascii_of_string d'), (list_ascii_of_string e). repeat split; try assumption. now apply final_str.
      * destruct H as [->|H]; [intros c []|]. apply D, H.
Qed.

(** ** Tables *)
Record wf (t : list optdef) : Prop := {
  wf_shorts : NoDup (map o_short t);
  wf_longs : NoDup (map o_long t);
  wf_chars : forall o, In o t -> o_short o <> "-"%char /\ o_short o <> "="%char /\ eq_free (o_long o) /\ o_long o <> ""%string }.

Lemma inj_in {A B} (f : A -> B) l x y : NoDup (map f l) -> In x l -> In y l -> f x = f y -> x = y.
Proof.
  induction l as [|z l IH]; intros N X Y E; [destruct X|].
  inversion N as [|? ? F N']; subst. destruct X as [->|X], Y as [->|Y].
  - reflexivity.
  - exfalso. apply F. rewrite E. now apply in_map.
  - exfalso. apply F. rewrite <- E. now apply in_map.
  - now apply IH.
Qed.

Lemma find_word_short t c : wf t -> c <> "-"%char ->
  find_word t (String "-" (String c "")) = find (fun o => Ascii.eqb (o_short o) c) t.
Proof.
  intros W N. unfold find_word. assert (G : forall o, In o t -> o_short o <> "-"%char) by (intros o I; apply (wf_chars t W o I)).
  clear W. induction t as [|o t IH]; [reflexivity|].
  cbn [option_words flat_map app dget find]. unfold short_word, long_word. cbn [append].
  unfold dget. cbn [String.eqb].
  change (Ascii.eqb "-" "-") with true. cbn iota.
  rewrite (Ascii.eqb_sym (o_short o) c). destruct (Ascii.eqb c (o_short o)) eqn:E.
  - reflexivity.
  - rewrite (proj2 (Ascii.eqb_neq c "-") N). apply IH. intros x I. apply G. now right.
Qed.

Lemma find_word_long t p : wf t -> find_word t ("--" ++ p)%string = find (fun o => String.eqb (o_long o) p) t.
Proof.
  intros W. unfold find_word. assert (G : forall o, In o t -> o_short o <> "-"%char) by (intros o I; apply (wf_chars t W o I)).
  clear W. induction t as [|o t IH]; [reflexivity|].
  cbn [option_words flat_map app find]. unfold short_word, long_word. cbn [append].
  cbn [dget String.eqb]. change (Ascii.eqb "-" "-") with true. cbn iota.
  destruct (Ascii.eqb "-" (o_short o)) eqn:E.
  - exfalso. apply Ascii.eqb_eq in E. now apply (G o (or_introl eq_refl)).
  - rewrite (String.eqb_sym (o_long o) p). destruct (String.eqb p (o_long o)); [reflexivity|].
    apply IH. intros x I. apply G. now right.
Qed.
Lemma find_word_other t c d r : wf t -> c <> "-"%char -> find_word t (String "-" (String c (String d r))) = None.
Proof.
  intros W N. unfold find_word. clear W. induction t as [|o t IH]; [reflexivity|].
  cbn [option_words flat_map app]. unfold short_word, long_word. cbn [append dget String.eqb].
  change (Ascii.eqb "-" "-") with true. cbn iota. rewrite (proj2 (Ascii.eqb_neq c "-") N).
  destruct (Ascii.eqb c (o_short o)); exact IH.
Qed.
Lemma find_word_dash t : find_word t "-" = None.
Proof.
  unfold find_word. induction t as [|o t IH]; [reflexivity|]. cbn [option_words flat_map app]. unfold short_word, long_word. cbn [append dget String.eqb].
  change (Ascii.eqb "-" "-") with true. cbn iota. exact IH.
Qed.

Lemma tuples_short t c d r : wf t -> c <> "-"%char ->
  option_tuples t (String "-" (String c (String d r))) =
  map (fun o => (o, short_word o, Some (String d r))) (filter (fun o => Ascii.eqb (o_short o) c) t).
Proof.
  intros W N. unfold option_tuples.
  replace (match c with "-"%char => _ | _ => _ end) with
    (flat_map (fun p : string * optdef =>
        if String.eqb (fst p) (String "-" (String c "")) then [(snd p, fst p, Some (String d r))]
        else if String.prefix (String "-" (String c (String d r))) (fst p) then [(snd p, fst p, None)] else []) (option_words t))
    by (destruct c as [[] [] [] [] [] [] [] []]; try reflexivity; contradiction).
  clear W. induction t as [|o t IH]; [reflexivity|].
  cbn [option_words flat_map app]. fold (option_words t). rewrite IH. clear IH.
  unfold short_word at 1 2 3 4, long_word at 1 2 3 4. cbn [append fst snd String.eqb].
  change (Ascii.eqb "-" "-") with true. cbn iota.
  destruct (Ascii.eqb "-" c) eqn:E; [apply Ascii.eqb_eq in E; congruence|]. clear E.
  cbn [filter]. destruct (Ascii.eqb (o_short o) c) eqn:E.
  - apply Ascii.eqb_eq in E. cbn [map app]. f_equal.
    replace (String.prefix _ (String "-" (String "-" (o_long o)))) with false; [reflexivity|].
    symmetry. apply not_true_iff_false. intro P. apply prefix_iff in P. destruct P as [q P]. injection P as P _. congruence.
  - apply Ascii.eqb_neq in E.
    replace (String.prefix (String "-" (String c (String d r))) (String "-" (String (o_short o) ""))) with false.
    replace (String.prefix _ (String "-" (String "-" (o_long o)))) with false; [reflexivity|].
    all: symmetry; apply not_true_iff_false; intro P; apply prefix_iff in P; destruct P as [q P]; injection P as P; congruence.
Qed.

(** The part before the equals sign, and the value after it. *)
Definition parts (s : string) : string * option string := match split_eq s with Some (a, b) => (a, Some b) | None => (s, None) end.
Lemma tuples_long t r : wf t ->
  option_tuples t ("--" ++ r)%string =
  map (fun o => (o, long_word o, snd (parts r))) (filter (fun o => String.prefix (fst (parts r)) (o_long o)) t).
Proof.
  intros W. unfold option_tuples. cbn [append split_eq].
  change (Ascii.eqb "-" "=") with false. cbn iota.
  assert (S : forall e, (let '(prefix, explicit) := match (match (match split_eq r with Some (a, b) => Some (String "-" a, b) | None => None end)
                 with Some (a, b) => Some (String "-" a, b) | None => None end) with Some (a, b) => (a, Some b) | None => (String "-" (String "-" r), e) end in (prefix, explicit))
             = match snd (parts r) with Some b => (("--" ++ fst (parts r))%string, Some b) | None => (("--" ++ fst (parts r))%string, e) end).
  { intro e. unfold parts. destruct (split_eq r) as [[a b]|]; reflexivity. }
  specialize (S None). revert S.
  destruct (match (match (match split_eq r with Some (a, b) => Some (String "-" a, b) | None => None end)
                 with Some (a, b) => Some (String "-" a, b) | None => None end) with Some (a, b) => (a, Some b) | None => (String "-" (String "-" r), None) end) as [p e].
  intro S. destruct (parts r) as [p' e']. cbn [fst snd] in *.
  assert (K : p = ("--" ++ p')%string /\ e = e') by (destruct e'; injection S as -> ->; split; reflexivity).
  destruct K as [-> ->]. clear S.
  assert (G : forall o, In o t -> o_short o <> "-"%char) by (intros o I; apply (wf_chars t W o I)). clear W.
  induction t as [|o t IH]; [reflexivity|]. cbn [option_words flat_map app]. fold (option_words t). rewrite IH by (intros x I; apply G; now right). clear IH.
  cbn [fst snd]. replace (String.prefix ("--" ++ p') (short_word o)) with false.
  2: { symmetry. apply not_true_iff_false. intro P. apply prefix_iff in P. destruct P as [q P]. injection P as P _. now apply (G o (or_introl eq_refl)). }
  cbn [app filter]. replace (String.prefix ("--" ++ p') (long_word o)) with (String.prefix p' (o_long o)).
  - destruct (String.prefix p' (o_long o)); reflexivity.
  - apply eq_true_iff_eq. rewrite !prefix_iff. unfold long_word. split; intros [q H]; exists q; [now rewrite H|]. now injection H.
Qed.

Definition unclaimed (s : string) : option word :=
  if negative_number s then Some WArg else if has_char " " s then Some WArg else Some (WOpt None s None).
(** The classification, case by case. *)
Lemma classify_short t c r : wf t -> c <> "-"%char ->
  classify t (String "-" (String c r)) =
  match find (fun o => Ascii.eqb (o_short o) c) t with
  | Some o => Some (WOpt (Some o) (String "-" (String c "")) match r with "" => None | String d v => if Ascii.eqb d "=" then Some v else Some r end)
  | None => unclaimed (String "-" (String c r))
  end.
Proof.
  intros W N. unfold classify. change (negb (Ascii.eqb "-" "-")) with false. cbn iota.
  destruct r as [|d r].
  - rewrite find_word_short by assumption.
    destruct (find _ t) as [o|] eqn:F; [reflexivity|].
    cbn [String.eqb].
    assert (T : option_tuples t (String "-" (String c "")) = []).
    { unfold option_tuples.
      replace (match c with "-"%char => _ | _ => _ end) with
        (flat_map (fun p : string * optdef =>
            if String.eqb (fst p) (String "-" (String c "")) then [(snd p, fst p, Some ""%string)]
            else if String.prefix (String "-" (String c "")) (fst p) then [(snd p, fst p, None)] else []) (option_words t))
        by (destruct c as [[] [] [] [] [] [] [] []]; try reflexivity; contradiction).
      assert (G : forall o, In o t -> o_short o <> c).
      { intros o I E. apply (find_none _ _ F) in I. rewrite E, Ascii.eqb_refl in I. discriminate I. }
      clear F W. induction t as [|o t IH]; [reflexivity|]. cbn [option_words flat_map app]. fold (option_words t).
      rewrite IH by (intros x I; apply G; now right). cbn [fst snd]. unfold short_word, long_word. cbn [append String.eqb].
      change (Ascii.eqb "-" "-") with true. cbn iota. rewrite (proj2 (Ascii.eqb_neq (o_short o) c) (G o (or_introl eq_refl))).
      rewrite (proj2 (Ascii.eqb_neq "-" c)) by congruence.
      replace (String.prefix (String "-" (String c "")) (String "-" (String (o_short o) ""))) with false.
      replace (String.prefix _ (String "-" (String "-" (o_long o)))) with false; [reflexivity|].
      all: symmetry; apply not_true_iff_false; intro P; apply prefix_iff in P; destruct P as [q P]; injection P as P; try congruence.
      now apply (G o (or_introl eq_refl)). }
    rewrite T. unfold unclaimed. cbn [split_eq]. change (Ascii.eqb "-" "=") with false. cbn iota.
    destruct (Ascii.eqb c "="); [|reflexivity]. rewrite find_word_dash. reflexivity.
  - rewrite find_word_other by assumption. cbn [String.eqb]. rewrite tuples_short by assumption.
    assert (Q : filter (fun o => Ascii.eqb (o_short o) c) t = match find (fun o => Ascii.eqb (o_short o) c) t with Some o => [o] | None => [] end).
    { pose proof (wf_shorts t W) as D. clear W. induction t as [|o t IH]; [reflexivity|]. inversion D as [|? ? F D']; subst. cbn [filter find].
      destruct (Ascii.eqb (o_short o) c) eqn:E; [|now apply IH]. apply Ascii.eqb_eq in E.
      f_equal. rewrite (IH D'). destruct (find _ t) as [x|] eqn:X; [|reflexivity]. exfalso. apply find_some in X. destruct X as [X Y].
      apply Ascii.eqb_eq in Y. apply F. rewrite E, <- Y. now apply in_map. }
    rewrite Q. clear Q. cbn [split_eq]. change (Ascii.eqb "-" "=") with false. cbn iota.
    destruct (find _ t) as [o|] eqn:F.
    + pose proof (find_some _ _ F) as [I E]. apply Ascii.eqb_eq in E.
      assert (C : Ascii.eqb c "=" = false) by (apply Ascii.eqb_neq; rewrite <- E; apply (wf_chars t W o I)). rewrite C.
      cbn [map]. unfold short_word. rewrite E. destruct (Ascii.eqb d "=") eqn:D.
      * rewrite find_word_short, F by assumption. reflexivity.
      * destruct (split_eq r) as [[a b]|]; [|reflexivity]. rewrite find_word_other by assumption. reflexivity.
    + cbn [map]. fold (unclaimed (String "-" (String c (String d r)))).
      destruct (Ascii.eqb c "="); [rewrite find_word_dash; reflexivity|].
      destruct (Ascii.eqb d "="); [rewrite find_word_short, F by assumption; reflexivity|].
      destruct (split_eq r) as [[a b]|]; [|reflexivity]. rewrite find_word_other by assumption. reflexivity.
Qed.
Lemma classify_long t r : wf t ->
  classify t ("--" ++ r)%string =
  match find (fun o => String.eqb (o_long o) (fst (parts r))) t with
  | Some o => Some (WOpt (Some o) ("--" ++ fst (parts r))%string (snd (parts r)))
  | None => match filter (fun o => String.prefix (fst (parts r)) (o_long o)) t with
      | [] => unclaimed ("--" ++ r)%string
      | [o] => Some (WOpt (Some o) (long_word o) (snd (parts r)))
      | _ => None
      end
  end.
Proof.
  intros W. unfold classify. cbn [append]. change (negb (Ascii.eqb "-" "-")) with false. cbn iota.
  change (String "-" (String "-" r)) with ("--" ++ r)%string. rewrite find_word_long, tuples_long by assumption.
  replace (split_eq ("--" ++ r)) with (match split_eq r with Some (a, b) => Some (("--" ++ a)%string, b) | None => None end).
  2: { cbn [append split_eq]. change (Ascii.eqb "-" "=") with false. cbn iota. destruct (split_eq r) as [[a b]|]; reflexivity. }
  change (String.eqb (String "-" r) "") with false. cbn iota.
  unfold parts. destruct (split_eq r) as [[a b]|] eqn:S; cbn [fst snd].
  - destruct (find (fun o => String.eqb (o_long o) r) t) as [o|] eqn:F.
    { exfalso. apply find_some in F. destruct F as [I E]. apply String.eqb_eq in E. destruct (wf_chars t W o I) as (_ & _ & Q & _).
      rewrite E in Q. apply split_none in Q. congruence. }
    rewrite find_word_long by assumption. destruct (find (fun o => String.eqb (o_long o) a) t) as [o|]; [reflexivity|].
    unfold unclaimed. destruct (filter _ t) as [|o [|o' l]]; reflexivity.
  - destruct (find _ t) as [o|]; [reflexivity|]. unfold unclaimed. destruct (filter _ t) as [|o [|o' l]]; reflexivity.
Qed.

(** ** Values *)
Lemma find_short_iff t c o : wf t -> find (fun o => Ascii.eqb (o_short o) c) t = Some o <-> In o t /\ o_short o = c.
Proof.
  intro W. split.
  - intro F. apply find_some in F. rewrite Ascii.eqb_eq in F. exact F.
  - intros [I E]. destruct (find _ t) as [x|] eqn:F.
    + apply find_some in F. rewrite Ascii.eqb_eq in F. destruct F as [J G]. f_equal. apply (inj_in o_short t); try assumption; [apply W|congruence].
    + exfalso. apply (find_none _ _ F) in I. rewrite E, Ascii.eqb_refl in I. discriminate I.
Qed.
Lemma find_long_iff t p o : wf t -> find (fun o => String.eqb (o_long o) p) t = Some o <-> In o t /\ o_long o = p.
Proof.
  intro W. split.
  - intro F. apply find_some in F. rewrite String.eqb_eq in F. exact F.
  - intros [I E]. destruct (find _ t) as [x|] eqn:F.
    + apply find_some in F. rewrite String.eqb_eq in F. destruct F as [J G]. f_equal. apply (inj_in o_long t); try assumption; [apply W|congruence].
    + exfalso. apply (find_none _ _ F) in I. rewrite E, String.eqb_refl in I. discriminate I.
Qed.
Lemma eq_free_app a b : eq_free (a ++ b)%string -> eq_free a.
Proof. unfold eq_free. rewrite list_app. intros H I. apply H, in_or_app. now left. Qed.
Lemma parts_spec r : (eq_free r /\ parts r = (r, None)) \/ exists p v, eq_free p /\ r = (p ++ "=" ++ v)%string /\ parts r = (p, Some v).
Proof.
  unfold parts. destruct (split_eq r) as [[a b]|] eqn:S.
  - apply split_some in S. right. exists a, b. tauto.
  - apply split_none in S. now left.
Qed.
Lemma parts_free p : eq_free p -> parts p = (p, None).
Proof. intro H. unfold parts. apply split_none in H. now rewrite H. Qed.
Lemma parts_equal p v : eq_free p -> parts (p ++ "=" ++ v)%string = (p, Some v).
Proof. intro H. unfold parts. now rewrite (proj2 (split_some _ p v) (conj eq_refl H)). Qed.

Lemma claims_short t o c r : wf t -> In o t -> c <> "-"%char -> claims o (String "-" (String c r)) <-> o_short o = c.
Proof.
  intros W I N. split.
  - intro H. inversion H; subst; congruence.
  - intros <-. apply claim_short.
Qed.
Lemma claims_long t o r : wf t -> In o t -> claims o ("--" ++ r)%string <-> String.prefix (fst (parts r)) (o_long o) = true.
Proof.
  intros W I. destruct (wf_chars t W o I) as (N & _ & Q & _). rewrite prefix_iff. split.
  - intro H. inversion H as [r' E|p q L E|p q v L E]; subst.
    + congruence.
    + rewrite parts_free by (rewrite L in Q; now apply eq_free_app in Q). exists q. exact L.
    + change (String "=" v) with ("=" ++ v)%string. rewrite parts_equal by (rewrite L in Q; now apply eq_free_app in Q). exists q. exact L.
  - intros [q L]. destruct (parts_spec r) as [[F P]|(p & v & F & -> & P)]; rewrite P in L; cbn [fst] in L.
    + now apply claim_long with q.
    + now apply (claim_equal o p q v).
Qed.
Lemma unclaimed_arg s : unclaimed s = Some WArg <-> negative s \/ In " "%char (list_ascii_of_string s).
Proof.
  unfold unclaimed. rewrite <- negative_iff, <- has_char_iff.
  destruct (negative_number s), (has_char " " s); split; auto; try discriminate; intros [H|H]; discriminate H.
Qed.
Lemma value_iff t s : wf t -> classify t s = Some WArg <-> value t s.
Proof.
  intro W. destruct s as [|c s]; [split; [constructor|reflexivity]|].
  destruct (ascii_dec c "-") as [->|N].
  2: { unfold classify. rewrite (proj2 (Ascii.eqb_neq c "-") N). split; [intros _; now constructor|reflexivity]. }
  destruct s as [|c s].
  { split; [intros _; apply value_dash|]. intros _. cbn -[find_word]. rewrite find_word_dash. reflexivity. }
  assert (U : forall b : Prop, ((forall o, In o t -> ~ claims o (String "-" (String c s))) <-> b) ->
     (b /\ unclaimed (String "-" (String c s)) = Some WArg <-> value t (String "-" (String c s)))).
  { intros b B. rewrite unclaimed_arg, <- B. split.
    - intros [H K]. constructor; [exact H|]. cbn [list_ascii_of_string In] in *. destruct K as [K|[K|K]]; [now left|discriminate K|now right].
    - intro V. inversion V as [|? ? X| |? ? H K]; subst; [congruence|]. split; [exact H|]. cbn [list_ascii_of_string In] in *. destruct K as [K|K]; auto. }
  destruct (ascii_dec c "-") as [->|N].
  - change (String "-" (String "-" s)) with ("--" ++ s)%string in *. rewrite classify_long by assumption.
    rewrite <- (U (filter (fun o => String.prefix (fst (parts s)) (o_long o)) t = [])).
    + destruct (find _ t) as [o|] eqn:F.
      * split; [discriminate|]. intros [H _]. exfalso. apply find_long_iff in F; [|exact W]. destruct F as [I E].
        assert (X : In o (filter (fun o => String.prefix (fst (parts s)) (o_long o)) t)) by (apply filter_In; split; [exact I|]; apply prefix_iff; exists ""%string; now rewrite app_nil_str).
        rewrite H in X. destruct X.
      * destruct (filter _ t) as [|o [|o' l]]; split; try discriminate; try (intros [X _]; discriminate X); auto. intros [_ H]. exact H.
    + split.
      * intro H. destruct (filter _ t) as [|o l] eqn:F; [reflexivity|]. exfalso.
        assert (X : In o (o :: l)) by now left. rewrite <- F in X. apply filter_In in X. destruct X as [I P].
        apply (H o I). now apply (claims_long t).
      * intros F o I H. apply (claims_long t) in H; [|assumption|assumption].
        assert (X : In o (filter (fun o => String.prefix (fst (parts s)) (o_long o)) t)) by now apply filter_In. rewrite F in X. destruct X.
  - rewrite classify_short by assumption. rewrite <- (U (find (fun o => Ascii.eqb (o_short o) c) t = None)).
    + destruct (find _ t); split; try discriminate; try (intros [X _]; discriminate X); auto. intros [_ H]. exact H.
    + split.
      * intro H. destruct (find _ t) as [o|] eqn:F; [|reflexivity]. exfalso. apply find_short_iff in F; [|assumption]. destruct F as [I E].
        apply (H o I). now apply (claims_short t).
      * intros F o I H. apply (claims_short t) in H; [|assumption..]. apply (find_none _ _ F) in I. rewrite H, Ascii.eqb_refl in I. discriminate I.
Qed.

(** ** Options *)
Fixpoint flags (t : list optdef) (o : optdef) (os e : string) : option (list optdef * optdef * option string) :=
  match o_nargs o with
  | Zero =>
      match os, e with
      | String _ (String "-" _), _ => None
      | _, "" => None
      | _, String c e' =>
          let os' := String "-" (String c "") in
          match find_word t os' with
          | None => None
          | Some o' =>
              match e' with
              | "" => Some ([o], o', None)
              | _ => match flags t o' os' e' with Some (l, x, v) => Some (o :: l, x, v) | None => None end
              end
          end
      end
  | _ => Some ([], o, Some e)
  end%string.
Definition bare (o : optdef) : optdef * list string := (o, []).
Lemma cluster_flags t o os e : cluster t o os e =
  match flags t o os e with
  | None => None
  | Some (fs, x, None) => Some (map bare fs, Some x)
  | Some (fs, x, Some v) => Some (map bare fs ++ [(x, [v])], None)
  end.
Proof.
  revert o os. induction e as [|c e IH]; intros o os.
  - cbn. destruct (o_nargs o); try reflexivity. destruct os as [|a [|[[] [] [] [] [] [] [] []] b]]; reflexivity.
  - cbn. destruct (o_nargs o); try reflexivity.
    assert (K : match find_word t (String "-" (String c "")) with
      | None => None
      | Some o' => match e with
          | ""%string => Some ([(o, [])], Some o')
          | _ => match cluster t o' (String "-" (String c "")) e with Some (l, last) => Some (((o, []) :: l)%list, last) | None => None end
          end end =
      match (match find_word t (String "-" (String c "")) with
      | None => None
      | Some o' => match e with
          | ""%string => Some ([o], o', None)
          | _ => match flags t o' (String "-" (String c "")) e with Some (l, x, v) => Some (o :: l, x, v) | None => None end
          end end) with
      | None => None
      | Some (fs, x, None) => Some (map bare fs, Some x)
      | Some (fs, x, Some v) => Some (map bare fs ++ [(x, [v])], None)
      end).
    { destruct (find_word t _) as [o'|]; [|reflexivity]. destruct e as [|d e]; [reflexivity|]. rewrite IH.
      destruct (flags t o' _ _) as [[[l x] [v|]]|]; reflexivity. }
    destruct os as [|a [|b os]]; try exact K.
    destruct (ascii_dec b "-") as [->|N]; [reflexivity|].
    destruct b as [[] [] [] [] [] [] [] []]; try exact K. contradiction.
Qed.
Lemma flags_zero t o x c e : o_nargs o = Zero -> x <> "-"%char ->
  flags t o (String "-" (String x "")) (String c e) =
  match find_word t (String "-" (String c "")) with
  | None => None
  | Some o' =>
      match e with
      | ""%string => Some ([o], o', None)
      | _ => match flags t o' (String "-" (String c "")) e with Some (l, x, v) => Some (o :: l, x, v) | None => None end
      end
  end.
Proof.
  intros Z N. cbn [flags]. rewrite Z. destruct x as [[] [] [] [] [] [] [] []]; try reflexivity. contradiction.
Qed.
Lemma find_word_letter t c o : wf t -> find_word t (String "-" (String c "")) = Some o <-> In o t /\ o_short o = c.
Proof.
  intro W. destruct (ascii_dec c "-") as [->|N].
  - change (String "-" "-") with ("--" ++ "")%string. rewrite find_word_long, find_long_iff by assumption.
    split; intros [I E]; exfalso; destruct (wf_chars t W o I) as (A & _ & _ & B); auto.
  - rewrite find_word_short, find_short_iff by assumption. reflexivity.
Qed.
Lemma takes_iff o : takes_value o <-> o_nargs o <> Zero. Proof. reflexivity. Qed.
Lemma letters_cons o fs : letters (o :: fs) = String (o_short o) (letters fs). Proof. reflexivity. Qed.

(** What follows the letter of the first option. *)
Definition follows (t : list optdef) (o : optdef) (e : string) (fs : list optdef) (x : optdef) (v : option string) : Prop :=
  (fs = [] /\ x = o /\ takes_value o /\ v = Some e) \/
  exists fs', fs = o :: fs' /\ (forall f, In f fs -> In f t /\ ~ takes_value f) /\ In x t /\
    ((v = None /\ e = letters (fs' ++ [x])) \/
     exists c v', v = Some (String c v') /\ takes_value x /\ e = (letters (fs' ++ [x]) ++ String c v')%string).
Lemma flags_sound t e : wf t -> forall o fs x v, In o t ->
  flags t o (short_word o) e = Some (fs, x, v) -> follows t o e fs x v.
Proof.
  intro W. induction e as [|c e IH]; intros o fs x v I H.
  - unfold follows. destruct (o_nargs o) eqn:Z.
    1-3: cbn in H; rewrite Z in H; injection H as <- <- <-; left; repeat split; unfold takes_value; congruence.
    cbn in H. rewrite Z in H. exfalso. destruct (o_short o) as [[] [] [] [] [] [] [] []]; discriminate H.
  - unfold follows. destruct (o_nargs o) eqn:Z.
    1-3: cbn in H; rewrite Z in H; injection H as <- <- <-; left; repeat split; unfold takes_value; congruence.
    right. assert (T : ~ takes_value o) by (unfold takes_value; congruence).
    unfold short_word in H. rewrite flags_zero in H; [|exact Z|apply (wf_chars t W o I)].
    destruct (find_word t _) as [o'|] eqn:F; [|discriminate H]. apply find_word_letter in F; [|exact W]. destruct F as [J <-].
    destruct e as [|d e].
    + injection H as <- <- <-. exists []. split; [reflexivity|]. split; [intros f [<-|[]]; auto|]. split; [exact J|]. left. split; reflexivity.
    + destruct (flags t o' _ _) as [[[l x'] v']|] eqn:G; [|discriminate H]. injection H as <- <- <-.
      destruct (IH o' l x' v' J G) as [(-> & -> & T' & ->)|(fs' & -> & A & X & [(-> & E)|(d' & v'' & -> & T' & E)])].
      * exists []. split; [reflexivity|]. split; [intros f [<-|[]]; auto|]. split; [exact J|]. right. exists d, e. repeat split; assumption.
      * exists (o' :: fs'). split; [reflexivity|]. split; [intros f [<-|K]; auto|]. split; [exact X|]. left. split; [reflexivity|]. rewrite E. reflexivity.
      * exists (o' :: fs'). split; [reflexivity|]. split; [intros f [<-|K]; auto|]. split; [exact X|]. right. exists d', v''. repeat split; try assumption. rewrite E. reflexivity.
Qed.
Lemma flags_takes t o os e : takes_value o -> flags t o os e = Some ([], o, Some e).
Proof. unfold takes_value. intro T. destruct e; cbn; destruct (o_nargs o); try reflexivity; contradiction. Qed.
Lemma flags_complete t fs : wf t -> forall o x v, In o t -> (forall f, In f (o :: fs) -> In f t /\ ~ takes_value f) -> In x t ->
  (v = ""%string \/ takes_value x) ->
  flags t o (short_word o) (letters (fs ++ [x]) ++ v)%string =
  Some (o :: fs, x, match v with ""%string => None | _ => Some v end).
Proof.
  intro W. induction fs as [|f fs IH]; intros o x v I A X T.
  - assert (Z : o_nargs o = Zero) by (destruct (A o (or_introl eq_refl)) as [_ N]; unfold takes_value in N; destruct (o_nargs o); try reflexivity; exfalso; apply N; discriminate).
    change (letters ([] ++ [x]) ++ v)%string with (String (o_short x) v). unfold short_word. rewrite flags_zero; [|exact Z|apply (wf_chars t W o I)].
    rewrite (proj2 (find_word_letter t (o_short x) x W) (conj X eq_refl)).
    destruct v as [|c v]; [reflexivity|]. destruct T as [T|T]; [discriminate T|]. rewrite flags_takes by exact T. reflexivity.
  - assert (Z : o_nargs o = Zero) by (destruct (A o (or_introl eq_refl)) as [_ N]; unfold takes_value in N; destruct (o_nargs o); try reflexivity; exfalso; apply N; discriminate).
    assert (F : In f t) by (apply A; right; now left).
    rewrite <- app_comm_cons, letters_cons. cbn [append]. unfold short_word. rewrite flags_zero; [|exact Z|apply (wf_chars t W o I)].
    rewrite (proj2 (find_word_letter t (o_short f) f W) (conj F eq_refl)).
    fold (short_word f). rewrite (IH f x v F); [|intros y K; apply A; now right|exact X|exact T].
    assert (E : exists c s, (letters (fs ++ [x]) ++ v)%string = String c s) by (destruct fs; cbn; eauto). destruct E as (c & s & E). rewrite E. reflexivity.
Qed.

(** What a word gives. *)
Definition entry (t : list optdef) (w : string) : option (list optdef * optdef * option string) :=
  match classify t w with
  | Some (WOpt (Some o) os None) => Some ([], o, None)
  | Some (WOpt (Some o) os (Some e)) => flags t o os e
  | _ => None
  end.
Lemma flags_long t o a b e : flags t o (String a (String "-" b)) e = match o_nargs o with Zero => None | _ => Some ([], o, Some e) end.
Proof. destruct e; cbn; destruct (o_nargs o); reflexivity. Qed.

Lemma names_long_entry t o p r e : wf t -> In o t -> parts r = (p, e) ->
  (o_long o = p \/ (String.prefix p (o_long o) = true /\ forall o', In o' t -> String.prefix p (o_long o') = true -> o' = o)) ->
  exists b, classify t ("--" ++ r)%string = Some (WOpt (Some o) (String "-" (String "-" b)) e).
Proof.
  intros W I P H. rewrite classify_long, P by assumption. cbn [fst snd].
  destruct (find _ t) as [o'|] eqn:F.
  - exists p. assert (E : o' = o); [|now rewrite E]. apply find_long_iff in F; [|exact W]. destruct F as [J E].
    destruct H as [H|[_ H]]; [apply (inj_in o_long t); try assumption; [apply W|congruence]|].
    apply H; [exact J|]. apply prefix_iff. exists ""%string. now rewrite app_nil_str.
  - destruct H as [H|[H U]].
    + exfalso. apply (find_none _ _ F) in I. rewrite H, String.eqb_refl in I. discriminate I.
    + exists (o_long o). destruct (filter _ t) as [|a [|b l]] eqn:G.
      * exfalso. assert (X : In o []) by (rewrite <- G; now apply filter_In). destruct X.
      * assert (X : In a [a]) by now left. rewrite <- G in X. apply filter_In in X. rewrite (U a) by apply X. reflexivity.
      * exfalso. assert (X : In a (a :: b :: l)) by now left. assert (Y : In b (a :: b :: l)) by (right; now left).
        assert (D : NoDup (a :: b :: l)) by (rewrite <- G; apply NoDup_filter, (NoDup_map_inv o_long), W).
        rewrite <- G in X, Y. apply filter_In in X, Y. rewrite (U a), (U b) in D by (apply X || apply Y).
        inversion D as [|? ? N]. apply N. now left.
Qed.
Lemma names_cases t o w : wf t -> names t o w ->
  (In o t /\ w = short_word o) \/
  exists p, In o t /\ w = ("--" ++ p)%string /\ eq_free p /\
    (o_long o = p \/ (String.prefix p (o_long o) = true /\ forall o', In o' t -> String.prefix p (o_long o') = true -> o' = o)).
Proof.
  intros W [I|p q I L U]; [now left|]. right. exists p. split; [exact I|]. split; [reflexivity|].
  split; [destruct (wf_chars t W o I) as (_ & _ & Q & _); rewrite L in Q; now apply eq_free_app in Q|].
  destruct U as [->|U]; [left; now rewrite L, app_nil_str|]. right. split; [apply prefix_iff; now exists q|].
  intros o' J P. apply prefix_iff in P. destruct P as [q' P]. now apply (U o' q').
Qed.
Lemma entry_short t o r : wf t -> In o t ->
  entry t (String "-" (String (o_short o) r)) =
  match r with
  | ""%string => Some ([], o, None)
  | String d v => flags t o (short_word o) (if Ascii.eqb d "=" then v else r)
  end.
Proof.
  intros W I. unfold entry. rewrite classify_short; [|exact W|apply (wf_chars t W o I)].
  rewrite (proj2 (find_short_iff t (o_short o) o W) (conj I eq_refl)). destruct r as [|d v]; [reflexivity|].
  unfold short_word. destruct (Ascii.eqb d "="); reflexivity.
Qed.
Lemma not_equal_letter t fs x d s : wf t -> (forall f, In f fs -> In f t) -> In x t -> forall r, (letters (fs ++ [x]) ++ r)%string = String d s -> d <> "="%char.
Proof.
  intros W A X r E. destruct fs as [|f fs]; cbn in E; injection E as <- _.
  - apply (wf_chars t W x X).
  - apply (wf_chars t W f). apply A. now left.
Qed.
Lemma unclaimed_entry t s r : match unclaimed s with
  | Some (WOpt (Some o) os None) => Some ([], o, None)
  | Some (WOpt (Some o) os (Some e)) => flags t o os e
  | _ => None end <> Some r.
Proof. unfold unclaimed. destruct (negative_number s); [discriminate|]. destruct (has_char " " s); discriminate. Qed.
Lemma entry_iff t w fs o v : wf t -> entry t w = Some (fs, o, v) <-> word_gives t w fs o v.
Proof.
  intro W. split.
  - intro H. destruct w as [|a [|c r]]; [discriminate H| |].
    + unfold entry in H. destruct (ascii_dec a "-") as [->|N].
      * rewrite (proj2 (value_iff t "-" W)) in H by apply value_dash. discriminate H.
      * rewrite (proj2 (value_iff t _ W)) in H by now apply value_plain. discriminate H.
    + destruct (ascii_dec a "-") as [->|N].
      2: { unfold entry in H. rewrite (proj2 (value_iff t _ W)) in H by now apply value_plain. discriminate H. }
      destruct (ascii_dec c "-") as [->|N].
      * change (String "-" (String "-" r)) with ("--" ++ r)%string in *. unfold entry in H. rewrite classify_long in H by assumption.
        assert (K : forall x b e, snd (parts r) = e -> In x t -> (o_long x = fst (parts r) \/ (String.prefix (fst (parts r)) (o_long x) = true /\ forall o', In o' t -> String.prefix (fst (parts r)) (o_long o') = true -> o' = x)) ->
          match e with None => Some ([], x, None) | Some e => flags t x (String "-" (String "-" b)) e end = Some (fs, o, v) -> word_gives t ("--" ++ r)%string fs o v).
        { intros x b e E I U X.
          assert (M : names t x ("--" ++ fst (parts r))%string).
          { destruct U as [U|[U U']].
            - apply name_long with ""%string; [exact I|now rewrite app_nil_str|now left].
            - apply prefix_iff in U. destruct U as [q U]. apply name_long with q; [exact I|exact U|]. right. intros o' q' J Q. apply U'; [exact J|]. apply prefix_iff. now exists q'. }
          destruct (parts_spec r) as [[F P]|(p & s & F & R & P)]; rewrite P in E, M; cbn [fst snd] in E, M; subst e.
          - injection X as <- <- <-. now apply word_name.
          - rewrite flags_long in X. assert (T : takes_value x) by (unfold takes_value; destruct (o_nargs x); discriminate).
            assert (Y : ([], x, Some s) = (fs, o, v)) by (destruct (o_nargs x); try discriminate X; now injection X as <- <- <-).
            injection Y as <- <- <-. rewrite R. change ("--" ++ p ++ "=" ++ s)%string with (("--" ++ p) ++ "=" ++ s)%string.
            now apply word_equal. }
        destruct (find _ t) as [x|] eqn:F.
        -- apply find_long_iff in F; [|exact W]. apply (K x (fst (parts r)) _ eq_refl); [apply F|left; apply F|exact H].
        -- destruct (filter _ t) as [|x [|y l]] eqn:G; [exfalso; revert H; apply unclaimed_entry| |discriminate H].
           assert (X : In x [x]) by now left. rewrite <- G in X. apply filter_In in X.
           apply (K x (o_long x) _ eq_refl); [apply X| |exact H]. right. split; [apply X|].
           intros y J P. assert (Y : In y [x]) by (rewrite <- G; now apply filter_In). destruct Y as [<-|[]]. reflexivity.
      * destruct (find (fun o => Ascii.eqb (o_short o) c) t) as [x|] eqn:F.
        2: { exfalso. revert H. unfold entry. rewrite classify_short, F by assumption. apply unclaimed_entry. }
        apply find_short_iff in F; [|exact W]. destruct F as [I <-]. rewrite entry_short in H by assumption.
        destruct r as [|d s].
        -- injection H as <- <- <-. apply word_name, name_short, I.
        -- destruct (Ascii.eqb d "=") eqn:D.
           ++ apply Ascii.eqb_eq in D. subst d. apply flags_sound in H; [|assumption..].
              destruct H as [(-> & -> & T & ->)|(fs' & -> & A & X & [(-> & ->)|(c' & v' & -> & T & ->)])].
              ** apply (word_equal t x (short_word x) s); [apply name_short, I|exact T].
              ** apply (word_flags t x fs' "=" o); auto.
              ** apply (word_flags_glued t x fs' "=" o c' v'); auto.
           ++ apply Ascii.eqb_neq in D. apply flags_sound in H; [|assumption..].
              destruct H as [(-> & -> & T & ->)|(fs' & -> & A & X & [(-> & E)|(c' & v' & -> & T & E)])].
              ** now apply word_glued.
              ** rewrite E. apply (word_flags t x fs' "" o); auto.
              ** rewrite E. apply (word_flags_glued t x fs' "" o c' v'); auto.
  - intros [x w' M|x w' s M T|x c s I T N|f fs' eq x A I Q|f fs' eq x c s A I T Q].
    + destruct (names_cases t x w' W M) as [[I ->]|(p & I & -> & F & U)].
      * unfold short_word. now rewrite entry_short.
      * unfold entry. destruct (names_long_entry t x p p None W I (parts_free p F) U) as [b ->]. reflexivity.
    + destruct (names_cases t x w' W M) as [[I ->]|(p & I & -> & F & U)].
      * unfold short_word. cbn [append]. rewrite entry_short by assumption. change (Ascii.eqb "=" "=") with true. cbn iota. now apply flags_takes.
      * change (("--" ++ p) ++ "=" ++ s)%string with ("--" ++ p ++ "=" ++ s)%string.
        unfold entry. destruct (names_long_entry t x p (p ++ "=" ++ s)%string (Some s) W I (parts_equal p s F) U) as [b ->]. now apply flags_takes.
    + rewrite entry_short by assumption. rewrite (proj2 (Ascii.eqb_neq c "=") N). now apply flags_takes.
    + assert (J : In f t) by (apply A; now left). rewrite entry_short by assumption.
      pose proof (flags_complete t fs' W f x ""%string J A I (or_introl eq_refl)) as H. rewrite app_nil_str in H.
      destruct Q as [->| ->]; cbn [append].
      * destruct (letters (fs' ++ [x])) as [|d r] eqn:E; [destruct fs'; discriminate E|].
        rewrite (proj2 (Ascii.eqb_neq d "=")); [exact H|].
        apply (not_equal_letter t fs' x d r W) with ""%string; [intros y K; apply A; now right|exact I|now rewrite app_nil_str].
      * change (Ascii.eqb "=" "=") with true. cbn iota. exact H.
    + assert (J : In f t) by (apply A; now left). rewrite entry_short by assumption.
      pose proof (flags_complete t fs' W f x (String c s) J A I (or_intror T)) as H.
      destruct Q as [->| ->]; cbn [append].
      * destruct (letters (fs' ++ [x]) ++ String c s)%string as [|d r] eqn:E; [destruct fs'; discriminate E|].
        rewrite (proj2 (Ascii.eqb_neq d "=")); [exact H|].
        apply (not_equal_letter t fs' x d r W) with (String c s); [intros y K; apply A; now right|exact I|exact E].
      * change (Ascii.eqb "=" "=") with true. cbn iota. exact H.
Qed.
