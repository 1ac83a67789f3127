(** Facts about the text computed by CryptarithmSolver. *)
From Verif Require Import Cryptarithm SpecCryptarithm Dec DecFacts PyTextFacts DictFacts.
Open Scope list_scope.
Open Scope Z_scope.

(** ** Characters *)

Lemma code_ord c : code_of c = ord c. Proof. reflexivity. Qed.
Lemma isdigit_spec c : isdigit c = true <-> is_dig c.
Proof. unfold isdigit, is_dig. rewrite andb_true_iff, !Z.leb_le, code_ord. tauto. Qed.
Lemma word_char_spec c : word_char c = true <-> in_word c.
Proof. unfold word_char, in_word. rewrite orb_true_iff, isdigit_spec, andb_true_iff, !Z.leb_le, code_ord. unfold is_upper. tauto. Qed.

Lemma ord_inj c d : ord c = ord d -> c = d.
Proof. unfold ord. intros H. apply N2Z.inj in H. rewrite <- (ascii_N_embedding c), <- (ascii_N_embedding d). now rewrite H. Qed.
Lemma ord_range c : 0 <= ord c < 256.
Proof. unfold ord. pose proof (N_ascii_bounded c). lia. Qed.

Lemma upper_char_spec c : uppercase c (upper_char c).
Proof.
  unfold upper_char, uppercase. destruct (andb_true_iff (97 <=? code_of c) (code_of c <=? 122)) as [H1 H2].
  destruct ((97 <=? code_of c) && (code_of c <=? 122)) eqn:E.
  - left. specialize (H1 eq_refl). rewrite !Z.leb_le in H1. unfold is_lower. rewrite code_ord in H1. split; [exact H1|].
    unfold ord in *. rewrite N_ascii_embedding by lia. lia.
  - right. split; [|reflexivity]. intros [Ha Hb]. rewrite <- !code_ord in Ha, Hb. specialize (H2 (conj (proj2 (Z.leb_le _ _) Ha) (proj2 (Z.leb_le _ _) Hb))). congruence.
Qed.

Lemma upper_dig c : is_dig c -> upper_char c = c.
Proof. intros H. destruct (upper_char_spec c) as [[Hl _]|[_ E]]; [unfold is_dig, is_lower in *; lia|exact E]. Qed.
Lemma upper_digit c : isdigit (upper_char c) = isdigit c.
Proof.
  destruct (upper_char_spec c) as [[Hl E]|[_ ->]]; [|reflexivity]. change ((48 <=? ord (upper_char c)) && (ord (upper_char c) <=? 57) = (48 <=? ord c) && (ord c <=? 57)). unfold is_lower in Hl.
  rewrite (proj2 (Z.leb_gt (ord (upper_char c)) 57)), (proj2 (Z.leb_gt (ord c) 57)) by lia. now rewrite !andb_false_r.
Qed.

Lemma stands_upper c u : stands_for c u <-> is_upper u /\ upper_char c = u.
Proof.
  unfold stands_for. split.
  - intros [Hu [->|[Hl E]]]; split; auto; destruct (upper_char_spec u) as [[H1 H2]|[H1 H2]]; auto.
    + unfold is_upper, is_lower in *; lia.
    + destruct (upper_char_spec c) as [[H3 H4]|[H3 H4]]; [|contradiction]. apply ord_inj. lia.
    + destruct (upper_char_spec c) as [[H3 H4]|[H3 H4]]; [|contradiction]. apply ord_inj. lia.
  - intros [Hu E]. split; [exact Hu|]. destruct (upper_char_spec c) as [[H1 H2]|[H1 H2]]; [right; split; [exact H1|congruence]|left; congruence].
Qed.

Lemma word_upper c : (is_dig c \/ exists u, stands_for c u) <-> word_char (upper_char c) = true.
Proof.
  rewrite word_char_spec. unfold in_word. split.
  - intros [H|(u & H)]; [left; now rewrite upper_dig|right]. apply stands_upper in H. destruct H as [H ->]. exact H.
  - intros [H|H]; [left|right].
    + apply isdigit_spec in H. rewrite upper_digit in H. now apply isdigit_spec.
    + exists (upper_char c). apply stands_upper. auto.
Qed.

(** ** The matches and the replacement *)

Definition flush_word (cur : list ascii) : list ascii := match cur with [] => [] | _ => list_ascii_of_string (word_expr cur) end.
Fixpoint render (cur rest : list ascii) : list ascii :=
  match rest with
  | [] => flush_word cur
  | c :: r => if word_char c then render (cur ++ [c]) r else flush_word cur ++ c :: render [] r
  end.
Definition one_word (cur : list ascii) : list (list ascii) := match cur with [] => [] | _ => [cur] end.
Fixpoint scan (cur rest : list ascii) : list (list ascii) :=
  match rest with
  | [] => one_word cur
  | c :: r => if word_char c then scan (cur ++ [c]) r else one_word cur ++ scan [] r
  end.

Definition start_of (b : nat) (cur : list ascii) : option nat := match cur with [] => None | _ => Some b end.

Lemma group_here (d0 cur rest : list ascii) : group (d0 ++ cur ++ rest) (length d0, (length d0 + length cur)%nat) = cur.
Proof.
  unfold group. cbn [fst snd]. rewrite skipn_app, skipn_all, Nat.sub_diag. cbn [app skipn].
  replace (length d0 + length cur - length d0)%nat with (length cur) by lia. rewrite firstn_app, firstn_all, Nat.sub_diag. cbn. apply app_nil_r.
Qed.

Lemma start_next b cur c : start_of b (cur ++ [c]) = Some b.
Proof. destruct cur; reflexivity. Qed.

Lemma spans_words : forall rest d0 cur,
  map (group (d0 ++ cur ++ rest)) (spans (length d0 + length cur) (start_of (length d0) cur) rest) = scan cur rest.
Proof.
  induction rest as [|c rest IH]; intros d0 cur; cbn [spans scan].
  - destruct cur as [|k cur]; [reflexivity|]. cbn [start_of map one_word]. now rewrite group_here.
  - destruct (word_char c).
    + assert (E : Some match start_of (length d0) cur with Some b => b | None => (length d0 + length cur)%nat end = start_of (length d0) (cur ++ [c])).
      { rewrite start_next. destruct cur; cbn; [now rewrite Nat.add_0_r|reflexivity]. }
      rewrite E. rewrite <- (IH d0 (cur ++ [c])). rewrite app_length. cbn [length].
      replace (S (length d0 + length cur)) with (length d0 + (length cur + 1))%nat by lia. now rewrite <- app_assoc.
    + assert (E : forall l, map (group (d0 ++ cur ++ c :: rest)) l = map (group ((d0 ++ cur ++ [c]) ++ [] ++ rest)) l).
      { intros l. rewrite <- !app_assoc. reflexivity. }
      assert (H : map (group (d0 ++ cur ++ c :: rest)) (spans (S (length d0 + length cur)) None rest) = scan [] rest).
      { rewrite E. rewrite <- (IH (d0 ++ cur ++ [c]) []). cbn [start_of]. f_equal. f_equal. rewrite !app_length. cbn. lia. }
      destruct cur as [|k cur].
      * exact H.
      * change (group (d0 ++ (k :: cur) ++ c :: rest) (length d0, (length d0 + length (k :: cur))%nat) ::
          map (group (d0 ++ (k :: cur) ++ c :: rest)) (spans (S (length d0 + length (k :: cur))) None rest) = (k :: cur) :: scan [] rest).
        rewrite H, group_here. reflexivity.
Qed.

Lemma splice_render : forall rest d0 cur out off, Z.of_nat (length out) = off + Z.of_nat (length d0) ->
  splice (d0 ++ cur ++ rest) off (out ++ cur ++ rest) (spans (length d0 + length cur) (start_of (length d0) cur) rest) = out ++ render cur rest.
Proof.
  assert (Hone : forall d0 cur out off rest sps, Z.of_nat (length out) = off + Z.of_nat (length d0) -> cur <> [] ->
    splice (d0 ++ cur ++ rest) off (out ++ cur ++ rest) ((length d0, (length d0 + length cur)%nat) :: sps) =
    splice (d0 ++ cur ++ rest) (off + (Z.of_nat (length (flush_word cur)) - Z.of_nat (length cur))) (out ++ flush_word cur ++ rest) sps).
  { intros d0 cur out off rest sps Ho Hne. cbn [splice fst snd]. rewrite group_here.
    replace (Z.to_nat (off + Z.of_nat (length d0))) with (length out) by lia.
    replace (Z.to_nat (off + Z.of_nat (length d0 + length cur))) with (length (out ++ cur)) by (rewrite app_length; lia).
    assert (E1 : firstn (length out) (out ++ cur ++ rest) = out) by (rewrite firstn_app, firstn_all, Nat.sub_diag; cbn; apply app_nil_r).
    assert (E2 : skipn (length (out ++ cur)) (out ++ cur ++ rest) = rest) by (rewrite app_assoc, skipn_app, skipn_all, Nat.sub_diag; reflexivity).
    rewrite E1, E2.
    replace (length d0 + length cur - length d0)%nat with (length cur) by lia.
    destruct cur as [|k cur]; [contradiction|]. reflexivity. }
  induction rest as [|c rest IH]; intros d0 cur out off Ho; cbn [spans render].
  - destruct cur as [|k cur]; [reflexivity|]. cbn [start_of]. rewrite Hone by (auto; discriminate). cbn [splice]. now rewrite app_nil_r.
  - destruct (word_char c).
    + assert (E : Some match start_of (length d0) cur with Some b => b | None => (length d0 + length cur)%nat end = start_of (length d0) (cur ++ [c])).
      { rewrite start_next. destruct cur; cbn; [now rewrite Nat.add_0_r|reflexivity]. }
      rewrite E. rewrite <- (IH d0 (cur ++ [c]) out off Ho). rewrite app_length. cbn [length].
      replace (S (length d0 + length cur)) with (length d0 + (length cur + 1))%nat by lia. now rewrite <- !app_assoc.
    + assert (H : forall off' f, Z.of_nat (length f) = Z.of_nat (length cur) + (off' - off) ->
        splice (d0 ++ cur ++ c :: rest) off' (out ++ f ++ c :: rest) (spans (S (length d0 + length cur)) None rest) = out ++ f ++ c :: render [] rest).
      { intros off' f Hf. pose proof (IH (d0 ++ cur ++ [c]) [] (out ++ f ++ [c]) off') as H.
        rewrite !app_length in H. cbn [length start_of app] in H. rewrite Nat.add_0_r in H. rewrite <- !app_assoc in H. cbn [app] in H.
        replace (length d0 + (length cur + 1))%nat with (S (length d0 + length cur)) in H by lia. apply H. lia. }
      destruct cur as [|k cur]; cbn [start_of].
      * apply (H off []). cbn. lia.
      * rewrite Hone by (auto; discriminate). apply H. lia.
Qed.

Lemma mod_source_render s : mod_source s = string_of_list_ascii (render [] (upper s)).
Proof. unfold mod_source. f_equal. exact (splice_render (upper s) [] [] [] 0 eq_refl). Qed.
Lemma cry_words_scan s : cry_words s = scan [] (upper s).
Proof. exact (spans_words (upper s) [] []). Qed.

(** Segments *)
Fixpoint segs_of (cur rest : list ascii) : list seg :=
  match rest with
  | [] => map SWord (one_word cur)
  | c :: r => if word_char c then segs_of (cur ++ [c]) r else map SWord (one_word cur) ++ SChar c :: segs_of [] r
  end.
Definition seg_text (g : seg) : list ascii := match g with SWord w => list_ascii_of_string (word_expr w) | SChar c => [c] end.

Lemma segs_render : forall rest cur, flat_map seg_text (segs_of cur rest) = render cur rest.
Proof.
  induction rest as [|c rest IH]; intros cur; cbn [segs_of render].
  - destruct cur; cbn; [reflexivity|apply app_nil_r].
  - destruct (word_char c); [apply IH|]. destruct cur; cbn [one_word map app flat_map seg_text flush_word]; [f_equal; apply IH|]. f_equal. cbn. f_equal. apply IH.
Qed.
Lemma segs_words : forall rest cur, flat_map (fun g => match g with SWord w => [w] | SChar _ => [] end) (segs_of cur rest) = scan cur rest.
Proof.
  induction rest as [|c rest IH]; intros cur; cbn [segs_of scan].
  - destruct cur; reflexivity.
  - destruct (word_char c); [apply IH|]. destruct cur; cbn [one_word map app flat_map]; [apply IH|]. f_equal. apply IH.
Qed.

Lemma segs_segments : forall rest cur, (forall c, In c cur -> word_char c = true) -> segments (segs_of cur rest) (cur ++ rest).
Proof.
  induction rest as [|c rest IH]; intros cur Hc; cbn [segs_of].
  - rewrite app_nil_r. destruct cur as [|k cur].
    + repeat split; cbn; intros; contradiction.
    + split; [cbn; now rewrite app_nil_r|]. split; [|split; [|cbn; auto]].
      * intros w [E|[]]. injection E as <-. split; [discriminate|]. intros x Hx. apply word_char_spec. auto.
      * intros x [E|[]]. discriminate.
  - destruct (word_char c) eqn:E.
    + change (cur ++ c :: rest) with (cur ++ [c] ++ rest). rewrite app_assoc. apply IH. intros x Hx. apply in_app_or in Hx. destruct Hx as [Hx|[<-|[]]]; auto.
    + destruct (IH [] ltac:(intros x [])) as (H1 & H2 & H3 & H4). cbn [app] in H1.
      assert (Hn : ~ in_word c) by (rewrite <- word_char_spec; congruence).
      destruct cur as [|k cur]; cbn [one_word map app].
      * split; [cbn; now rewrite H1|]. split; [intros w [E'|Hw]; [discriminate|auto]|]. split; [intros x [E'|Hx]; [injection E' as <-; exact Hn|auto]|exact H4].
      * split; [cbn; now rewrite H1|]. split; [|split; [|cbn; auto]].
        -- intros w [E'|[E'|Hw]]; [injection E' as <-|discriminate|auto]. split; [discriminate|]. intros x Hx. apply word_char_spec. auto.
        -- intros x [E'|[E'|Hx]]; [discriminate|injection E' as <-; exact Hn|auto].
Qed.

(** ** Splitting at a character outside words *)

Lemma render_cut c l2 : word_char c = false -> forall l1 cur, render cur (l1 ++ c :: l2) = render cur l1 ++ c :: render [] l2.
Proof.
  intros Hc. induction l1 as [|d l1 IH]; intros cur; cbn [app render].
  - now rewrite Hc.
  - destruct (word_char d); [apply IH|]. rewrite IH. now rewrite <- app_assoc.
Qed.
Lemma scan_cut c l2 : word_char c = false -> forall l1 cur, scan cur (l1 ++ c :: l2) = scan cur l1 ++ scan [] l2.
Proof.
  intros Hc. induction l1 as [|d l1 IH]; intros cur; cbn [app scan].
  - now rewrite Hc.
  - destruct (word_char d); [apply IH|]. rewrite IH. now rewrite <- app_assoc.
Qed.
Lemma render_word : forall w cur, (forall c, In c w -> word_char c = true) -> render cur w = flush_word (cur ++ w).
Proof.
  induction w as [|c w IH]; intros cur H; cbn [render]; [now rewrite app_nil_r|]. rewrite (H c (or_introl eq_refl)), IH by (intros; apply H; now right).
  now rewrite <- app_assoc.
Qed.
Lemma scan_word : forall w cur, (forall c, In c w -> word_char c = true) -> scan cur w = one_word (cur ++ w).
Proof.
  induction w as [|c w IH]; intros cur H; cbn [scan]; [now rewrite app_nil_r|]. rewrite (H c (or_introl eq_refl)), IH by (intros; apply H; now right).
  now rewrite <- app_assoc.
Qed.
