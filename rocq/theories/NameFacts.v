(** Facts about the names of variables made with [format]. *)
From Coq Require Import FinFun.
From Verif Require Import Puzzle SpecSafe DecFacts.
Open Scope string_scope.
Open Scope list_scope.
Open Scope Z_scope.

Fixpoint has_digit (s : string) : bool :=
  match s with EmptyString => false | String c s' => is_digit c || has_digit s' end.

Lemma str_nat_dec n : dec_of (Z.of_nat n) (str_nat n).
Proof. unfold str_nat, str_int. destruct (Z.ltb_spec (Z.of_nat n) 0); [lia|]. apply str_nonneg_dec. lia. Qed.

Lemma str_nat_digits n : all_digits (str_nat n) = true.
Proof. exact (proj1 (str_nat_dec n)). Qed.

Lemma str_nat_has n : has_digit (str_nat n) = true.
Proof.
  destruct (dec_of_head _ _ (str_nat_dec n)) as (c & s & -> & H). cbn. now rewrite H.
Qed.

Lemma has_digit_app s t : has_digit (s ++ t) = has_digit s || has_digit t.
Proof. induction s as [|c s IH]; cbn; [reflexivity|]. now rewrite IH, orb_assoc. Qed.

Lemma digit_name_char c : is_digit c = true -> isname_char c = true.
Proof. destruct c as [[] [] [] [] [] [] [] []]; vm_compute; congruence. Qed.

Lemma name_chars_app s t : all_name_chars (s ++ t) = all_name_chars s && all_name_chars t.
Proof. induction s as [|c s IH]; cbn; [reflexivity|]. now rewrite IH, andb_assoc. Qed.

Lemma name_chars_digits s : all_digits s = true -> all_name_chars s = true.
Proof.
  induction s as [|c s IH]; cbn; [reflexivity|]. intros H. apply andb_true_iff in H. destruct H as [H1 H2].
  now rewrite (digit_name_char c H1), IH.
Qed.

Lemma name_chars_nl s : all_name_chars s = true -> word_chars_nl s = true.
Proof. induction s as [|c s IH]; cbn; [reflexivity|]. intros H. apply andb_true_iff in H. destruct H as [H1 H2]. rewrite H1. auto. Qed.

(** A name with a digit is not a keyword. *)
Lemma digit_not_mem s l : forallb (fun k => negb (has_digit k)) l = true -> has_digit s = true -> memb s l = false.
Proof.
  induction l as [|k l IH]; intros Hl Hs; [reflexivity|]. cbn in Hl |- *. apply andb_true_iff in Hl. destruct Hl as [H1 H2].
  destruct (String.eqb_spec s k) as [->|]; [rewrite Hs in H1; discriminate|]. now apply IH.
Qed.

Definition good_prefix (p : string) : bool :=
  match p with EmptyString => false | String c s => isalpha c && isname_start c && all_name_chars s end.

Lemma prefix_good p s : good_prefix p = true -> all_name_chars s = true -> good_name (p ++ s) = true.
Proof.
  destruct p as [|c p]; [discriminate|]. cbn. intros H Hs. apply andb_true_iff in H. destruct H as [H1 H2].
  apply andb_true_iff in H1. destruct H1 as [H1 H3]. rewrite H1. cbn. apply name_chars_nl. rewrite name_chars_app, H2. exact Hs.
Qed.

Lemma prefix_ok p s : good_prefix p = true -> all_name_chars s = true -> has_digit s = true -> name_ok (p ++ s) = true.
Proof.
  intros H Hs Hd. unfold name_ok.
  assert (Hd' : has_digit (p ++ s) = true) by (rewrite has_digit_app, Hd; apply orb_true_r).
  rewrite (digit_not_mem _ reserved) by (try assumption; vm_compute; reflexivity).
  rewrite (digit_not_mem _ ["sum"; "prod"; "abs"; "__dummy_kwargs"]) by (try assumption; vm_compute; reflexivity).
  rewrite !andb_true_r. destruct p as [|c p]; [discriminate|]. cbn in *. apply andb_true_iff in H. destruct H as [H1 H2].
  apply andb_true_iff in H1. destruct H1 as [H1 H3]. rewrite H3. cbn. now rewrite name_chars_app, H2, Hs.
Qed.

Lemma name1_chars i : all_name_chars (str_nat i) = true.
Proof. apply name_chars_digits, str_nat_digits. Qed.
Lemma name2_chars i j : all_name_chars (str_nat i ++ "_" ++ str_nat j) = true.
Proof. rewrite !name_chars_app. rewrite !name1_chars. reflexivity. Qed.
Lemma name2_has i j : has_digit (str_nat i ++ "_" ++ str_nat j) = true.
Proof. rewrite has_digit_app, str_nat_has. reflexivity. Qed.

Lemma name1_good p i : good_prefix p = true -> good_name (name1 p i) = true.
Proof. intros H. apply prefix_good; [exact H|apply name1_chars]. Qed.
Lemma name2_good p i j : good_prefix p = true -> good_name (name2 p i j) = true.
Proof. intros H. apply prefix_good; [exact H|apply name2_chars]. Qed.
Lemma name1_ok p i : good_prefix p = true -> name_ok (name1 p i) = true.
Proof. intros H. apply prefix_ok; [exact H|apply name1_chars|apply str_nat_has]. Qed.
Lemma name2_ok p i j : good_prefix p = true -> name_ok (name2 p i j) = true.
Proof. intros H. apply prefix_ok; [exact H|apply name2_chars|apply name2_has]. Qed.

Lemma app_inj p s t : (p ++ s = p ++ t)%string -> s = t.
Proof. induction p as [|c p IH]; cbn; [auto|]. intros H. inversion H. auto. Qed.

Lemma name1_inj p i j : name1 p i = name1 p j -> i = j.
Proof. intros H. apply app_inj in H. now apply str_nat_inj. Qed.

Lemma sep_inj s : forall s' t t', all_digits s = true -> all_digits s' = true ->
  (s ++ String "_"%char t = s' ++ String "_"%char t')%string -> s = s' /\ t = t'.
Proof.
  induction s as [|c s IH]; intros [|c' s'] t t' H H' E; cbn in *.
  - inversion E. auto.
  - inversion E; subst. discriminate.
  - inversion E; subst. discriminate.
  - apply andb_true_iff in H, H'. inversion E; subst. destruct (IH s' t t') as [-> ->]; tauto.
Qed.

Lemma name2_inj p i j i' j' : name2 p i j = name2 p i' j' -> i = i' /\ j = j'.
Proof.
  intros H. apply app_inj in H. apply sep_inj in H; try apply str_nat_digits. destruct H as [H1 H2].
  split; now apply str_nat_inj.
Qed.

Lemma zrange_In lo hi v : In v (zrange lo hi) <-> lo <= v < hi.
Proof.
  unfold zrange. rewrite in_map_iff. split.
  - intros (i & <- & Hi). apply in_seq in Hi. lia.
  - intros H. exists (Z.to_nat (v - lo)). split; [lia|]. apply in_seq. lia.
Qed.

Lemma zrange_NoDup lo hi : NoDup (zrange lo hi).
Proof. apply FinFun.Injective_map_NoDup; [intros i j H; lia|apply seq_NoDup]. Qed.
