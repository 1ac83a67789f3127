(** Facts about [str_int]. *)
From Verif Require Import Dec.

(** Decimal value of a string of digits, starting from [a]. *)
Definition digit_val (c : ascii) : Z := Z.of_N (N_of_ascii c) - 48.
Definition is_digit (c : ascii) : bool :=
  (48 <=? Z.of_N (N_of_ascii c)) && (Z.of_N (N_of_ascii c) <=? 57).
Fixpoint dval (a : Z) (s : string) : Z :=
  match s with EmptyString => a | String c s' => dval (a * 10 + digit_val c) s' end.
Fixpoint all_digits (s : string) : bool :=
  match s with EmptyString => true | String c s' => is_digit c && all_digits s' end.

Lemma dval_app a s t : dval a (s ++ t) = dval (dval a s) t.
Proof. revert a; induction s as [|c s IH]; intros a; simpl; auto. Qed.
Lemma all_digits_app s t : all_digits (s ++ t) = all_digits s && all_digits t.
Proof. induction s as [|c s IH]; simpl; [reflexivity|]. now rewrite IH, andb_assoc. Qed.
Lemma sapp_assoc (a b c : string) : ((a ++ b) ++ c = a ++ (b ++ c))%string.
Proof. induction a as [|x a IH]; simpl; [reflexivity|]. now rewrite IH. Qed.
Lemma sapp_nil_r (a : string) : (a ++ "")%string = a.
Proof. induction a as [|x a IH]; simpl; [reflexivity|]. now rewrite IH. Qed.

Lemma digit_char_N d : 0 <= d < 10 -> Z.of_N (N_of_ascii (digit_char d)) = 48 + d.
Proof.
  intros H. unfold digit_char. rewrite N_ascii_embedding.
  - rewrite Z2N.id; lia.
  - apply N2Z.inj_lt. rewrite Z2N.id by lia. change (Z.of_N 256) with 256. lia.
Qed.
Lemma digit_char_val d : 0 <= d < 10 -> digit_val (digit_char d) = d.
Proof. intros H. unfold digit_val. rewrite digit_char_N by assumption. lia. Qed.
Lemma digit_char_is d : 0 <= d < 10 -> is_digit (digit_char d) = true.
Proof.
  intros H. unfold is_digit. rewrite digit_char_N by assumption.
  apply andb_true_iff. rewrite !Z.leb_le. lia.
Qed.

(** Shape of the digits of [n]: a non-empty string of digits of value [n], without
    superfluous leading zero. *)
Definition dec_of (n : Z) (s : string) : Prop :=
  all_digits s = true /\ dval 0 s = n /\
  exists c s', s = String c s' /\ (digit_val c = 0 -> s' = EmptyString).

Lemma digits_aux_spec fuel : forall n acc,
  0 <= n -> n < 10 ^ Z.of_nat fuel -> (0 < fuel)%nat ->
  exists ds, digits_aux fuel n acc = (ds ++ acc)%string /\ dec_of n ds /\ (n > 0 -> dval 0 ds > 0 /\ exists c s', ds = String c s' /\ digit_val c <> 0).
Proof.
  induction fuel as [|f IH]; intros n acc Hn Hlt Hf; [lia|].
  cbn [digits_aux]. destruct (Z.ltb_spec n 10) as [H10|H10].
  - exists (String (digit_char (n mod 10)) EmptyString). rewrite (Z.mod_small n 10) by lia.
    assert (Hd : digit_val (digit_char n) = n) by (apply digit_char_val; lia).
    split; [reflexivity|]. split.
    + split; [simpl; rewrite digit_char_is by lia; reflexivity|]. split.
      * simpl. lia.
      * exists (digit_char n), EmptyString. auto.
    + intros Hp. split; [simpl; lia|]. exists (digit_char n), EmptyString. split; [reflexivity|lia].
  - assert (Hf' : (0 < f)%nat).
    { destruct f; [|lia]. simpl in Hlt. lia. }
    destruct (IH (n / 10) (String (digit_char (n mod 10)) acc)) as (ds & Hds & (Hall & Hval & _) & Hpos); try lia.
    { apply Z.div_pos; lia. }
    { apply Z.div_lt_upper_bound; [lia|]. rewrite <- Z.pow_succ_r by lia.
      replace (Z.succ (Z.of_nat f)) with (Z.of_nat (S f)) by lia. assumption. }
    assert (Hmod : 0 <= n mod 10 < 10) by (apply Z.mod_pos_bound; lia).
    assert (Hdivp : n / 10 > 0) by (apply Z.lt_gt, Z.div_str_pos; lia).
    destruct (Hpos Hdivp) as (_ & c & s' & -> & Hc).
    exists (String c s' ++ String (digit_char (n mod 10)) EmptyString)%string.
    split; [rewrite Hds, sapp_assoc; reflexivity|].
    assert (Hv : dval 0 (String c s' ++ String (digit_char (n mod 10)) EmptyString) = n).
    { rewrite dval_app, Hval. simpl. rewrite digit_char_val by assumption.
      rewrite (Z.div_mod n 10) at 3 by lia. lia. }
    split.
    + split; [rewrite all_digits_app, Hall; simpl; now rewrite digit_char_is by assumption|].
      split; [exact Hv|]. exists c. eexists. split; [reflexivity|]. intros; contradiction.
    + intros _. split; [rewrite Hv; lia|]. exists c. eexists. split; [reflexivity|assumption].
Qed.

Lemma str_nonneg_dec n : 0 <= n -> dec_of n (str_nonneg n).
Proof.
  intros Hn. unfold str_nonneg.
  destruct (digits_aux_spec (S (Z.to_nat (Z.log2 n))) n EmptyString) as (ds & Hds & Hdec & _); try lia.
  - rewrite Nat2Z.inj_succ, Z2Nat.id by apply Z.log2_nonneg.
    destruct (Z.eq_dec n 0) as [->|Hnz]; [reflexivity|].
    eapply Z.lt_le_trans; [apply Z.log2_spec; lia|].
    apply Z.pow_le_mono_l. split; [lia|lia].
  - rewrite sapp_nil_r in Hds. now rewrite Hds.
Qed.

Lemma dec_of_inj n m s : dec_of n s -> dec_of m s -> n = m.
Proof. intros (_ & H1 & _) (_ & H2 & _). congruence. Qed.

Lemma dec_of_head n s : dec_of n s -> exists c s', s = String c s' /\ is_digit c = true.
Proof.
  intros (Hall & _ & c & s' & -> & _). exists c, s'. split; [reflexivity|].
  simpl in Hall. now apply andb_true_iff in Hall.
Qed.

Lemma str_int_inj a b : str_int a = str_int b -> a = b.
Proof.
  unfold str_int. intros H.
  destruct (Z.ltb_spec a 0) as [Ha|Ha], (Z.ltb_spec b 0) as [Hb|Hb].
  - inversion H as [H1]. pose proof (str_nonneg_dec (- a)) as Da. pose proof (str_nonneg_dec (- b)) as Db.
    rewrite H1 in Da. assert (- a = - b) by (apply (dec_of_inj _ _ (str_nonneg (- b))); [apply Da|apply Db]; lia).
    lia.
  - destruct (dec_of_head b (str_nonneg b)) as (c & s' & He & Hd); [apply str_nonneg_dec; lia|].
    rewrite He in H. inversion H; subst. discriminate.
  - destruct (dec_of_head a (str_nonneg a)) as (c & s' & He & Hd); [apply str_nonneg_dec; lia|].
    rewrite He in H. inversion H; subst. discriminate.
  - apply (dec_of_inj _ _ (str_nonneg a)); [|rewrite H]; apply str_nonneg_dec; lia.
Qed.

Lemma str_nat_inj a b : str_nat a = str_nat b -> a = b.
Proof. unfold str_nat. intros H. apply str_int_inj in H. lia. Qed.
