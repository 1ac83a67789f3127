(** The runs drawn by NonogramSolver. *)
From Coq Require Import Permutation.
From Verif Require Import NonogramWatch SpecPuzzle SpecNonogram SpecSafe SpecSolve SpecWatch SpecRuns NameFacts DictFacts
  ExprFacts ExprProps PuzzleFacts PuzzleUserFacts SolverProps NonogramFacts TriesFacts.
From Verif Require TriesGraph.
Open Scope list_scope.
Open Scope Z_scope.

Local Notation P0 := (fun _ : nat => 0).

(** ** Runs of a line *)

Lemma cells_total l : cells_of l = total l.
Proof. induction l; cbn; congruence. Qed.
Lemma cells_split k l : cells_of (firstn k l) + cells_of (skipn k l) = cells_of l.
Proof. revert l. induction k as [|k IH]; intros [|a l]; cbn; try lia. specialize (IH l). lia. Qed.

Lemma infos_get mk num : forall clue k0 start rem k, (k < length clue)%nat ->
  nth_error (infos mk num k0 start rem clue) k =
    Some (RunVar (mk (k0 + k)%nat) (nth k clue 0) (start + earliest clue k) (num - (rem - earliest clue k) + 1 + nth k clue 0)).
Proof.
  induction clue as [|size clue IH]; intros k0 start rem k Hk; [cbn in Hk; lia|]. cbn [infos]. destruct k as [|k].
  - cbn. f_equal. f_equal; try (unfold earliest; cbn; lia). f_equal. lia.
  - cbn [nth_error]. cbn [length] in Hk. rewrite IH by lia. unfold earliest. cbn [firstn cells_of nth].
    assert (Hg : gap clue = 1) by (destruct clue; [cbn in Hk; lia|reflexivity]). rewrite Hg. f_equal. f_equal; try lia. f_equal. lia.
Qed.

Lemma infos_length mk num clue k0 start rem : length (infos mk num k0 start rem clue) = length clue.
Proof. rewrite <- (map_length rv_size), infos_sizes. reflexivity. Qed.

Lemma LI_get pre num clues i k rv : nth_error (LI pre num clues i) k = Some rv <->
  (k < length (nth i clues []))%nat /\
  rv = RunVar (name2 pre i k) (nth k (nth i clues []) 0) (earliest (nth i clues []) k)
         (latest num (nth i clues []) k + 1 + nth k (nth i clues []) 0).
Proof.
  unfold LI. set (clue := nth i clues []).
  assert (H : (k < length clue)%nat -> nth_error (infos (name2 pre i) num 0 0 (room clue) clue) k =
    Some (RunVar (name2 pre i k) (nth k clue 0) (earliest clue k) (latest num clue k + 1 + nth k clue 0))).
  { intros Hk. rewrite infos_get by exact Hk. f_equal. f_equal; try lia. unfold latest, earliest, room. rewrite <- cells_total.
    pose proof (cells_split k clue). lia. }
  split.
  - intros E. assert (Hk : (k < length clue)%nat).
    { rewrite <- (infos_length (name2 pre i) num clue 0 0 (room clue)). apply nth_error_Some. congruence. }
    split; [exact Hk|]. rewrite (H Hk) in E. congruence.
  - intros [Hk ->]. now apply H.
Qed.

Definition mono (L : list run_var) : Prop := ForallOrdPairs (fun p q => rv_start p <= rv_start q /\ rv_end p <= rv_end q) L.

Lemma infos_bounds mk num : forall clue k start rem rv, (forall j, In j clue -> 1 <= j) -> In rv (infos mk num k start rem clue) ->
  start <= rv_start rv /\ num - rem + 1 <= rv_end rv.
Proof.
  induction clue as [|size clue IH]; intros k start rem rv Hp H; [contradiction|]. pose proof (Hp size (or_introl eq_refl)) as Hs.
  cbn [infos In] in H. destruct H as [<-|H]; [cbn; lia|]. apply IH in H; [|intros j Hj; apply Hp; now right].
  assert (0 <= gap clue) by (destruct clue; cbn; lia). lia.
Qed.
Lemma infos_mono mk num : forall clue k start rem, (forall j, In j clue -> 1 <= j) -> mono (infos mk num k start rem clue).
Proof.
  induction clue as [|size clue IH]; intros k start rem Hp; [constructor|]. cbn [infos]. constructor; [|apply IH; intros j Hj; apply Hp; now right].
  pose proof (Hp size (or_introl eq_refl)) as Hs. assert (0 <= gap clue) by (destruct clue; cbn; lia).
  apply Forall_forall. intros q Hq. apply infos_bounds in Hq; [|intros j Hj; apply Hp; now right]. cbn [rv_start rv_end]. lia.
Qed.
Lemma LI_mono pre num clues i : positive_clues clues -> mono (LI pre num clues i).
Proof.
  intros Hp. apply infos_mono. intros j Hj. destruct (Nat.lt_ge_cases i (length clues)) as [Hi|Hi]; [|rewrite nth_overflow in Hj by exact Hi; contradiction].
  exact (Hp _ (nth_In _ _ Hi) j Hj).
Qed.

Lemma order_In b : forall L prev, In b (order prev L) <->
  (exists p q, prev = Some p /\ nth_error L 0 = Some q /\ b = PForm (f_after p q)) \/
  (exists k p q, nth_error L k = Some p /\ nth_error L (S k) = Some q /\ b = PForm (f_after p q)).
Proof.
  induction L as [|rv L IH]; intros prev.
  - cbn. split; [contradiction|]. intros [(p & q & _ & E & _)|([|k] & p & q & E & _)]; discriminate.
  - cbn [order]. rewrite in_app_iff, IH. split.
    + intros [H|[(p & q & E & Hq & ->)|(k & p & q & H1 & H2 & ->)]].
      * destruct prev as [p|]; [|contradiction]. destruct H as [<-|[]]. left. exists p, rv. auto.
      * injection E as <-. right. exists 0%nat, rv, q. auto.
      * right. exists (S k), p, q. auto.
    + intros [(p & q & -> & E & ->)|([|k] & p & q & H1 & H2 & ->)].
      * injection E as <-. left. now left.
      * injection H1 as <-. right. left. exists rv, q. auto.
      * right. right. exists k, p, q. auto.
Qed.

(** ** Counting the runs that cover a cell *)
Section Count.
Variables (a : assignment) (c : Z).
Definition over (rv : run_var) : Prop := a (rv_name rv) <= c < a (rv_name rv) + rv_size rv.
Definition near (rv : run_var) : bool := (rv_start rv <=? c) && (c <? rv_end rv).

Lemma covers_meaning rv : (meaning P0 a (covers c rv) = Some 1 /\ over rv) \/ (meaning P0 a (covers c rv) = Some 0 /\ ~ over rv).
Proof.
  unfold covers, over. cbn [meaning arith]. destruct (Z.leb_spec (a (rv_name rv)) c), (Z.ltb_spec c (a (rv_name rv) + rv_size rv)); cbn;
    [left|right|right|right]; split; try reflexivity; lia.
Qed.

Lemma count_cons rv L v : meaning P0 a (FSum (map (covers c) L)) = Some v ->
  (over rv -> meaning P0 a (FSum (map (covers c) (rv :: L))) = Some (1 + v)) /\
  (~ over rv -> meaning P0 a (FSum (map (covers c) (rv :: L))) = Some v).
Proof.
  intros H. cbn [map]. cbn [meaning] in *. rewrite H. destruct (covers_meaning rv) as [[E Ho]|[E Ho]]; rewrite E; split; intros Hx; try contradiction; f_equal.
Qed.

Lemma count_zero L : (forall rv, In rv L -> ~ over rv) -> meaning P0 a (FSum (map (covers c) L)) = Some 0.
Proof.
  induction L as [|rv L IH]; intros H; [reflexivity|]. destruct (count_cons rv L 0) as [_ H0]; [apply IH; intros; apply H; now right|]. apply H0, H. now left.
Qed.
Lemma count_some L : (exists rv, In rv L /\ over rv) -> exists v, meaning P0 a (FSum (map (covers c) L)) = Some v /\ 0 < v.
Proof.
  assert (Hn : forall L, exists v, meaning P0 a (FSum (map (covers c) L)) = Some v /\ 0 <= v).
  { clear. induction L as [|rv L (v & Hv & H)]; [exists 0; split; [reflexivity|lia]|]. destruct (count_cons rv L v Hv) as [H1 H0].
    destruct (covers_meaning rv) as [[_ Ho]|[_ Ho]]; [exists (1 + v)|exists v]; split; auto; lia. }
  induction L as [|rv L IH]; intros (rv' & Hin & Ho); [contradiction|]. destruct Hin as [->|Hin].
  - destruct (Hn L) as (v & Hv & H). exists (1 + v). split; [now apply (proj1 (count_cons _ L v Hv))|lia].
  - destruct IH as (v & Hv & H); [eauto|]. destruct (count_cons rv L v Hv) as [H1 H0]. destruct (covers_meaning rv) as [[_ Ho']|[_ Ho']]; [exists (1 + v)|exists v]; split; auto; lia.
Qed.

(** If the runs are one behind the other, at most one covers the cell. *)
Definition behind (p q : run_var) : Prop := a (rv_name p) + rv_size p < a (rv_name q).
Lemma count_one L : ForallOrdPairs behind L -> (exists rv, In rv L /\ over rv) -> meaning P0 a (FSum (map (covers c) L)) = Some 1.
Proof.
  induction 1 as [|rv L Hrv HL IH]; intros (rv' & Hin & Ho); [contradiction|]. rewrite Forall_forall in Hrv. destruct Hin as [->|Hin].
  - destruct (count_cons rv' L 0) as [H1 _]; [|now apply H1]. apply count_zero. intros q Hq. specialize (Hrv q Hq). unfold behind, over in *. lia.
  - destruct (count_cons rv L 1) as [_ H0]; [apply IH; eauto|]. apply H0. specialize (Hrv rv' Hin). unfold behind, over in *. lia.
Qed.

(** The runs that can cover the cell are consecutive. *)
Lemma near_behind L : mono L -> (forall rv, In rv L -> 0 < rv_size rv) ->
  (forall k p q, nth_error L k = Some p -> nth_error L (S k) = Some q -> near p = true -> near q = true -> behind p q) ->
  ForallOrdPairs behind (filter near L).
Proof.
  intros Hm. induction Hm as [|p L Hp HL IH]; intros Hs Hk; [constructor|].
  assert (IH' : ForallOrdPairs behind (filter near L)).
  { apply IH; [intros; apply Hs; now right|]. intros k. exact (Hk (S k)). }
  cbn [filter]. destruct (near p) eqn:Ep; [|exact IH']. constructor; [|exact IH'].
  apply Forall_forall. intros q' Hq'. destruct L as [|q L]; [contradiction|]. destruct (near q) eqn:Eq.
  - pose proof (Hk 0%nat p q eq_refl eq_refl Ep Eq) as Hpq. cbn [filter] in Hq', IH'. rewrite Eq in Hq', IH'. destruct Hq' as [<-|Hq']; [exact Hpq|].
    inversion IH' as [|? ? Hf _]; subst. rewrite Forall_forall in Hf. specialize (Hf q' Hq'). pose proof (Hs q (or_intror (or_introl eq_refl))). unfold behind in *. lia.
  - exfalso. cbn [filter] in Hq'. rewrite Eq in Hq'. apply filter_In in Hq'. destruct Hq' as [Hin En].
    inversion HL as [|? ? Hf _]; subst. rewrite Forall_forall in Hf, Hp. specialize (Hf q' Hin). specialize (Hp q (or_introl eq_refl)).
    unfold near in *. apply andb_true_iff in Ep, En. apply andb_false_iff in Eq. rewrite Z.leb_le, Z.ltb_lt in *. rewrite Z.leb_gt, Z.ltb_ge in Eq. lia.
Qed.
End Count.
