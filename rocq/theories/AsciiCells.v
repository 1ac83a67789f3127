(** Facts about grids, the flood fill and the search for the groups of a map. *)
From Verif Require Import AsciiMap SpecAscii QueensFacts NameFacts PuzzleFacts.
From Coq Require Import Ascii Relations Permutation Sorting.Sorted Lia.
Open Scope list_scope.
Open Scope Z_scope.

Lemma pos_eqb_eq p q : pos_eqb p q = true <-> p = q.
Proof.
  unfold pos_eqb. destruct p as [a b], q as [c d]. cbn. rewrite Bool.andb_true_iff, !Z.eqb_eq. split; [intros [-> ->]; reflexivity|intros E; now injection E].
Qed.
Lemma pmem_In p l : pmem p l = true <-> In p l.
Proof.
  unfold pmem. rewrite existsb_exists. split; [intros (q & H & E); apply pos_eqb_eq in E; now subst|intros H; exists p; split; [exact H|now apply pos_eqb_eq]].
Qed.
Lemma pmem_dec p (l : list point) : In p l \/ ~ In p l.
Proof. destruct (pmem p l) eqn:E; [left; now apply pmem_In|right; intros H; apply pmem_In in H; congruence]. Qed.
Lemma padd_In s p q : In q (padd s p) <-> In q s \/ q = p.
Proof.
  unfold padd. destruct (pmem p s) eqn:E.
  - apply pmem_In in E. split; [auto|]. now intros [H| ->].
  - rewrite in_app_iff. cbn. firstorder congruence.
Qed.
Lemma pos_dec (p q : point) : p = q \/ p <> q.
Proof. destruct (pos_eqb p q) eqn:E; [left; now apply pos_eqb_eq|right; intros H; apply pos_eqb_eq in H; congruence]. Qed.

Lemma near_OFFSETS p q : near p q <-> exists off, In off OFFSETS /\ q = move_by p off.
Proof.
  unfold near, move_by. destruct p as [a b], q as [c d]. cbn [fst snd]. split.
  - intros (Hne & H1 & H2). exists (c - a, d - b). split; [|cbn; f_equal; lia].
    assert (E1 : c - a = -1 \/ c - a = 0 \/ c - a = 1) by lia. assert (E2 : d - b = -1 \/ d - b = 0 \/ d - b = 1) by lia.
    destruct E1 as [E1|[E1|E1]], E2 as [E2|[E2|E2]]; rewrite E1, E2; cbn; auto 10.
    exfalso. apply Hne. f_equal; lia.
  - intros (off & Hin & E). injection E as -> ->. cbn in Hin.
    repeat (destruct Hin as [<-|Hin]; [cbn; split; [intros E; injection E; lia|split; lia]|]). contradiction.
Qed.
Lemma near_sym p q : near p q -> near q p.
Proof. unfold near. intros (H & H1 & H2). split; [congruence|lia]. Qed.

(** ** Cells *)
Lemma list_set_nth_error {A} (l : list A) i a : (i < length l)%nat -> forall j, nth_error (list_set l i a) j = if Nat.eqb j i then Some a else nth_error l j.
Proof.
  revert i. induction l as [|x l IH]; intros [|i] H j; cbn in H; try lia.
  - destruct j; reflexivity.
  - destruct j; cbn; [reflexivity|]. apply IH. lia.
Qed.

Lemma at_cell_fun {A} (rows : list (list A)) p a b : at_cell rows p a -> at_cell rows p b -> a = b.
Proof. intros (r & _ & _ & H1 & H2) (r' & _ & _ & H3 & H4). congruence. Qed.
Lemma getitem_nth {A} (l : list A) v a : 0 <= v -> nth_error l (Z.to_nat v) = Some a -> py_getitem l v = Ok a.
Proof. intros H E. unfold py_getitem. destruct (Z.ltb_spec v 0); [lia|]. destruct (Z.ltb_spec v 0); [lia|]. now rewrite E. Qed.
Lemma get_cell_at {A} (rows : list (list A)) p a : at_cell rows p a -> get_cell rows p = Ok a.
Proof.
  intros (row & H1 & H2 & E1 & E2). unfold get_cell. rewrite (getitem_nth _ _ _ H1 E1). cbn. exact (getitem_nth _ _ _ H2 E2).
Qed.
Lemma setitem_nth {A} (l : list A) v a x : 0 <= v -> nth_error l (Z.to_nat v) = Some x -> py_setitem l v a = Ok (list_set l (Z.to_nat v) a) /\ (Z.to_nat v < length l)%nat.
Proof.
  intros H E. assert (L : (Z.to_nat v < length l)%nat) by (apply nth_error_Some; congruence). split; [|exact L].
  unfold py_setitem. destruct (Z.ltb_spec v 0); [lia|]. destruct (Z.leb_spec 0 v); [|lia]. destruct (Z.ltb_spec v (Z.of_nat (length l))); [reflexivity|lia].
Qed.

Lemma map_length_set {A} (rows : list (list A)) i row row' : nth_error rows i = Some row -> length row' = length row ->
  map (@length A) (list_set rows i row') = map (@length A) rows.
Proof.
  revert i. induction rows as [|r rows IH]; intros [|i] E H; cbn in *; try discriminate; f_equal.
  - congruence.
  - now apply IH.
Qed.

Lemma set_cell_at {A} (rows : list (list A)) p a v : at_cell rows p a ->
  exists rows', set_cell rows p v = Ok rows' /\
    (forall q b, at_cell rows' q b <-> (q = p /\ b = v) \/ (q <> p /\ at_cell rows q b)) /\
    map (@length A) rows' = map (@length A) rows.
Proof.
  intros (row & H1 & H2 & E1 & E2). destruct (setitem_nth row (snd p) v a H2 E2) as [S2 L2].
  destruct (setitem_nth rows (fst p) (list_set row (Z.to_nat (snd p)) v) row H1 E1) as [S1 L1].
  exists (list_set rows (Z.to_nat (fst p)) (list_set row (Z.to_nat (snd p)) v)).
  split; [unfold set_cell; rewrite (getitem_nth _ _ _ H1 E1); cbn; rewrite S2; cbn; exact S1|].
  split; [|apply (map_length_set _ _ row); [exact E1|apply list_set_length]].
  intros q b. unfold at_cell. destruct p as [pr pc], q as [qr qc]. cbn [fst snd] in *. split.
  - intros (row' & Hr & Hc & F1 & F2). rewrite list_set_nth_error in F1 by exact L1.
    destruct (Nat.eqb_spec (Z.to_nat qr) (Z.to_nat pr)) as [En|En].
    + injection F1 as <-. rewrite list_set_nth_error in F2 by exact L2.
      assert (qr = pr) by lia. subst qr.
      destruct (Nat.eqb_spec (Z.to_nat qc) (Z.to_nat pc)) as [Em|Em].
      * left. split; [f_equal; lia|congruence].
      * right. split; [intros E; injection E as ->; congruence|]. exists row. auto.
    + right. split; [intros E; injection E as -> ->; congruence|]. exists row'. auto.
  - intros [[E ->]|[Hne (row' & Hr & Hc & F1 & F2)]].
    + injection E as -> ->. eexists. split; [exact H1|]. split; [exact H2|]. split; [rewrite list_set_nth_error by exact L1; now rewrite Nat.eqb_refl|].
      rewrite list_set_nth_error by exact L2. now rewrite Nat.eqb_refl.
    + destruct (Nat.eqb_spec (Z.to_nat qr) (Z.to_nat pr)) as [En|En].
      * assert (qr = pr) by lia. subst qr. rewrite E1 in F1. injection F1 as <-.
        eexists. split; [exact Hr|]. split; [exact Hc|]. split; [rewrite list_set_nth_error by exact L1; now rewrite Nat.eqb_refl|].
        rewrite list_set_nth_error by exact L2. destruct (Nat.eqb_spec (Z.to_nat qc) (Z.to_nat pc)) as [Em|Em]; [|exact F2].
        exfalso. apply Hne. f_equal; lia.
      * exists row'. split; [exact Hr|]. split; [exact Hc|]. split; [rewrite list_set_nth_error by exact L1|exact F2].
        destruct (Nat.eqb_spec (Z.to_nat qr) (Z.to_nat pr)); [contradiction|exact F1].
Qed.

(** ** The number of cells left *)
Definition is_land (c : ascii) : bool := negb (Ascii.eqb c " " || Ascii.eqb c ".").
Lemma is_land_spec c : is_land c = true <-> c <> " "%char /\ c <> "."%char.
Proof.
  unfold is_land. rewrite Bool.negb_true_iff, Bool.orb_false_iff, !Ascii.eqb_neq. tauto.
Qed.
Definition lands (rows : grid) : nat := length (filter is_land (concat rows)).
Definition rlands (row : list ascii) : nat := length (filter is_land row).
Lemma lands_cons r rows : lands (r :: rows) = (rlands r + lands rows)%nat.
Proof. unfold lands, rlands. cbn. now rewrite filter_app, app_length. Qed.
Lemma rlands_set row i a : nth_error row i = Some a -> is_land a = true -> S (rlands (list_set row i "."%char)) = rlands row.
Proof.
  revert i. induction row as [|x row IH]; intros [|i] E H; try discriminate; cbn in E.
  - injection E as ->. unfold rlands. cbn. rewrite H. reflexivity.
  - unfold rlands. cbn. fold (rlands (list_set row i "."%char)) (rlands row). destruct (is_land x); cbn; fold (rlands (list_set row i "."%char)) (rlands row); rewrite (IH i E H); reflexivity.
Qed.
Lemma lands_set rows i row row' : nth_error rows i = Some row -> S (rlands row') = rlands row -> S (lands (list_set rows i row')) = lands rows.
Proof.
  revert i. induction rows as [|x rows IH]; intros [|i] E H; try discriminate; cbn in E; cbn [list_set]; rewrite !lands_cons.
  - injection E as ->. lia.
  - rewrite <- (IH i E H). lia.
Qed.
Lemma lands_cell rows p a rows' : at_cell rows p a -> is_land a = true -> set_cell rows p "."%char = Ok rows' -> S (lands rows') = lands rows.
Proof.
  intros (row & H1 & H2 & E1 & E2) Ha. unfold set_cell. rewrite (getitem_nth _ _ _ H1 E1). cbn.
  destruct (setitem_nth row (snd p) "."%char a H2 E2) as [-> _]. cbn.
  destruct (setitem_nth rows (fst p) (list_set row (Z.to_nat (snd p)) "."%char) row H1 E1) as [-> _]. intros E. injection E as <-.
  apply (lands_set _ _ row); [exact E1|]. now apply (rlands_set _ _ a).
Qed.

(** ** The flood fill *)
Section flood.
Variables (R0 : grid) (value : ascii) (limits : Z * Z) (p0 : point).
Definition inb (p : point) : Prop := 0 <= fst p < fst limits /\ 0 <= snd p < snd limits.
Hypothesis Hfull : forall p, inb p <-> exists a, at_cell R0 p a.
Hypothesis Hland : is_land value = true.
Hypothesis Hp0 : at_cell R0 p0 value.

Definition conn (q : point) : Prop := clos_refl_trans _ (fun x y => at_cell R0 y value /\ near x y) p0 q.
Lemma conn_value q : conn q -> at_cell R0 q value.
Proof. intros H. apply clos_rt_rtn1 in H. induction H; tauto. Qed.

Record Inv (rows : grid) (G : list point) (ps nw : list point) : Prop := {
  i_rows : forall q b, at_cell rows q b <-> (In q G /\ b = "."%char) \/ (~ In q G /\ at_cell R0 q b);
  i_conn : forall q, In q G -> conn q;
  i_in : forall q, In q ps \/ In q nw -> inb q /\ (q = p0 \/ exists g, In g G /\ near g q);
  i_closed : forall g q, In g G -> near g q -> at_cell R0 q value -> In q G \/ In q ps \/ In q nw;
  i_start : In p0 G \/ In p0 ps \/ In p0 nw;
  i_len : map (@length ascii) rows = map (@length ascii) R0
}.

Lemma value_dot : value <> "."%char.
Proof. apply is_land_spec in Hland. tauto. Qed.

Lemma try_In G p nw off q : In q (try_offset limits G p nw off) <-> In q nw \/ (q = move_by p off /\ inb q /\ ~ In q G).
Proof.
  unfold try_offset, inb. set (x := move_by p off).
  destruct ((0 <=? fst x) && (fst x <? fst limits) && ((0 <=? snd x) && (snd x <? snd limits))) eqn:E.
  - rewrite !Bool.andb_true_iff, !Z.leb_le, !Z.ltb_lt in E. destruct (pmem x G) eqn:M.
    + apply pmem_In in M. split; [tauto|]. intros [H|(-> & _ & H)]; [exact H|contradiction].
    + rewrite padd_In. assert (Hn : ~ In x G) by (intros H; apply pmem_In in H; congruence).
      split; (intros [H|H]; [now left|]); [subst q; right; split; [reflexivity|]; split; [|exact Hn]; lia|right; apply H].
  - split; [tauto|]. intros [H|(-> & Hb & _)]; [exact H|]. exfalso.
    assert (E' : (0 <=? fst x) && (fst x <? fst limits) && ((0 <=? snd x) && (snd x <? snd limits)) = true) by (rewrite !Bool.andb_true_iff, !Z.leb_le, !Z.ltb_lt; lia).
    congruence.
Qed.
Lemma fold_try_In G p q : forall offs nw, In q (fold_left (try_offset limits G p) offs nw) <->
  In q nw \/ ((exists off, In off offs /\ q = move_by p off) /\ inb q /\ ~ In q G).
Proof.
  induction offs as [|off offs IH]; intros nw; cbn [fold_left]; [split; [tauto|intros [H|((o & [] & _) & _)]; exact H]|].
  rewrite IH, try_In. split.
  - intros [[H|(E & H)]|((o & Ho & E) & H)]; [tauto|right; split; [exists off; split; [now left|exact E]|exact H]|right; split; [exists o; split; [now right|exact E]|exact H]].
  - intros [H|((o & [->|Ho] & E) & H)]; [tauto|tauto|right; split; [exists o; auto|exact H]].
Qed.

Lemma sweep_inv : forall ps rows G nw, Inv rows G ps nw ->
  exists rows' G' nw', sweep value limits ps rows G nw = Ok (rows', G', nw') /\ Inv rows' G' [] nw' /\
    ((rows' = rows /\ G' = G /\ nw' = nw) \/ (lands rows' < lands rows)%nat).
Proof.
  induction ps as [|p ps IH]; intros rows G nw H; cbn [sweep].
  - exists rows, G, nw. split; [reflexivity|]. split; [exact H|]. left. auto.
  - destruct H as [Hrows Hconn Hin Hcl Hst Hlen]. destruct (Hin p (or_introl (or_introl eq_refl))) as [Hb Hor].
    destruct (proj1 (Hfull p) Hb) as (a0 & Ha0).
    assert (Ha : exists a, at_cell rows p a).
    { destruct (pmem_dec p G) as [HG|HG]; [exists "."%char; apply Hrows; auto|exists a0; apply Hrows; auto]. }
    destruct Ha as (a & Ha). rewrite (get_cell_at _ _ _ Ha). cbn [bind].
    destruct (Ascii.eqb_spec a value) as [->|Hne].
    + assert (HpG : ~ In p G /\ at_cell R0 p value).
      { apply Hrows in Ha. destruct Ha as [[_ E]|Ha]; [exfalso; exact (value_dot E)|exact Ha]. }
      destruct HpG as [HpG HpR].
      destruct (set_cell_at rows p value "."%char Ha) as (rows' & Es & Hr' & Hl'). rewrite Es. cbn [bind].
      set (G' := padd G p). set (nw' := fold_left (try_offset limits G' p) OFFSETS nw).
      assert (Hcp : conn p).
      { destruct Hor as [->|(g & Hg & Hn)]; [apply rt_refl|]. apply rt_trans with g; [apply Hconn; exact Hg|]. apply rt_step. auto. }
      assert (H' : Inv rows' G' ps nw').
      { split.
        - intros q b. rewrite Hr', Hrows. unfold G'. rewrite padd_In. destruct (pos_dec q p) as [->|Hq]; [|intuition].
          split; [intros [[_ ->]|[Hc _]]; [left; auto|congruence]|]. intros [[_ ->]|[Hc _]]; [left; auto|]. exfalso. apply Hc. now right.
        - intros q Hq. apply padd_In in Hq. destruct Hq as [Hq| ->]; [apply Hconn; exact Hq|exact Hcp].
        - intros q Hq. assert (Hq' : (In q (p :: ps) \/ In q nw) \/ (near p q /\ inb q)).
          { destruct Hq as [Hq|Hq]; [left; left; now right|]. apply fold_try_In in Hq. destruct Hq as [Hq|(Ho & Hq & _)]; [left; now right|].
            right. split; [apply near_OFFSETS; exact Ho|exact Hq]. }
          destruct Hq' as [Hq'|[Hn Hb']].
          + destruct (Hin q Hq') as [B [E|(g & Hg & Hn)]]; (split; [exact B|]); [now left|]. right. exists g. split; [apply padd_In; now left|exact Hn].
          + split; [exact Hb'|]. right. exists p. split; [apply padd_In; now right|exact Hn].
        - intros g q Hg Hn Hv. destruct (pmem_dec q G') as [HG'|HG']; [now left|]. right. apply padd_In in Hg. destruct Hg as [Hg| ->].
          + destruct (Hcl g q Hg Hn Hv) as [C|[[->|C]|C]]; [exfalso; apply HG', padd_In; now left|exfalso; apply HG', padd_In; now right|now left|].
            right. apply fold_try_In. now left.
          + right. apply fold_try_In. right. split; [apply near_OFFSETS; exact Hn|]. split; [apply Hfull; eauto|exact HG'].
        - destruct Hst as [C|[[->|C]|C]]; [left; apply padd_In; now left|left; apply padd_In; now right|now (right; left)|].
          right. right. apply fold_try_In. now left.
        - congruence. }
      destruct (IH rows' G' nw' H') as (r & g & n & E & Hi & Hm). exists r, g, n. split; [exact E|]. split; [exact Hi|]. right.
      pose proof (lands_cell rows p value rows' Ha Hland Es) as Hd. destruct Hm as [(-> & _)|Hm]; lia.
    + assert (H' : Inv rows G ps nw).
      { assert (Hout : at_cell R0 p value -> In p G).
        { intros Hv. destruct (pmem_dec p G) as [C|C]; [exact C|]. exfalso. apply Hne. apply (at_cell_fun rows p); [exact Ha|]. apply Hrows. now right. }
        split; [exact Hrows|exact Hconn| | | |exact Hlen].
        - intros q Hq. apply Hin. destruct Hq as [Hq|Hq]; [left; now right|now right].
        - intros g q Hg Hn Hv. destruct (Hcl g q Hg Hn Hv) as [C|[[->|C]|C]]; auto.
        - destruct Hst as [C|[[->|C]|C]]; auto. }
      destruct (IH rows G nw H') as (r & g & n & E & Hi & Hm). exists r, g, n. auto.
Qed.

Lemma Inv_ext rows G ps ps' nw : (forall q, In q ps <-> In q ps') -> Inv rows G ps nw -> Inv rows G ps' nw.
Proof.
  intros He [H1 H2 H3 H4 H5 H6]. split; [exact H1|exact H2| | | |exact H6].
  - intros q Hq. apply H3. now rewrite He.
  - intros g q. rewrite <- He. apply H4.
  - now rewrite <- He.
Qed.
Lemma Inv_next rows G ps : Inv rows G [] ps -> Inv rows G ps [].
Proof.
  intros [H1 H2 H3 H4 H5 H6]. split; [exact H1|exact H2| | | |exact H6].
  - intros q [Hq|[]]. apply H3. now right.
  - intros g q Hg Hn Hv. destruct (H4 g q Hg Hn Hv) as [C|[[]|C]]; auto.
  - destruct H5 as [C|[[]|C]]; auto.
Qed.

Variable order : list point -> list point.
Hypothesis Horder : forall l, Permutation (order l) l.

Lemma search_inv : forall fuel ps rows G, Inv rows G ps [] -> (lands rows < fuel)%nat ->
  exists rows' G', search fuel order value limits ps rows G = Some (Ok (rows', G')) /\ Inv rows' G' [] [] /\ (lands rows' <= lands rows)%nat.
Proof.
  induction fuel as [|f IH]; intros ps rows G H Hf; [lia|]. destruct ps as [|p ps]; [exists rows, G; cbn; auto|].
  cbn [search]. set (l := p :: ps) in *.
  assert (H' : Inv rows G (order l) []).
  { apply (Inv_ext _ _ l); [|exact H]. intros q. split; apply Permutation_in; [apply Permutation_sym|]; apply Horder. }
  destruct (sweep_inv (order l) rows G [] H') as (r & g & n & E & Hi & Hm). rewrite E. apply Inv_next in Hi. destruct Hm as [(-> & -> & ->)|Hm].
  - exists rows, G. split; [destruct f; reflexivity|]. split; [exact Hi|lia].
  - destruct (IH n r g Hi ltac:(lia)) as (r' & g' & E' & Hi' & Hl). exists r', g'. split; [exact E'|]. split; [exact Hi'|lia].
Qed.

Lemma search_spec fuel : (lands R0 < fuel)%nat ->
  exists rows' G, search fuel order value limits [p0] R0 [] = Some (Ok (rows', G)) /\
    (forall q, In q G <-> conn q) /\ (forall q b, at_cell rows' q b <-> (In q G /\ b = "."%char) \/ (~ In q G /\ at_cell R0 q b)) /\
    map (@length ascii) rows' = map (@length ascii) R0 /\ (lands rows' < lands R0)%nat.
Proof.
  intros Hf.
  assert (H : Inv R0 [] [p0] []).
  { split.
    - intros q b. cbn. tauto.
    - intros q [].
    - intros q [[<-|[]]|[]]. split; [apply Hfull; eauto|now left].
    - intros g q [].
    - right. left. now left.
    - reflexivity. }
  destruct (search_inv fuel [p0] R0 [] H Hf) as (rows' & G & E & Hi & Hl). exists rows', G. split; [exact E|].
  assert (HG : forall q, In q G <-> conn q).
  { intros q. split; [apply (i_conn _ _ _ _ Hi)|]. intros Hq. unfold conn in Hq. apply clos_rt_rtn1 in Hq. induction Hq as [|y z [Hv Hn] _ IHq].
    - destruct (i_start _ _ _ _ Hi) as [C|[[]|[]]]. exact C.
    - destruct (i_closed _ _ _ _ Hi y z IHq Hn Hv) as [C|[[]|[]]]. exact C. }
  split; [exact HG|]. split; [exact (i_rows _ _ _ _ Hi)|]. split; [exact (i_len _ _ _ _ Hi)|].
  (* strict: the first step cancels p0 *)
  destruct fuel as [|f]; [lia|]. cbn [search] in E.
  assert (H' : Inv R0 [] (order [p0]) []).
  { apply (Inv_ext _ _ [p0]); [|exact H]. intros q. split; apply Permutation_in; [apply Permutation_sym|]; apply Horder. }
  destruct (sweep_inv (order [p0]) R0 [] [] H') as (r & g & n & Es & Hi' & Hm). rewrite Es in E.
  destruct Hm as [(-> & -> & ->)|Hm].
  - exfalso. destruct (i_start _ _ _ _ Hi') as [[]|[[]|[]]].
  - destruct (search_inv f n r g (Inv_next _ _ _ Hi') ltac:(lia)) as (r' & g' & E' & _ & Hl'). rewrite E' in E. injection E as -> ->. lia.
Qed.
End flood.
