(** The partial assignments that the search of a NonogramSolver extends are partial pictures. *)
From Coq Require Import Permutation.
From Verif Require Import NonogramWatch SpecPuzzle SpecNonogram SpecSafe SpecSolve SpecWatch SpecRuns NameFacts DictFacts
  ExprFacts ExprProps PuzzleFacts PuzzleUserFacts SolverProps NonogramFacts TriesFacts TriesRuns TriesRuns2.
From Verif Require TriesGraph.
Open Scope list_scope.
Open Scope Z_scope.

Local Notation P0 := (fun _ : nat => 0).
Local Arguments name2 : simpl never.

Lemma val_of t x v : NoDup (names_of t) -> In (x, v) t -> val t x = v.
Proof.
  intros Hnd H. pose proof (dget_NoDup t x v Hnd H) as E. assert (Hx : In x (map fst t)) by (apply (in_map fst) in H; exact H).
  pose proof (dget_val t x Hx). congruence.
Qed.
Lemma of_val t x : In x (map fst t) -> In (x, val t x) t.
Proof. intros H. apply dget_In. now apply dget_val. Qed.

(** ** One line *)
Section Line.
Variables (pre : string) (num : Z) (clues : list (list Z)) (i : nat) (t : subst).
Hypothesis Hpos : positive_clues clues.
Hypothesis Hnd : NoDup (names_of t).
Let clue := nth i clues [].
Let L := LI pre num clues i.
Let at_ := fun k v => In (name2 pre i k, v) t.
Hypothesis Hin : forall k v, at_ k v -> (k < length clue)%nat.

Lemma bound_iff k rv : nth_error L k = Some rv -> (In (rv_name rv) (map fst t) <-> exists v, at_ k v).
Proof.
  intros H. apply LI_get in H. destruct H as [_ ->]. cbn [rv_name]. split.
  - intros H. exists (val t (name2 pre i k)). now apply of_val.
  - intros (v & H). apply (in_map fst) in H. exact H.
Qed.

Lemma after_iff : (forall k p q, nth_error L k = Some p -> nth_error L (S k) = Some q ->
    In (rv_name p) (map fst t) -> In (rv_name q) (map fst t) -> val t (rv_name p) + rv_size p < val t (rv_name q)) <->
  (forall k v v', at_ k v -> at_ (S k) v' -> v + nth k clue 0 < v').
Proof.
  split.
  - intros H k v v' H1 H2. pose proof (Hin _ _ H1) as K1. pose proof (Hin _ _ H2) as K2.
    assert (E1 := proj2 (LI_get pre num clues i k _) (conj K1 eq_refl)). assert (E2 := proj2 (LI_get pre num clues i (S k) _) (conj K2 eq_refl)).
    specialize (H k _ _ E1 E2). cbn [rv_name rv_size] in H.
    rewrite (val_of t _ v Hnd H1), (val_of t _ v' Hnd H2) in H. apply H; [apply (in_map fst) in H1; exact H1|apply (in_map fst) in H2; exact H2].
  - intros H k p q E1 E2 B1 B2. apply LI_get in E1, E2. destruct E1 as [K1 ->], E2 as [K2 ->]. cbn [rv_name rv_size] in *.
    apply (H k); now apply of_val.
Qed.

Section Cell.
Variable c : Z.
Hypothesis Hdom : forall k v, at_ k v -> earliest clue k <= v <= latest num clue k.
Hypothesis Hafter : forall k v v', at_ k v -> at_ (S k) v' -> v + nth k clue 0 < v'.

Lemma near_iff k rv : nth_error L k = Some rv -> (near c rv = true <-> earliest clue k <= c <= latest num clue k + nth k clue 0).
Proof.
  intros H. apply LI_get in H. destruct H as [_ ->]. unfold near. cbn [rv_start rv_end]. fold clue. rewrite andb_true_iff, Z.leb_le, Z.ltb_lt. lia.
Qed.

Lemma settled_iff : (forall x, In x (flat_map fvars (cover_list c L)) -> In x (map fst t)) <-> settled num clue at_ c.
Proof.
  split.
  - intros H k Hk Hc. assert (E := proj2 (LI_get pre num clues i k _) (conj Hk eq_refl)). apply (bound_iff k _ E). apply H.
    apply cover_fvars_iff. eexists. split; [|reflexivity]. apply filter_In. split; [now apply nth_error_In in E|]. now apply (near_iff k _ E).
  - intros H x Hx. apply cover_fvars_iff in Hx. destruct Hx as (rv & Hrv & ->). apply filter_In in Hrv. destruct Hrv as [Hrv Hn].
    apply In_nth_error in Hrv. destruct Hrv as (k & E). apply (bound_iff k _ E). apply H; [now apply LI_get in E|now apply (near_iff k _ E)].
Qed.

Hypothesis Hset : settled num clue at_ c.

Lemma black_iff : black clue at_ c <-> exists rv, In rv (filter (near c) L) /\ over (val t) c rv.
Proof.
  split.
  - intros (k & v & Hat & Hc). pose proof (Hin _ _ Hat) as Hk. pose proof (Hdom _ _ Hat) as Hd.
    assert (E := proj2 (LI_get pre num clues i k _) (conj Hk eq_refl)). eexists. split.
    + apply filter_In. split; [apply nth_error_In in E; exact E|]. apply (near_iff k _ E). lia.
    + unfold over. cbn [rv_name rv_size]. rewrite (val_of t _ v Hnd Hat). exact Hc.
  - intros (rv & Hrv & Ho). apply filter_In in Hrv. destruct Hrv as [Hrv Hn]. apply In_nth_error in Hrv. destruct Hrv as (k & E).
    apply (near_iff k _ E) in Hn. apply LI_get in E. destruct E as [Hk ->]. destruct (Hset k Hk Hn) as (v & Hv). exists k, v. split; [exact Hv|].
    unfold over in Ho. cbn [rv_name rv_size] in Ho. rewrite (val_of t _ v Hnd Hv) in Ho. exact Ho.
Qed.

Lemma line_count : exists v, meaning P0 (val t) (FSum (cover_list c L)) = Some v /\ (black clue at_ c -> v = 1) /\ (~ black clue at_ c -> v = 0).
Proof.
  assert (Hb : ForallOrdPairs (behind (val t)) (filter (near c) L)).
  { apply near_behind; [now apply LI_mono| |].
    - intros rv Hrv. apply In_nth_error in Hrv. destruct Hrv as (k & E). pose proof E as E'. apply LI_get in E'. destruct E' as [Hk ->]. cbn [rv_size].
      destruct (Nat.lt_ge_cases i (length clues)) as [Hi|Hi]; [|rewrite nth_overflow in Hk by exact Hi; cbn in Hk; lia].
      pose proof (Hpos _ (nth_In _ [] Hi) _ (nth_In _ 0 Hk)). lia.
    - intros k p q E1 E2 N1 N2. apply (near_iff k _ E1) in N1. apply (near_iff (S k) _ E2) in N2. pose proof E1 as F1. pose proof E2 as F2.
      apply LI_get in F1, F2. destruct F1 as [K1 ->], F2 as [K2 ->]. unfold behind. cbn [rv_name rv_size].
      destruct (Hset k K1 N1) as (v & Hv). destruct (Hset (S k) K2 N2) as (v' & Hv'). rewrite (val_of t _ _ Hnd Hv), (val_of t _ _ Hnd Hv'). now apply (Hafter k). }
  assert (Hdec : (exists rv, In rv (filter (near c) L) /\ over (val t) c rv) \/ ~ (exists rv, In rv (filter (near c) L) /\ over (val t) c rv)).
  { clear. induction (filter (near c) L) as [|rv l IH]; [right; intros (rv & [] & _)|].
    destruct (covers_meaning (val t) c rv) as [[_ Ho]|[_ Ho]]; [left; exists rv; split; [now left|exact Ho]|].
    destruct IH as [(rv' & H1 & H2)|IH]; [left; exists rv'; split; [now right|exact H2]|right]. intros (rv' & [->|H1] & H2); [contradiction|]. apply IH. eauto. }
  destruct Hdec as [H|H].
  - exists 1. split; [now apply count_one|]. split; [reflexivity|]. intros Hx. destruct (Hx (proj2 black_iff H)).
  - exists 0. split; [|split; [intros Hx; destruct (H (proj1 black_iff Hx))|reflexivity]]. apply count_zero. intros rv Hrv Ho. apply H. eauto.
Qed.
End Cell.
End Line.

(** ** The whole picture *)
Definition run_name (rows cols : list (list Z)) (x : name) : Prop :=
  (exists r k, (r < length rows)%nat /\ (k < length (nth r rows []))%nat /\ x = name2 "r" r k) \/
  (exists c k, (c < length cols)%nat /\ (k < length (nth c cols []))%nat /\ x = name2 "c" c k).

Section N.
Variables (rows cols : list (list Z)).
Hypothesis HR : positive_clues rows.
Hypothesis HC : positive_clues cols.
Let nr := Z.of_nat (length rows).
Let nc := Z.of_nat (length cols).
Let RI := LI "r" nc rows.
Let CI := LI "c" nr cols.
Let V := VN rows cols.
Let C := CN rows cols.

Lemma VL_In pre num clues x d : In (x, d) (VL pre num clues) <->
  exists i k, (i < length clues)%nat /\ (k < length (nth i clues []))%nat /\ x = name2 pre i k /\
    d = zrange (earliest (nth i clues []) k) (latest num (nth i clues []) k + 1).
Proof.
  unfold VL. rewrite in_flat_map. split.
  - intros (i & Hi & H). apply in_seq in Hi. apply in_map_iff in H. destruct H as (rv & E & H). apply In_nth_error in H. destruct H as (k & H).
    apply LI_get in H. destruct H as [Hk ->]. unfold dom in E. cbn [rv_name rv_start rv_end rv_size] in E.
    pose proof (f_equal fst E) as E1. pose proof (f_equal snd E) as E2. cbn [fst snd] in E1, E2.
    exists i, k. repeat split; auto; [lia|]. rewrite <- E2. f_equal. lia.
  - intros (i & k & Hi & Hk & -> & ->). exists i. split; [apply in_seq; lia|]. apply in_map_iff.
    eexists. split; [|eapply nth_error_In; apply (LI_get pre num clues i k); split; [exact Hk|reflexivity]].
    unfold dom. cbn [rv_name rv_start rv_end rv_size]. f_equal. f_equal. lia.
Qed.

Lemma V_name x : In x (names_of V) <-> run_name rows cols x.
Proof.
  unfold V, VN. rewrite names_app, in_app_iff, !VL_names. unfold run_name. reflexivity.
Qed.

Lemma V_names : names_of V = run_names rows cols.
Proof.
  assert (H : forall pre num clues, names_of (VL pre num clues) = flat_map (fun i => map (name2 pre i) (seq 0 (length (nth i clues [])))) (seq 0 (length clues))).
  { intros pre num clues. unfold VL. rewrite names_flat_map. apply flat_map_ext_in. intros i _. rewrite dom_names. unfold LI. apply infos_nth. }
  unfold V, VN, run_names. rewrite names_app, !H. reflexivity.
Qed.

Section T.
Variable t : subst.
Hypothesis Hnd : NoDup (names_of t).
Hypothesis Hnames : forall x, In x (map fst t) -> run_name rows cols x.

Lemma row_in r k v : (r < length rows)%nat -> row_at t r k v -> (k < length (nth r rows []))%nat.
Proof.
  intros _ H. apply (in_map fst), Hnames in H. destruct H as [(r' & k' & _ & Hk & E)|(c' & k' & _ & _ & E)]; cbn [fst] in E; [|discriminate E].
  apply name2_inj in E. destruct E as [-> ->]. exact Hk.
Qed.
Lemma col_in c k v : (c < length cols)%nat -> col_at t c k v -> (k < length (nth c cols []))%nat.
Proof.
  intros _ H. apply (in_map fst), Hnames in H. destruct H as [(r' & k' & _ & _ & E)|(c' & k' & _ & Hk & E)]; cbn [fst] in E; [discriminate E|].
  apply name2_inj in E. destruct E as [-> ->]. exact Hk.
Qed.

Lemma domains_iff : (forall x v, In (x, v) t -> exists d, In (x, d) V /\ In v d) <->
  (forall r k v, (r < length rows)%nat -> row_at t r k v -> earliest (nth r rows []) k <= v <= latest nc (nth r rows []) k) /\
  (forall c k v, (c < length cols)%nat -> col_at t c k v -> earliest (nth c cols []) k <= v <= latest nr (nth c cols []) k).
Proof.
  assert (HV : forall x d, In (x, d) V <-> In (x, d) (VL "r" nc rows) \/ In (x, d) (VL "c" nr cols)) by (intros x d; unfold V, VN; apply in_app_iff).
  split.
  - intros H. split.
    + intros r k v Hr Hat. destruct (H _ _ Hat) as (d & Hd & Hv). apply HV in Hd. rewrite !VL_In in Hd.
      destruct Hd as [(i & j & _ & _ & E & ->)|(i & j & _ & _ & E & _)]; [|discriminate E]. apply name2_inj in E. destruct E as [<- <-]. apply zrange_In in Hv. lia.
    + intros c k v Hr Hat. destruct (H _ _ Hat) as (d & Hd & Hv). apply HV in Hd. rewrite !VL_In in Hd.
      destruct Hd as [(i & j & _ & _ & E & _)|(i & j & _ & _ & E & ->)]; [discriminate E|]. apply name2_inj in E. destruct E as [<- <-]. apply zrange_In in Hv. lia.
  - intros [H1 H2] x v Hx. pose proof (Hnames x (in_map fst _ _ Hx)) as [(r & k & Hr & Hk & ->)|(c & k & Hc & Hk & ->)].
    + eexists. split; [apply HV; left; apply VL_In; exists r, k; repeat split; auto|]. apply zrange_In. specialize (H1 r k v Hr Hx). lia.
    + eexists. split; [apply HV; right; apply VL_In; exists c, k; repeat split; auto|]. apply zrange_In. specialize (H2 c k v Hc Hx). lia.
Qed.

Lemma picture_iff : tried P0 V C t <-> partial_picture rows cols t.
Proof.
  unfold tried, partial_picture. cbv zeta. fold nr nc.
  assert (Hforms : (forall f, In (PForm f) C -> (forall x, In x (fvars f) -> In x (map fst t)) -> sat P0 (val t) (PForm f)) <->
    (forall r, (r < length rows)%nat -> forall k v v', row_at t r k v -> row_at t r (S k) v' -> v + nth k (nth r rows []) 0 < v') /\
    (forall c, (c < length cols)%nat -> forall k v v', col_at t c k v -> col_at t c (S k) v' -> v + nth k (nth c cols []) 0 < v') /\
    (forall r c, (r < length rows)%nat -> (c < length cols)%nat -> (cover_list (Z.of_nat c) (RI r) <> [] \/ cover_list (Z.of_nat r) (CI c) <> []) ->
       settled nc (nth r rows []) (row_at t r) (Z.of_nat c) -> settled nr (nth c cols []) (col_at t c) (Z.of_nat r) ->
       sat P0 (val t) (PForm (f_cell rows cols r c)))).
  { assert (Hvars : forall r c, (forall x, In x (fvars (f_cell rows cols r c)) -> In x (map fst t)) <->
      settled nc (nth r rows []) (row_at t r) (Z.of_nat c) /\ settled nr (nth c cols []) (col_at t c) (Z.of_nat r)).
    { intros r c. unfold f_cell. cbn [fvars]. fold nr nc.
      rewrite <- (settled_iff "r" nc rows r t (Z.of_nat c)), <- (settled_iff "c" nr cols c t (Z.of_nat r)). split.
      - intros H. split; intros x Hx; apply H; apply in_or_app; auto.
      - intros [H1 H2] x Hx. apply in_app_or in Hx. destruct Hx; auto. }
    assert (Hav : forall p q, (forall x, In x (fvars (f_after p q)) -> In x (map fst t)) <-> In (rv_name p) (map fst t) /\ In (rv_name q) (map fst t)).
    { intros p q. cbn [f_after fvars app]. split; [intros H; split; apply H; [right; left|left]; reflexivity|]. intros [H1 H2] x [<-|[<-|[]]]; assumption. }
    split.
    - intros H. split; [|split].
      + intros r Hr. apply (after_iff "r" nc rows r t Hnd (fun k v => row_in r k v Hr)). intros k p q E1 E2 B1 B2.
        apply sat_after, H; [|now apply Hav]. apply C_inv. left. exists r, k, p, q. auto.
      + intros c Hc. apply (after_iff "c" nr cols c t Hnd (fun k v => col_in c k v Hc)). intros k p q E1 E2 B1 B2.
        apply sat_after, H; [|now apply Hav]. apply C_inv. right. left. exists c, k, p, q. auto.
      + intros r c Hr Hc Hne S1 S2. apply H; [apply C_inv; right; right; exists r, c; auto|]. apply Hvars. auto.
    - intros (H1 & H2 & H3) f Hf Hb. apply C_inv in Hf.
      destruct Hf as [(r & k & p & q & Hr & Hp & Hq & E)|[(c & k & p & q & Hc & Hp & Hq & E)|(r & c & Hr & Hc & Hne & E)]]; injection E as ->.
      + apply Hav in Hb. destruct Hb as [B1 B2]. apply sat_after.
        exact (proj2 (after_iff "r" nc rows r t Hnd (fun k v => row_in r k v Hr)) (H1 r Hr) k p q Hp Hq B1 B2).
      + apply Hav in Hb. destruct Hb as [B1 B2]. apply sat_after.
        exact (proj2 (after_iff "c" nr cols c t Hnd (fun k v => col_in c k v Hc)) (H2 c Hc) k p q Hp Hq B1 B2).
      + apply Hvars in Hb. now apply H3. }
  rewrite domains_iff, Hforms. clear Hforms.
  assert (Hcell : (forall r k v, (r < length rows)%nat -> row_at t r k v -> earliest (nth r rows []) k <= v <= latest nc (nth r rows []) k) ->
    (forall c k v, (c < length cols)%nat -> col_at t c k v -> earliest (nth c cols []) k <= v <= latest nr (nth c cols []) k) ->
    (forall r, (r < length rows)%nat -> forall k v v', row_at t r k v -> row_at t r (S k) v' -> v + nth k (nth r rows []) 0 < v') ->
    (forall c, (c < length cols)%nat -> forall k v v', col_at t c k v -> col_at t c (S k) v' -> v + nth k (nth c cols []) 0 < v') ->
    forall r c, (r < length rows)%nat -> (c < length cols)%nat ->
      settled nc (nth r rows []) (row_at t r) (Z.of_nat c) -> settled nr (nth c cols []) (col_at t c) (Z.of_nat r) ->
      (((cover_list (Z.of_nat c) (RI r) <> [] \/ cover_list (Z.of_nat r) (CI c) <> []) -> sat P0 (val t) (PForm (f_cell rows cols r c))) <->
       (black (nth r rows []) (row_at t r) (Z.of_nat c) <-> black (nth c cols []) (col_at t c) (Z.of_nat r)))).
  { intros D1 D2 A1 A2 r c Hr Hc S1 S2.
    destruct (line_count "r" nc rows r t HR Hnd (fun k v => row_in r k v Hr) (Z.of_nat c) (fun k v => D1 r k v Hr) (A1 r Hr) S1) as (v & Ev & V1 & V0).
    destruct (line_count "c" nr cols c t HC Hnd (fun k v => col_in c k v Hc) (Z.of_nat r) (fun k v => D2 c k v Hc) (A2 c Hc) S2) as (w & Ew & W1 & W0).
    fold (row_at t r) in V1, V0. fold (col_at t c) in W1, W0.
    pose proof (black_iff "r" nc rows r t Hnd (fun k v => row_in r k v Hr) (Z.of_nat c) (fun k v => D1 r k v Hr) S1) as B1.
    pose proof (black_iff "c" nr cols c t Hnd (fun k v => col_in c k v Hc) (Z.of_nat r) (fun k v => D2 c k v Hc) S2) as B2.
    fold (row_at t r) in B1. fold (col_at t c) in B2. fold RI in B1, Ev. fold CI in B2, Ew.
    assert (Hs : sat P0 (val t) (PForm (f_cell rows cols r c)) <-> v = w).
    { unfold sat. rewrite (cell_meaning rows cols (val t) r c v w Ev Ew). split.
      - intros (u & Eu & Hu). destruct (Z.eqb_spec v w); [assumption|congruence].
      - intros ->. exists 1. rewrite Z.eqb_refl. split; [reflexivity|lia]. }
    assert (Hd : forall c' L, (exists rv, In rv (filter (near c') L) /\ over (val t) c' rv) \/ ~ (exists rv, In rv (filter (near c') L) /\ over (val t) c' rv)).
    { clear. intros c' L. induction (filter (near c') L) as [|rv l IH]; [right; intros (rv & [] & _)|].
      destruct (covers_meaning (val t) c' rv) as [[_ Ho]|[_ Ho]]; [left; exists rv; split; [now left|exact Ho]|].
      destruct IH as [(rv' & H1 & H2)|IH]; [left; exists rv'; split; [now right|exact H2]|right]. intros (rv' & [->|H1] & H2); [contradiction|]. apply IH. eauto. }
    assert (Hvw : v = w <-> (black (nth r rows []) (row_at t r) (Z.of_nat c) <-> black (nth c cols []) (col_at t c) (Z.of_nat r))).
    { pose proof (Hd (Z.of_nat c) (RI r)) as X1. pose proof (Hd (Z.of_nat r) (CI c)) as X2. rewrite <- B1 in X1. rewrite <- B2 in X2.
      destruct X1 as [X1|X1], X2 as [X2|X2];
        [rewrite (V1 X1), (W1 X2)|rewrite (V1 X1), (W0 X2)|rewrite (V0 X1), (W1 X2)|rewrite (V0 X1), (W0 X2)]; intuition lia. }
    rewrite Hs, Hvw. split; [|tauto]. intros H.
    assert (Hnil : forall c' L, {cover_list c' L = []} + {cover_list c' L <> []}) by (intros c' L; destruct (cover_list c' L); [left; reflexivity|right; discriminate]).
    destruct (Hnil (Z.of_nat c) (RI r)) as [N1|N1]; [|apply H; auto]. destruct (Hnil (Z.of_nat r) (CI c)) as [N2|N2]; [|apply H; auto].
    assert (Hno : forall c' L, cover_list c' L = [] -> ~ exists rv, In rv (filter (near c') L) /\ over (val t) c' rv).
    { intros c' L E (rv & Hrv & _). unfold cover_list in E. fold (near c') in E. apply map_eq_nil in E. rewrite E in Hrv. contradiction. }
    rewrite B1, B2. split; intros X; exfalso; [exact (Hno _ _ N1 X)|exact (Hno _ _ N2 X)]. }
  split.
  - intros ((D1 & D2) & (A1 & A2 & Hc) & _). split; [intros r Hr; split; [intros k v; now apply D1|now apply A1]|].
    split; [intros c Hc'; split; [intros k v; now apply D2|now apply A2]|]. intros r c Hr Hc' S1 S2. apply (Hcell D1 D2 A1 A2 r c Hr Hc' S1 S2). intros Hne. now apply Hc.
  - intros (H1 & H2 & H3).
    assert (D1 : forall r k v, (r < length rows)%nat -> row_at t r k v -> earliest (nth r rows []) k <= v <= latest nc (nth r rows []) k) by (intros r k v Hr; apply (H1 r Hr)).
    assert (D2 : forall c k v, (c < length cols)%nat -> col_at t c k v -> earliest (nth c cols []) k <= v <= latest nr (nth c cols []) k) by (intros c k v Hc; apply (H2 c Hc)).
    assert (A1 := fun r Hr => proj2 (H1 r Hr)). assert (A2 := fun c Hc => proj2 (H2 c Hc)).
    split; [split; assumption|]. split; [split; [exact A1|split; [exact A2|]]|].
    + intros r c Hr Hc Hne S1 S2. exact (proj2 (Hcell D1 D2 A1 A2 r c Hr Hc S1 S2) (H3 r c Hr Hc S1 S2) Hne).
    + intros xs x y v Hx. now apply C_diff in Hx.
Qed.
End T.

Lemma runs_tries clk shuffle f o ts ys r i : (exists l, In l (rows ++ cols) /\ l <> []) -> shuffles shuffle ->
  nonogram_watched clk shuffle f rows cols o = Some (ts, ys, r, i) ->
  exists order, Permutation order (run_names rows cols) /\ (o_policy o = Some ORDERED -> order = run_names rows cols) /\ NoDup ts /\
    (forall t, In t ts -> SpecWatch.starts order t /\ partial_picture rows cols t) /\
    (i = None -> forall t, SpecWatch.starts order t -> partial_picture rows cols t -> In t ts).
Proof.
  intros Hne Hs H. unfold nonogram_watched in H. pose proof (nonogram_adds rows cols HR HC) as Ha.
  destruct (TriesGraph.puzzle_watched_inv clk shuffle f _ _ V C _ ts ys r i Ha H) as (e & e' & _ & Hb & Hrun & ->).
  destruct (nonogram_describes rows cols HR HC Hne) as [_ HV Hsafe _ _ _].
  set (sv := options_solver MIN_BOUND o) in *.
  destruct (new_solver_lims (arg_or (o_policy o) MIN_BOUND) (o_timeout o) (o_limit o) (o_compile o)) as [Hto Hli].
  destruct (t_tries P0 clk shuffle f e sv V C ts ys e' r Hb Hs HV (fun _ => Hsafe) Hto Hli (runs_keep rows cols HR HC) Hrun (runs_solvable rows cols HR HC _ Hb))
    as (order & Hp & Ho & _ & Ht & Hn & Hall).
  assert (HndV : NoDup (names_of V)) by exact (b_names _ _ _ _ Hb).
  assert (Hord : NoDup order) by exact (Permutation_NoDup (Permutation_sym Hp) HndV).
  assert (Hin : forall x, In x order <-> run_name rows cols x).
  { intros x. rewrite <- V_name. split; intros Hx; [exact (Permutation_in _ Hp Hx)|exact (Permutation_in _ (Permutation_sym Hp) Hx)]. }
  assert (Hst : forall t, SpecWatch.starts order t -> NoDup (names_of t) /\ forall x, In x (map fst t) -> run_name rows cols x).
  { intros t (x & q & E). split.
    - unfold names_of. rewrite E in Hord. now apply NoDup_app_inv in Hord.
    - intros y Hy. apply Hin. rewrite E. apply in_or_app. now left. }
  exists order. rewrite <- V_names. split; [exact Hp|]. split; [intros Hpo; apply Ho; unfold sv, policy_of; cbn; now rewrite Hpo|]. split; [exact Hn|]. split.
  - intros t Hx. destruct (Ht t Hx) as [H1 H2]. split; [exact H1|]. destruct (Hst t H1) as [Q1 Q2]. now apply picture_iff.
  - intros Hi t H1 H2. destruct (Hst t H1) as [Q1 Q2]. apply Hall; [exact Hi|exact H1|now apply picture_iff].
Qed.
End N.
