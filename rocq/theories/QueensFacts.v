(** Facts about the model of QueensSolver. *)
From Verif Require Import Queens SpecPuzzle SpecQueens SpecSafe SpecSolve NameFacts DictFacts PuzzleFacts PuzzleUserFacts.
Open Scope list_scope.
Open Scope Z_scope.

Section Q.
Variable n : nat.
Let N := Z.of_nat n.
Let P0 := fun _ : nat => 0.

Definition q_ (r : nat) : name := name1 "q_" r.
Definition ul_ (r c : nat) : name := name2 "diag_ul_br_" r c.
Definition ur_ (r c : nat) : name := name2 "diag_ur_bl_" r c.
Definition qs : list name := map q_ (seq 0 n).
Definition f_ul r c := FBin UEq (FVar (ul_ r c)) (FBin UAdd (FVar (q_ c)) (FInt (Z.of_nat c))).
Definition f_ur r c := FBin UEq (FVar (ur_ r c)) (FBin USub (FVar (q_ c)) (FInt (Z.of_nat c))).
Definition Vq : dict (list Z) := flat_map (fun r => [(q_ r, zrange 0 N)]) (seq 0 n).
Definition Vd (r c : nat) : dict (list Z) := [(ul_ r c, zrange 0 (2 * N + 1)); (ur_ r c, zrange (- N) (N + 1))].
Definition Cd (r c : nat) : list pbody := [PForm (f_ul r c); PForm (f_ur r c)].
Definition Vr (r : nat) : dict (list Z) := flat_map (Vd r) (seq 0 n).
Definition Cr (r : nat) : list pbody :=
  flat_map (Cd r) (seq 0 n) ++ [PDiff (map (ul_ r) (seq 0 n)); PDiff (map (ur_ r) (seq 0 n))].
Definition V : dict (list Z) := Vq ++ flat_map Vr (seq 0 n).
Definition C : list pbody := PDiff qs :: flat_map Cr (seq 0 n).

Lemma names_Vq x : In x (names_of Vq) <-> exists r, (r < n)%nat /\ x = q_ r.
Proof.
  unfold Vq. rewrite names_flat. split.
  - intros (r & Hr & [<-|[]]). apply in_seq in Hr. exists r. split; [lia|reflexivity].
  - intros (r & Hr & ->). exists r. split; [apply in_seq; lia|now left].
Qed.

Lemma names_Vd l r x : In x (names_of (flat_map (Vd r) l)) -> exists c, In c l /\ (x = ul_ r c \/ x = ur_ r c).
Proof. rewrite names_flat. intros (c & Hc & [<-|[<-|[]]]); exists c; auto. Qed.

Lemma names_Vr l x : In x (names_of (flat_map Vr l)) -> exists r c, In r l /\ (c < n)%nat /\ (x = ul_ r c \/ x = ur_ r c).
Proof.
  rewrite names_flat. intros (r & Hr & H). apply names_Vd in H. destruct H as (c & Hc & H). apply in_seq in Hc.
  exists r, c. repeat split; auto. lia.
Qed.

Lemma diag_cells r l1 c l2 ls : seq 0 n = l1 ++ c :: l2 -> ~ In r ls ->
  adds P0 ((Vq ++ flat_map Vr ls) ++ flat_map (Vd r) l1) (queens_diagonals n r qs c) (ul_ r c, ur_ r c) (Vd r c) (Cd r c).
Proof.
  intros E Hr. destruct (seq_split_notin _ _ _ _ E) as [Hc Hcn].
  assert (Hq : nth_error qs c = Some (q_ c)).
  { unfold qs. rewrite nth_error_map, (nth_error_nth' _ O) by (rewrite seq_length; exact Hcn). cbn. now rewrite seq_nth. }
  assert (Hfresh : forall y, (y = ul_ r c \/ y = ur_ r c) -> ~ In y (names_of ((Vq ++ flat_map Vr ls) ++ flat_map (Vd r) l1))).
  { intros y Hy Hin. rewrite !names_app, !in_app_iff in Hin. destruct Hin as [[Hin|Hin]|Hin].
    - apply names_Vq in Hin. destruct Hin as (r' & _ & ->). destruct Hy as [Hy|Hy]; discriminate Hy.
    - apply names_Vr in Hin. destruct Hin as (r' & c' & Hr' & _ & Hz).
      destruct Hy as [Hy|Hy], Hz as [Hz|Hz]; rewrite Hy in Hz; try discriminate Hz; apply name2_inj in Hz; destruct Hz as [<- _]; contradiction.
    - apply names_Vd in Hin. destruct Hin as (c' & Hc' & Hz).
      destruct Hy as [Hy|Hy], Hz as [Hz|Hz]; rewrite Hy in Hz; try discriminate Hz; apply name2_inj in Hz; destruct Hz as [_ <-]; contradiction. }
  set (vs0 := (Vq ++ flat_map Vr ls) ++ flat_map (Vd r) l1) in *.
  assert (Hqin : forall ws, In (q_ c) (names_of (vs0 ++ ws))).
  { intros ws. unfold vs0. rewrite !names_app, !in_app_iff. left. left. left. apply names_Vq. exists c. auto. }
  unfold queens_diagonals. fold N.
  change (Vd r c) with ([(ul_ r c, zrange 0 (2 * N + 1))] ++ [] ++ [] ++ [(ur_ r c, zrange (- N) (N + 1))] ++ [] ++ [] ++ []).
  change (Cd r c) with ([] ++ [] ++ [PForm (f_ul r c)] ++ [] ++ [] ++ [PForm (f_ur r c)] ++ []).
  eapply adds_bind; [apply adds_intvar; [now apply name2_good|apply Hfresh; now left|apply zrange_NoDup]|].
  eapply adds_bind; [apply adds_nth; exact Hq|].
  eapply adds_bind.
  { apply (adds_form P0 _ (f_ul r c)); [apply not_consts_l| |intros a; cbn; eexists; reflexivity|reflexivity|reflexivity].
    intros x [<-|[<-|[]]].
    - rewrite !names_app, !in_app_iff. left. right. now left.
    - rewrite app_nil_r. apply Hqin. }
  eapply adds_bind.
  { apply adds_intvar; [now apply name2_good| |apply zrange_NoDup].
    rewrite !names_app, !in_app_iff. intros [[[Hin|[Hin|[]]]|[]]|[]]; [|discriminate Hin]. revert Hin. apply Hfresh. now right. }
  eapply adds_bind; [apply adds_nth; exact Hq|].
  eapply adds_bind; [|apply adds_ret].
  apply (adds_form P0 _ (f_ur r c)); [apply not_consts_l| |intros a; cbn; eexists; reflexivity|reflexivity|reflexivity].
  intros x [<-|[<-|[]]].
  - rewrite !names_app, !in_app_iff. left. right. now left.
  - rewrite !app_nil_r, <- !app_assoc. apply Hqin.
Qed.

Lemma queens_adds : adds P0 [] (queens_init n) qs V C.
Proof.
  unfold queens_init. fold N.
  replace V with (Vq ++ [] ++ flat_map Vr (seq 0 n) ++ []) by (unfold V; now rewrite app_nil_r).
  replace C with ([] ++ [PDiff qs] ++ flat_map Cr (seq 0 n) ++ []) by (unfold C; now rewrite app_nil_r).
  eapply adds_bind.
  { generalize (adds_for P0 (fun r => int_variable (zrange 0 N) (name1 "q_" r)) q_ (fun r => [(q_ r, zrange 0 N)]) (fun _ => []) (seq 0 n) []).
    intros H. replace (@nil pbody) with (flat_map (fun _ : nat => @nil pbody) (seq 0 n)) by (clear; induction (seq 0 n); auto).
    apply H. intros l1 r l2 E. destruct (seq_split_notin _ _ _ _ E) as [Hr _].
    apply adds_intvar; [now apply name1_good| |apply zrange_NoDup].
    rewrite app_nil_l, names_flat. intros (r' & Hr' & [Hx|[]]). apply name1_inj in Hx. congruence. }
  fold qs. eapply adds_bind.
  { apply adds_diff. intros x Hx. unfold qs in Hx. apply in_map_iff in Hx. destruct Hx as (r & <- & Hr). apply names_Vq. apply in_seq in Hr.
    exists r. split; [lia|reflexivity]. }
  eapply adds_bind; [|apply adds_ret]. rewrite app_nil_r.
  apply (adds_for P0 _ (fun _ => tt)). intros ls r l2 E. destruct (seq_split_notin _ _ _ _ E) as [Hr _].
  replace (Vr r) with (Vr r ++ [] ++ []) by apply app_nil_r.
  change (Cr r) with (flat_map (Cd r) (seq 0 n) ++ [PDiff (map (ul_ r) (seq 0 n))] ++ [PDiff (map (ur_ r) (seq 0 n))]).
  assert (Hu : forall c, In c (seq 0 n) -> In (ul_ r c) (names_of (Vr r)) /\ In (ur_ r c) (names_of (Vr r))).
  { intros c Hc. split; apply names_flat; exists c; (split; [exact Hc|cbn; auto]). }
  eapply adds_bind.
  { apply (adds_for P0 _ (fun c => (ul_ r c, ur_ r c))). intros l1 c l3 E'. apply (diag_cells r l1 c l3 ls E' Hr). }
  rewrite !map_map. cbn [fst snd].
  eapply adds_bind; apply adds_diff; intros x Hx; apply in_map_iff in Hx; destruct Hx as (c & <- & Hc);
    try rewrite app_nil_r; rewrite names_app, in_app_iff; right; now apply Hu.
Qed.

(** ** Boards *)

Definition row_of (v : nat) : list Z := list_set (repeat 0 n) v 1.

Lemma list_set_length {A} (l : list A) i a : length (list_set l i a) = length l.
Proof. revert i. induction l as [|b l IH]; intros [|i]; cbn; auto. Qed.

Lemma list_set_nth {A} (l : list A) i a d : forall j, (i < length l)%nat -> nth j (list_set l i a) d = if Nat.eqb j i then a else nth j l d.
Proof.
  revert i. induction l as [|b l IH]; intros [|i] [|j] H; cbn in *; try lia; auto. apply IH. lia.
Qed.

Lemma row_nth v c : (v < n)%nat -> nth c (row_of v) 0 = if Nat.eqb c v then 1 else 0.
Proof.
  intros H. unfold row_of. rewrite list_set_nth by (rewrite repeat_length; exact H). destruct (Nat.eqb c v); [reflexivity|]. apply nth_repeat.
Qed.

Lemma row_length v : length (row_of v) = n.
Proof. unfold row_of. rewrite list_set_length. apply repeat_length. Qed.

Lemma setitem_row v : 0 <= v < N -> py_setitem (repeat 0 n) v 1 = Ok (row_of (Z.to_nat v)).
Proof.
  intros H. unfold py_setitem. rewrite repeat_length. fold N. destruct (Z.ltb_spec v 0); [lia|].
  destruct (Z.leb_spec 0 v); [|lia]. destruct (Z.ltb_spec v N); [|lia]. reflexivity.
Qed.

Lemma place_spec s : forall l k, length l = k -> (forall q, In q l -> dget s q = Some (val s q) /\ 0 <= val s q < N) ->
  place_queens s (repeat (repeat 0 n) k) l = Ok (map (fun q => row_of (Z.to_nat (val s q))) l).
Proof.
  induction l as [|q l IH]; intros k Hk H; cbn in Hk; subst k; [reflexivity|]. cbn [place_queens repeat map].
  destruct (H q (or_introl eq_refl)) as [H1 H2]. unfold get_item. rewrite H1. cbn [bind]. rewrite setitem_row by exact H2. cbn [bind].
  rewrite (IH (length l) eq_refl) by (intros q' Hq'; apply H; now right). reflexivity.
Qed.

Definition board_of (f : nat -> nat) : list (list Z) := map (fun r => row_of (f r)) (seq 0 n).

Lemma board_cell f r c : (forall r, (r < n)%nat -> (f r < n)%nat) -> (r < n)%nat -> cell (board_of f) r c = if Nat.eqb c (f r) then 1 else 0.
Proof.
  intros Hf Hr. unfold cell, board_of. erewrite nth_indep with (d' := row_of (f n)) by (rewrite map_length, seq_length; exact Hr).
  rewrite (map_nth (fun r => row_of (f r)) (seq 0 n) n r), seq_nth by exact Hr. apply row_nth. now apply Hf.
Qed.

Lemma decode_spec s : (forall r, (r < n)%nat -> dget s (q_ r) = Some (val s (q_ r)) /\ 0 <= val s (q_ r) < N) ->
  queens_decode n qs s = Ok (board_of (fun r => Z.to_nat (val s (q_ r)))).
Proof.
  intros H. unfold queens_decode. rewrite place_spec.
  - unfold qs, board_of. now rewrite map_map.
  - unfold qs. now rewrite map_length, seq_length.
  - intros q Hq. unfold qs in Hq. apply in_map_iff in Hq. destruct Hq as (r & <- & Hr). apply in_seq in Hr. apply H. lia.
Qed.

(** What the constraints say about the queens. *)
Definition non_attacking (f : nat -> Z) : Prop :=
  forall r r', (r < n)%nat -> (r' < n)%nat -> r <> r' ->
    f r <> f r' /\ f r + Z.of_nat r <> f r' + Z.of_nat r' /\ f r - Z.of_nat r <> f r' - Z.of_nat r'.

Lemma q_inj r r' : q_ r = q_ r' -> r = r'. Proof. apply name1_inj. Qed.

Lemma sat_constraints a : (forall p, In p C -> sat P0 a p) <->
  non_attacking (fun r => a (q_ r)) /\
  forall r c, (r < n)%nat -> (c < n)%nat -> a (ul_ r c) = a (q_ c) + Z.of_nat c /\ a (ur_ r c) = a (q_ c) - Z.of_nat c.
Proof.
  split.
  - intros H.
    assert (Hdef : forall r c, (r < n)%nat -> (c < n)%nat -> a (ul_ r c) = a (q_ c) + Z.of_nat c /\ a (ur_ r c) = a (q_ c) - Z.of_nat c).
    { intros r c Hr Hc.
      assert (Hin : forall p, In p (Cd r c) -> In p C).
      { intros p Hp. right. apply in_flat_map. exists r. split; [apply in_seq; lia|]. apply in_or_app. left. apply in_flat_map. exists c. split; [apply in_seq; lia|exact Hp]. }
      destruct (H _ (Hin (PForm (f_ul r c)) (or_introl eq_refl))) as (v & Hv & Hne). cbn [meaning arith f_ul] in Hv.
      destruct (H _ (Hin (PForm (f_ur r c)) (or_intror (or_introl eq_refl)))) as (v' & Hv' & Hne'). cbn [meaning arith f_ur] in Hv'.
      destruct (Z.eqb_spec (a (ul_ r c)) (a (q_ c) + Z.of_nat c)); [|congruence].
      destruct (Z.eqb_spec (a (ur_ r c)) (a (q_ c) - Z.of_nat c)); [|congruence]. auto. }
    split; [|exact Hdef]. intros r r' Hr Hr' Hne.
    assert (Hin : forall p, In p [PDiff (map (ul_ r) (seq 0 n)); PDiff (map (ur_ r) (seq 0 n))] -> In p C).
    { intros p Hp. right. apply in_flat_map. exists r. split; [apply in_seq; lia|]. apply in_or_app. now right. }
    split; [|split].
    + apply (H (PDiff qs) (or_introl eq_refl)); [apply in_map; apply in_seq; lia|apply in_map; apply in_seq; lia|]. intros E. now apply q_inj in E.
    + rewrite <- (proj1 (Hdef r r Hr Hr)), <- (proj1 (Hdef r r' Hr Hr')).
      apply (H _ (Hin _ (or_introl eq_refl))); [apply in_map; apply in_seq; lia|apply in_map; apply in_seq; lia|]. intros E. apply name2_inj in E. tauto.
    + rewrite <- (proj2 (Hdef r r Hr Hr)), <- (proj2 (Hdef r r' Hr Hr')).
      apply (H _ (Hin _ (or_intror (or_introl eq_refl)))); [apply in_map; apply in_seq; lia|apply in_map; apply in_seq; lia|]. intros E. apply name2_inj in E. tauto.
  - intros [Hna Hdef] p [<-|Hp].
    + intros x y Hx Hy Hne. apply in_map_iff in Hx, Hy. destruct Hx as (r & <- & Hr), Hy as (r' & <- & Hr'). apply in_seq in Hr, Hr'.
      apply Hna; try lia. congruence.
    + apply in_flat_map in Hp. destruct Hp as (r & Hr & Hp). apply in_seq in Hr. apply in_app_or in Hp. destruct Hp as [Hp|Hp].
      * apply in_flat_map in Hp. destruct Hp as (c & Hc & Hp). apply in_seq in Hc.
        destruct (Hdef r c) as [E1 E2]; [lia|lia|].
        destruct Hp as [<-|[<-|[]]]; exists 1; cbn [meaning arith f_ul f_ur]; [rewrite E1|rewrite E2]; rewrite Z.eqb_refl; split; [reflexivity|lia|reflexivity|lia].
      * destruct Hp as [<-|[<-|[]]]; intros x y Hx Hy Hne; apply in_map_iff in Hx, Hy;
          destruct Hx as (c & <- & Hc), Hy as (c' & <- & Hc'); apply in_seq in Hc, Hc';
          destruct (Hdef r c) as [E1 E2]; try lia; destruct (Hdef r c') as [E3 E4]; try lia;
          destruct (Hna c c') as (H1 & H2 & H3); try lia; try congruence.
Qed.

Lemma V_q r : (r < n)%nat -> In (q_ r, zrange 0 N) V.
Proof. intros H. apply in_or_app. left. apply in_flat_map. exists r. split; [apply in_seq; lia|now left]. Qed.

Lemma board_ok f : (forall r, (r < n)%nat -> (f r < n)%nat) -> non_attacking (fun r => Z.of_nat (f r)) -> queens_board n (board_of f).
Proof.
  intros Hf Hna. split; [|split; [|split]].
  - unfold board_of. now rewrite map_length, seq_length.
  - intros row Hrow. unfold board_of in Hrow. apply in_map_iff in Hrow. destruct Hrow as (r & <- & Hr). apply in_seq in Hr. split; [apply row_length|].
    intros v Hv. apply (In_nth _ _ 0) in Hv. destruct Hv as (c & _ & <-). rewrite row_nth by (apply Hf; lia). destruct (Nat.eqb c (f r)); auto.
  - intros r Hr. exists (f r). split; [now apply Hf|]. rewrite board_cell by assumption. now rewrite Nat.eqb_refl.
  - intros r c r' c' Hr Hc Hr' Hc' H1 H2 Hne. rewrite board_cell in H1, H2 by assumption.
    destruct (Nat.eqb_spec c (f r)) as [->|]; [|discriminate]. destruct (Nat.eqb_spec c' (f r')) as [->|]; [|discriminate].
    assert (Hrr : r <> r') by congruence. destruct (Hna r r' Hr Hr' Hrr) as (G1 & G2 & G3). repeat split; lia.
Qed.

(** The columns of the queens of a board. *)
Fixpoint column (row : list Z) : nat :=
  match row with [] => 0 | v :: row' => if v =? 1 then 0%nat else S (column row') end.

Lemma column_spec row : (exists c, (c < length row)%nat /\ nth c row 0 = 1) -> (column row < length row)%nat /\ nth (column row) row 0 = 1.
Proof.
  induction row as [|v row IH]; intros (c & Hc & E); cbn in *; [lia|]. destruct (Z.eqb_spec v 1) as [->|Hv].
  - split; [lia|reflexivity].
  - destruct c as [|c]; [contradiction|]. destruct IH as [H1 H2]; [exists c; split; [lia|exact E]|]. split; [lia|exact H2].
Qed.

Definition columns (b : list (list Z)) (r : nat) : nat := column (nth r b []).

Lemma board_columns b : queens_board n b ->
  (forall r, (r < n)%nat -> (columns b r < n)%nat) /\ non_attacking (fun r => Z.of_nat (columns b r)) /\ b = board_of (columns b).
Proof.
  intros (Hlen & Hrows & Hone & Hno).
  assert (Hrow : forall r, (r < n)%nat -> In (nth r b []) b) by (intros r Hr; apply nth_In; lia).
  assert (Hcol : forall r, (r < n)%nat -> (columns b r < n)%nat /\ cell b r (columns b r) = 1).
  { intros r Hr. destruct (Hrows _ (Hrow r Hr)) as [Hl _]. destruct (Hone r Hr) as (c & Hc & E).
    destruct (column_spec (nth r b [])) as [H1 H2]; [exists c; rewrite Hl; split; assumption|]. rewrite Hl in H1. split; assumption. }
  split; [intros r Hr; now apply Hcol|]. split.
  - intros r r' Hr Hr' Hne. destruct (Hcol r Hr) as [C1 C2], (Hcol r' Hr') as [D1 D2].
    destruct (Hno r (columns b r) r' (columns b r')) as (_ & G1 & G2 & G3); auto; [congruence|]. repeat split; lia.
  - apply nth_ext with (d := []) (d' := []); [unfold board_of; rewrite map_length, seq_length; exact Hlen|].
    intros r Hr. rewrite Hlen in Hr. destruct (Hrows _ (Hrow r Hr)) as [Hl H01].
    assert (E : nth r (board_of (columns b)) [] = row_of (columns b r)).
    { unfold board_of. erewrite nth_indep with (d' := row_of (columns b n)) by (rewrite map_length, seq_length; exact Hr).
      rewrite (map_nth (fun r => row_of (columns b r)) (seq 0 n) n r), seq_nth by exact Hr. reflexivity. }
    rewrite E. apply nth_ext with (d := 0) (d' := 0); [now rewrite row_length|].
    intros c Hc. rewrite Hl in Hc. destruct (Hcol r Hr) as [C1 C2]. rewrite row_nth by exact C1.
    destruct (Nat.eqb_spec c (columns b r)) as [->|Hne]; [exact C2|].
    destruct (H01 (nth c (nth r b []) 0)) as [E0|E1]; [apply nth_In; lia|exact E0|exfalso].
    destruct (Hno r c r (columns b r)) as (G & _); auto; congruence.
Qed.

(** The assignment that puts the queen of row r into column f r. *)
Definition assign (f : nat -> Z) : dict Z :=
  flat_map (fun r => [(q_ r, f r)]) (seq 0 n) ++
  flat_map (fun r => flat_map (fun c => [(ul_ r c, f c + Z.of_nat c); (ur_ r c, f c - Z.of_nat c)]) (seq 0 n)) (seq 0 n).

Lemma assign_names f : names_of (assign f) = names_of V.
Proof.
  unfold assign, V, Vq. rewrite !names_app. f_equal; apply names_flat_eq; intros r; [reflexivity|]. unfold Vr.
  apply names_flat_eq. reflexivity.
Qed.

Lemma queens_describes : (1 <= n)%nat -> describes (queens_init n) qs V C (queens_decode n) (queens_board n).
Proof.
  intros Hn. pose proof (adds_NoDup _ _ _ _ queens_adds) as HND.
  assert (Hq : forall s, good_solution P0 V C s -> forall r, (r < n)%nat -> dget s (q_ r) = Some (val s (q_ r)) /\ 0 <= val s (q_ r) < N).
  { intros s [H _] r Hr. destruct (H _ _ (V_q r Hr)) as [H1 H2]. split; [exact H1|]. now apply zrange_In. }
  constructor.
  - exact queens_adds.
  - intros E. pose proof (V_q 0 ltac:(lia)) as H. rewrite E in H. contradiction.
  - intros p [<-|Hp]; [exact Logic.I|]. apply in_flat_map in Hp. destruct Hp as (r & _ & Hp). apply in_app_or in Hp. destruct Hp as [Hp|[<-|[<-|[]]]]; try exact Logic.I.
    apply in_flat_map in Hp. destruct Hp as (c & _ & [<-|[<-|[]]]); cbn [p_safe f_safe f_arith f_ul f_ur f_str];
      unfold q_, ul_, ur_; rewrite (name1_ok "q_") by reflexivity; rewrite name2_ok by reflexivity; reflexivity.
  - intros s Hg. pose proof (Hq s Hg) as Hq'. eexists. split; [now apply decode_spec|].
    destruct Hg as [_ Hc]. apply sat_constraints in Hc. destruct Hc as [Hna _]. apply board_ok.
    + intros r Hr. destruct (Hq' r Hr). lia.
    + intros r r' Hr Hr' Hne. specialize (Hna r r' Hr Hr' Hne). cbn beta in *. destruct (Hq' r Hr), (Hq' r' Hr'). rewrite !Z2Nat.id by lia. exact Hna.
  - intros s s' b Hg Hg' Hd Hd' x Hx. pose proof (Hq s Hg) as Hq1. pose proof (Hq s' Hg') as Hq2.
    rewrite decode_spec in Hd, Hd' by assumption. rewrite <- Hd in Hd'. injection Hd' as E.
    assert (Eq : forall r, (r < n)%nat -> val s (q_ r) = val s' (q_ r)).
    { intros r Hr. destruct (Hq1 r Hr), (Hq2 r Hr).
      assert (Ec : cell (board_of (fun r => Z.to_nat (val s (q_ r)))) r (Z.to_nat (val s (q_ r))) = cell (board_of (fun r => Z.to_nat (val s' (q_ r)))) r (Z.to_nat (val s (q_ r)))) by now rewrite E.
      rewrite !board_cell in Ec; try assumption; try (intros r0 Hr0; destruct (Hq1 r0 Hr0), (Hq2 r0 Hr0); lia).
      rewrite Nat.eqb_refl in Ec. destruct (Nat.eqb_spec (Z.to_nat (val s (q_ r))) (Z.to_nat (val s' (q_ r)))); [lia|discriminate]. }
    destruct Hg as [_ Hc], Hg' as [_ Hc']. apply sat_constraints in Hc, Hc'. destruct Hc as [_ Hc], Hc' as [_ Hc'].
    unfold V in Hx. rewrite names_app, in_app_iff in Hx. destruct Hx as [Hx|Hx].
    + apply names_Vq in Hx. destruct Hx as (r & Hr & ->). now apply Eq.
    + apply names_Vr in Hx. destruct Hx as (r & c & Hr & Hcn & Hx). apply in_seq in Hr.
      destruct (Hc r c) as [E1 E2], (Hc' r c) as [E3 E4]; try lia. specialize (Eq c Hcn). destruct Hx as [->| ->]; congruence.
  - intros b Hb. destruct (board_columns b Hb) as (Hcol & Hna & Eb). set (f := fun r => Z.of_nat (columns b r)).
    assert (HNL : NoDup (names_of (assign f))) by (rewrite assign_names; exact HND).
    assert (Vq' : forall r, (r < n)%nat -> val (assign f) (q_ r) = f r).
    { intros r Hr. apply val_In; [exact HNL|]. apply in_or_app. left. apply in_flat_map. exists r. split; [apply in_seq; lia|now left]. }
    assert (Vd' : forall r c, (r < n)%nat -> (c < n)%nat -> val (assign f) (ul_ r c) = f c + Z.of_nat c /\ val (assign f) (ur_ r c) = f c - Z.of_nat c).
    { intros r c Hr Hc. split; (apply val_In; [exact HNL|]; apply in_or_app; right; apply in_flat_map; exists r; split; [apply in_seq; lia|];
        apply in_flat_map; exists c; split; [apply in_seq; lia|cbn; auto]). }
    exists (val (assign f)). split; [|split].
    + intros x d Hin. unfold V in Hin. apply in_app_or in Hin. destruct Hin as [Hin|Hin].
      * apply in_flat_map in Hin. destruct Hin as (r & Hr & [E|[]]). injection E as <- <-. apply in_seq in Hr.
        rewrite Vq' by lia. apply zrange_In. specialize (Hcol r ltac:(lia)). unfold f, N. lia.
      * apply in_flat_map in Hin. destruct Hin as (r & Hr & Hin). apply in_flat_map in Hin. destruct Hin as (c & Hc & Hin). apply in_seq in Hr, Hc.
        destruct (Vd' r c) as [E1 E2]; try lia. specialize (Hcol c ltac:(lia)).
        destruct Hin as [E|[E|[]]]; apply pair_equal_spec in E; destruct E as [<- <-]; apply zrange_In; [rewrite E1|rewrite E2]; unfold f, N; lia.
    + apply sat_constraints. split.
      * intros r r' Hr Hr' Hne. cbn beta. rewrite !Vq' by assumption. now apply Hna.
      * intros r c Hr Hc. rewrite (Vq' c Hc). now apply Vd'.
    + intros s Hs'. rewrite decode_spec.
      * f_equal. etransitivity; [|symmetry; exact Eb]. unfold board_of. apply map_ext_in. intros r Hr. apply in_seq in Hr.
        assert (Er : val s (q_ r) = f r).
        { unfold val at 1, dget_or. rewrite Hs'; [now apply Vq'|]. unfold V. rewrite names_app, in_app_iff. left. apply names_Vq. exists r. split; [lia|reflexivity]. }
        rewrite Er. unfold f. now rewrite Nat2Z.id.
      * intros r Hr. assert (Hin : In (q_ r) (names_of V)) by (unfold V; rewrite names_app, in_app_iff; left; apply names_Vq; exists r; auto).
        assert (Ed : dget s (q_ r) = Some (f r)) by (rewrite Hs' by exact Hin; f_equal; now apply Vq').
        assert (Ev : val s (q_ r) = f r) by (unfold val, dget_or; now rewrite Ed).
        rewrite Ev, Ed. specialize (Hcol r Hr). unfold f, N. split; [reflexivity|lia].
Qed.

Lemma queens_exact clk shuffle o : (1 <= n)%nat -> shuffles shuffle ->
  exactly (fun fuel => queens_run clk shuffle fuel n o) (queens_board n) (o_timeout o) (o_limit o).
Proof. intros Hn Hs. exact (describes_exactly clk shuffle _ _ _ _ _ _ _ _ _ _ (queens_describes Hn) Hs). Qed.
End Q.
