(** Facts about the model of SudokuSolver. *)
From Verif Require Import Sudoku SpecPuzzle SpecSudoku SpecSafe SpecSolve NameFacts DictFacts PuzzleFacts PuzzleUserFacts.
Open Scope list_scope.
Open Scope Z_scope.

Lemma mapM_Ok {A B} (f : A -> res B) (g : A -> B) l : (forall x, In x l -> f x = Ok (g x)) -> mapM f l = Ok (map g l).
Proof.
  induction l as [|a l IH]; intros H; [reflexivity|]. cbn [mapM map]. rewrite (H a (or_introl eq_refl)). cbn [bind].
  rewrite IH by (intros x Hx; apply H; now right). reflexivity.
Qed.

Lemma nth_map_seq {A} (f : nat -> A) d k i : (i < k)%nat -> nth i (map f (seq 0 k)) d = f i.
Proof.
  intros H. erewrite nth_indep with (d' := f k) by (rewrite map_length, seq_length; exact H).
  rewrite (map_nth f (seq 0 k) k i), seq_nth by exact H. reflexivity.
Qed.

(** ** Cells *)
Lemma cells_In r c : In (r, c) cells <-> (r < 9)%nat /\ (c < 9)%nat.
Proof. unfold cells. rewrite in_prod_iff, !in_seq. lia. Qed.

Definition pair_dec (p q : nat * nat) : {p = q} + {p <> q}.
Proof. decide equality; apply Nat.eq_dec. Defined.

Lemma cells_NoDup : NoDup cells.
Proof.
  assert (E : cells = nodup pair_dec cells) by (vm_compute; reflexivity). rewrite E. apply NoDup_nodup.
Qed.

Lemma div3 c : (c < 9)%nat -> (c / 3 < 3)%nat.
Proof. intros H. apply Nat.div_lt_upper_bound; lia. Qed.

Lemma block_eq r c r' c' : (r < 9)%nat -> (c < 9)%nat -> (r' < 9)%nat -> (c' < 9)%nat ->
  (block_index (r, c) = block_index (r', c') <-> (r / 3 = r' / 3)%nat /\ (c / 3 = c' / 3)%nat).
Proof.
  intros H1 H2 H3 H4. unfold block_index. cbn [fst snd]. apply div3 in H2, H4. 
  generalize dependent (r / 3)%nat. generalize dependent (r' / 3)%nat. generalize dependent (c / 3)%nat. generalize dependent (c' / 3)%nat. intros. lia.
Qed.

Lemma unit_index r c r' c' : (r < 9)%nat -> (c < 9)%nat -> (r' < 9)%nat -> (c' < 9)%nat ->
  (same_unit r c r' c' <-> row_index (r, c) = row_index (r', c') \/ col_index (r, c) = col_index (r', c') \/ block_index (r, c) = block_index (r', c')).
Proof. intros H1 H2 H3 H4. unfold same_unit. rewrite block_eq by assumption. reflexivity. Qed.

Lemma neighbors_unit r c r' c' : (r < 9)%nat -> (c < 9)%nat -> (r' < 9)%nat -> (c' < 9)%nat ->
  (neighbors (r, c) (r', c') = true <-> same_unit r c r' c').
Proof. intros H1 H2 H3 H4. unfold neighbors. rewrite unit_index by assumption. rewrite !orb_true_iff, !Nat.eqb_eq. tauto. Qed.

Lemma index_lt r c : (r < 9)%nat -> (c < 9)%nat ->
  (row_index (r, c) < 9)%nat /\ (col_index (r, c) < 9)%nat /\ (block_index (r, c) < 9)%nat.
Proof.
  intros H1 H2. split; [exact H1|]. split; [exact H2|]. unfold block_index. cbn [fst snd]. apply div3 in H1, H2.
  generalize dependent (r / 3)%nat. generalize dependent (c / 3)%nat. intros. lia.
Qed.

Lemma c_name_inj p q : c_name p = c_name q -> p = q.
Proof. destruct p, q. unfold c_name. cbn [fst snd]. intros H. apply name2_inj in H. destruct H as [-> ->]. reflexivity. Qed.

(** ** Well-formedness *)
Lemma check_row_ok row : forall c, check_row row c = Ok tt <-> (c + length row <= 9 \/ row = [])%nat /\ forallb accepted row = true.
Proof.
  induction row as [|v row IH]; intros c; cbn [check_row length forallb]; [split; auto|].
  destruct (accepted v); cbn [andb]; [|split; [discriminate|intros [_ H]; discriminate]].
  destruct (Nat.ltb_spec c 9).
  - rewrite IH. split; intros [[H1|H1] H2]; (split; [|exact H2]); try (left; lia); try discriminate. left. subst row. cbn. lia.
  - split; [discriminate|]. intros [[H1|H1] _]; [lia|discriminate].
Qed.

Lemma check_rows_ok s : check_rows s = Ok tt <-> forall row, In row s -> (length row <= 9)%nat /\ forallb accepted row = true.
Proof.
  induction s as [|row s IH]; cbn [check_rows]; [split; [intros _ row []|reflexivity]|].
  destruct (check_row row 0) as [[]|ex] eqn:E; cbn [bind].
  - apply check_row_ok in E. rewrite IH. split.
    + intros H row' [<-|Hr]; [|auto]. destruct E as [[E| ->] E']; cbn in *; split; auto; lia.
    + intros H row' Hr. apply H. now right.
  - split; [discriminate|]. intros H. exfalso. destruct (H row (or_introl eq_refl)) as [H1 H2].
    assert (E' : check_row row 0 = Ok tt) by (apply check_row_ok; split; [left; exact H1|exact H2]). congruence.
Qed.

Lemma accepted_spec row : forallb accepted row = true <-> forall n, In (Some n) row -> 0 <= n <= 9.
Proof.
  rewrite forallb_forall. split.
  - intros H n Hn. specialize (H _ Hn). cbn in H. apply andb_true_iff in H. destruct H as [H1 H2]. apply Z.leb_le in H1, H2. lia.
  - intros H [n|] Hn; cbn; [|reflexivity]. specialize (H n Hn). apply andb_true_iff. rewrite !Z.leb_le. lia.
Qed.

Lemma well_formed_checks s : well_formed s <->
  length s = 9%nat /\ check_rows s = Ok tt /\ existsb (fun row => Nat.ltb (length row) 9) s = false.
Proof.
  unfold well_formed. rewrite check_rows_ok. split.
  - intros [H1 H2]. split; [exact H1|]. split.
    + intros row Hr. destruct (H2 row Hr) as [E H]. split; [lia|now apply accepted_spec].
    + destruct (existsb (fun row => Nat.ltb (length row) 9) s) eqn:E; [|reflexivity]. apply existsb_exists in E. destruct E as (row & Hr & Hl).
      apply Nat.ltb_lt in Hl. destruct (H2 row Hr). lia.
  - intros (H1 & H2 & H3). split; [exact H1|]. intros row Hr. destruct (H2 row Hr) as [H4 H5]. split; [|now apply accepted_spec].
    destruct (Nat.ltb_spec (length row) 9) as [Hl|Hl]; [|lia]. exfalso.
    assert (E : existsb (fun row => Nat.ltb (length row) 9) s = true) by (apply existsb_exists; exists row; split; [exact Hr|now apply Nat.ltb_lt]). congruence.
Qed.

Section S.
Variable s : list (list (option Z)).
Hypothesis Hw : well_formed s.
Let P0 := fun _ : nat => 0.

Lemma entry_given p : given s (fst p) (snd p) = match entry s p with Some n => if n =? 0 then None else Some n | None => None end.
Proof. reflexivity. Qed.

Lemma entry_range r c n : (r < 9)%nat -> (c < 9)%nat -> given s r c = Some n -> 1 <= n <= 9.
Proof.
  intros Hr Hc H. destruct Hw as [H1 H2]. unfold given in H. destruct (nth c (nth r s []) None) as [k|] eqn:E; [|discriminate].
  destruct (Z.eqb_spec k 0); [discriminate|]. injection H as <-.
  destruct (H2 (nth r s [])) as [H3 H4]; [apply nth_In; lia|]. specialize (H4 k).
  assert (In (Some k) (nth r s [])) by (rewrite <- E; apply nth_In; lia). specialize (H4 H). lia.
Qed.

Lemma null_In r c : In (r, c) (null_cells s) <-> (r < 9)%nat /\ (c < 9)%nat /\ given s r c = None.
Proof.
  unfold null_cells. rewrite filter_In, cells_In.
  change (given s r c) with (given s (fst (r, c)) (snd (r, c))). rewrite entry_given. unfold is_null.
  destruct (entry s (r, c)) as [n|]; [destruct (n =? 0)|]; intuition discriminate.
Qed.

Lemma null_NoDup : NoDup (null_cells s).
Proof. apply NoDup_filter, cells_NoDup. Qed.

Lemma domain_In r c v : (r < 9)%nat -> (c < 9)%nat ->
  (In v (cell_domain s (r, c)) <-> 1 <= v <= 9 /\ forall r' c', (r' < 9)%nat -> (c' < 9)%nat -> same_unit r c r' c' -> given s r' c' <> Some v).
Proof.
  intros Hr Hc. unfold cell_domain. rewrite filter_In, zrange_In, negb_true_iff. split.
  - intros [H1 H2]. split; [lia|]. intros r' c' Hr' Hc' Hu Hg.
    assert (E : discarded s (r, c) v = true); [|congruence]. apply existsb_exists. exists (r', c'). split; [now apply cells_In|].
    apply andb_true_iff. split; [apply neighbors_unit; try assumption; unfold same_unit in *; intuition congruence|].
    change (given s r' c') with (given s (fst (r', c')) (snd (r', c'))) in Hg. rewrite entry_given in Hg.
    destruct (entry s (r', c')) as [n|]; [|discriminate]. destruct (n =? 0); [discriminate|]. injection Hg as ->. apply Z.eqb_refl.
  - intros [H1 H2]. split; [lia|]. destruct (discarded s (r, c) v) eqn:E; [|reflexivity]. exfalso. apply existsb_exists in E.
    destruct E as ([r' c'] & Hin & E). apply cells_In in Hin. destruct Hin as [Hr' Hc']. apply andb_true_iff in E. destruct E as [E1 E2].
    apply neighbors_unit in E1; try assumption. apply (H2 r' c' Hr' Hc'); [unfold same_unit in *; intuition congruence|].
    change (given s r' c') with (given s (fst (r', c')) (snd (r', c'))). rewrite entry_given.
    destruct (entry s (r', c')) as [n|]; [|discriminate]. apply Z.eqb_eq in E2. subst n. destruct (Z.eqb_spec v 0); [lia|reflexivity].
Qed.

(** ** The model *)
Definition Vs : dict (list Z) := flat_map (fun p => [(c_name p, cell_domain s p)]) (null_cells s).
Definition group (index : nat * nat -> nat) (i : nat) : list name := map c_name (filter (fun p => Nat.eqb (index p) i) (null_cells s)).
Definition Cgroup (index : nat * nat -> nat) : list pbody :=
  flat_map (fun i => if Nat.ltb 1 (length (group index i)) then [PDiff (group index i)] else []) (seq 0 9).
Definition Cs : list pbody := Cgroup row_index ++ Cgroup col_index ++ Cgroup block_index.

Lemma names_Vs x : In x (names_of Vs) <-> exists p, In p (null_cells s) /\ x = c_name p.
Proof.
  unfold Vs. rewrite names_flat. split.
  - intros (p & Hp & [<-|[]]). eauto.
  - intros (p & Hp & ->). exists p. split; [exact Hp|now left].
Qed.

Lemma groups_adds index : adds P0 Vs (add_groups s index) (map (fun _ => tt) (seq 0 9)) [] (Cgroup index).
Proof.
  unfold add_groups, Cgroup.
  replace (@nil (name * list Z)) with (flat_map (fun _ : nat => @nil (name * list Z)) (seq 0 9)) by reflexivity.
  apply (adds_for P0 _ (fun _ => tt)). intros l1 i l2 _. fold (group index i).
  replace (Vs ++ flat_map (fun _ : nat => @nil (name * list Z)) l1) with Vs.
  2:{ assert (E : flat_map (fun _ : nat => @nil (name * list Z)) l1 = []) by (clear; induction l1; auto). rewrite E. now rewrite app_nil_r. }
  destruct (Nat.ltb 1 (length (group index i))); [|apply adds_ret].
  apply adds_diff. intros x Hx. apply names_Vs. unfold group in Hx. apply in_map_iff in Hx. destruct Hx as (p & <- & Hp). apply filter_In in Hp. exists p. tauto.
Qed.

Lemma sudoku_adds : adds P0 [] (sudoku_init s) tt Vs Cs.
Proof.
  apply well_formed_checks in Hw. destruct Hw as (H1 & H2 & H3). unfold sudoku_init. rewrite H1, H2, H3. cbn [Nat.eqb negb].
  replace Vs with (Vs ++ [] ++ [] ++ [] ++ []) by (now rewrite !app_nil_r).
  replace Cs with ([] ++ Cgroup row_index ++ Cgroup col_index ++ Cgroup block_index ++ []) by (unfold Cs; now rewrite !app_nil_r).
  eapply adds_bind.
  { replace (@nil pbody) with (flat_map (fun _ : nat * nat => @nil pbody) (null_cells s)) by (clear; induction (null_cells s); auto).
    apply (adds_for P0 _ c_name). intros l1 p l2 E. apply adds_intvar.
    - now apply name2_good.
    - rewrite app_nil_l, names_flat. intros (q & Hq & [Hx|[]]). apply c_name_inj in Hx. subst q.
      pose proof null_NoDup as HN. rewrite E in HN. apply NoDup_remove_2 in HN. apply HN. apply in_or_app. now left.
    - apply NoDup_filter, zrange_NoDup. }
  apply (adds_bind P0 Vs _ _ (map (fun _ => tt) (seq 0 9)) tt [] (Cgroup row_index) [] (Cgroup col_index ++ Cgroup block_index ++ [])); [apply groups_adds|]. rewrite app_nil_r.
  apply (adds_bind P0 Vs _ _ (map (fun _ => tt) (seq 0 9)) tt [] (Cgroup col_index) [] (Cgroup block_index ++ [])); [apply groups_adds|]. rewrite app_nil_r.
  apply (adds_bind P0 Vs _ _ (map (fun _ => tt) (seq 0 9)) tt [] (Cgroup block_index) [] []); [apply groups_adds|]. apply adds_ret.
Qed.

Lemma sat_group index a : (forall p, In p (null_cells s) -> (index p < 9)%nat) ->
  ((forall b, In b (Cgroup index) -> sat P0 a b) <->
   forall p q, In p (null_cells s) -> In q (null_cells s) -> p <> q -> index p = index q -> a (c_name p) <> a (c_name q)).
Proof.
  intros Hi. split.
  - intros H p q Hp Hq Hne E.
    assert (Hgp : In (c_name p) (group index (index p))) by (unfold group; apply in_map, filter_In; split; [exact Hp|apply Nat.eqb_refl]).
    assert (Hgq : In (c_name q) (group index (index p))) by (unfold group; apply in_map, filter_In; split; [exact Hq|apply Nat.eqb_eq; congruence]).
    assert (Hne' : c_name p <> c_name q) by (intros E'; apply c_name_inj in E'; contradiction).
    assert (Hl : (1 < length (group index (index p)))%nat).
    { destruct (group index (index p)) as [|x [|y l]]; [contradiction| |cbn; lia]. destruct Hgp as [E1|[]], Hgq as [E2|[]]. congruence. }
    apply (H (PDiff (group index (index p)))); auto. unfold Cgroup. apply in_flat_map. exists (index p). split; [apply in_seq; specialize (Hi p Hp); lia|].
    apply Nat.ltb_lt in Hl. rewrite Hl. now left.
  - intros H b Hb. unfold Cgroup in Hb. apply in_flat_map in Hb. destruct Hb as (i & _ & Hb).
    destruct (Nat.ltb 1 (length (group index i))); [|contradiction]. destruct Hb as [<-|[]]. intros x y Hx Hy Hne.
    unfold group in Hx, Hy. apply in_map_iff in Hx, Hy. destruct Hx as (p & <- & Hp), Hy as (q & <- & Hq).
    apply filter_In in Hp, Hq. destruct Hp as [Hp Ep], Hq as [Hq Eq]. apply Nat.eqb_eq in Ep, Eq. apply H; congruence.
Qed.

Lemma sat_units a : (forall b, In b Cs -> sat P0 a b) <->
  forall r c r' c', In (r, c) (null_cells s) -> In (r', c') (null_cells s) -> (r, c) <> (r', c') -> same_unit r c r' c' ->
    a (c_name (r, c)) <> a (c_name (r', c')).
Proof.
  assert (Hi : forall p, In p (null_cells s) -> (row_index p < 9)%nat /\ (col_index p < 9)%nat /\ (block_index p < 9)%nat).
  { intros [r c] Hp. apply null_In in Hp. apply index_lt; tauto. }
  assert (Hr := sat_group row_index a (fun p Hp => proj1 (Hi p Hp))).
  assert (Hc := sat_group col_index a (fun p Hp => proj1 (proj2 (Hi p Hp)))).
  assert (Hb := sat_group block_index a (fun p Hp => proj2 (proj2 (Hi p Hp)))).
  unfold Cs. split.
  - intros H r c r' c' Hp Hq Hne Hu. pose proof (proj1 (null_In r c) Hp). pose proof (proj1 (null_In r' c') Hq).
    apply unit_index in Hu; try tauto. destruct Hu as [E|[E|E]].
    + apply Hr; auto. intros b Hin. apply H. rewrite !in_app_iff. tauto.
    + apply Hc; auto. intros b Hin. apply H. rewrite !in_app_iff. tauto.
    + apply Hb; auto. intros b Hin. apply H. rewrite !in_app_iff. tauto.
  - intros H b Hin.
    assert (H' : forall index : nat * nat -> nat, (forall r c r' c', In (r, c) (null_cells s) -> In (r', c') (null_cells s) -> index (r, c) = index (r', c') -> same_unit r c r' c') ->
      forall p q, In p (null_cells s) -> In q (null_cells s) -> p <> q -> index p = index q -> a (c_name p) <> a (c_name q)).
    { intros index Hix [r c] [r' c'] Hp Hq Hne E. apply H; auto. }
    rewrite !in_app_iff in Hin. destruct Hin as [Hin|[Hin|Hin]].
    + revert b Hin. apply Hr. apply H'. intros r c r' c' Hp Hq E. apply null_In in Hp, Hq. apply unit_index; tauto.
    + revert b Hin. apply Hc. apply H'. intros r c r' c' Hp Hq E. apply null_In in Hp, Hq. apply unit_index; tauto.
    + revert b Hin. apply Hb. apply H'. intros r c r' c' Hp Hq E. apply null_In in Hp, Hq. apply unit_index; tauto.
Qed.

(** ** Grids *)
Definition grid_of (h : nat -> nat -> Z) : list (list Z) := map (fun r => map (h r) (seq 0 9)) (seq 0 9).

Lemma grid_at h r c : (r < 9)%nat -> (c < 9)%nat -> at_ (grid_of h) r c = h r c.
Proof. intros Hr Hc. unfold at_, grid_of. rewrite (nth_map_seq _ []) by exact Hr. now apply nth_map_seq. Qed.

Lemma grid_eta g : is_grid g -> g = grid_of (at_ g).
Proof.
  intros (H1 & H2 & _). unfold grid_of. apply nth_ext with (d := []) (d' := []); [now rewrite map_length, seq_length|].
  intros r Hr. rewrite H1 in Hr. rewrite (nth_map_seq _ []) by exact Hr.
  assert (Hl : length (nth r g []) = 9%nat) by (apply H2, nth_In; lia).
  apply nth_ext with (d := 0) (d' := 0); [now rewrite map_length, seq_length|]. intros c Hc. rewrite Hl in Hc.
  now rewrite (nth_map_seq _ 0) by exact Hc.
Qed.

Lemma grid_shape h : (forall r c, (r < 9)%nat -> (c < 9)%nat -> 1 <= h r c <= 9) -> is_grid (grid_of h).
Proof.
  intros H. split; [|split].
  - unfold grid_of. now rewrite map_length, seq_length.
  - intros row Hrow. unfold grid_of in Hrow. apply in_map_iff in Hrow. destruct Hrow as (r & <- & _). now rewrite map_length, seq_length.
  - intros r c Hr Hc. rewrite grid_at by assumption. now apply H.
Qed.

Definition filled (a : assignment) (r c : nat) : Z := match given s r c with Some n => n | None => a (c_name (r, c)) end.

Lemma decode_grid sol : (forall r c, In (r, c) (null_cells s) -> dget sol (c_name (r, c)) = Some (val sol (c_name (r, c)))) ->
  sudoku_decode s tt sol = Ok (grid_of (filled (val sol))).
Proof.
  intros H. unfold sudoku_decode, grid_of. apply mapM_Ok. intros r Hr. apply mapM_Ok. intros c Hc. apply in_seq in Hr, Hc.
  pose proof (entry_given (r, c)) as E. cbn [fst snd] in E. unfold sudoku_cell, filled. rewrite E.
  assert (Hn : given s r c = None -> get_item sol (c_name (r, c)) = Ok (val sol (c_name (r, c)))).
  { intros Hg. unfold get_item. rewrite H; [reflexivity|]. apply null_In. repeat split; try lia. exact Hg. }
  destruct (entry s (r, c)) as [n|]; [|now apply Hn]. destruct (n =? 0); [now apply Hn|reflexivity].
Qed.

Lemma sudoku_describes : has_blank s -> describes (sudoku_init s) tt Vs Cs (sudoku_decode s) (completion s).
Proof.
  intros (rb & cb & Hrb & Hcb & Hgb). pose proof (adds_NoDup _ _ _ _ sudoku_adds) as HND.
  assert (Hq : forall sol, good_solution P0 Vs Cs sol -> forall r c, In (r, c) (null_cells s) ->
    dget sol (c_name (r, c)) = Some (val sol (c_name (r, c))) /\ In (val sol (c_name (r, c))) (cell_domain s (r, c))).
  { intros sol [H _] r c Hp. apply H. unfold Vs. apply in_flat_map. exists (r, c). split; [exact Hp|now left]. }
  constructor.
  - exact sudoku_adds.
  - intros E. assert (H : In (c_name (rb, cb)) (names_of Vs)) by (apply names_Vs; exists (rb, cb); split; [now apply null_In|reflexivity]).
    rewrite E in H. contradiction.
  - intros p Hp. unfold Cs in Hp. rewrite !in_app_iff in Hp.
    assert (H : forall index, In p (Cgroup index) -> p_safe p).
    { intros index H. unfold Cgroup in H. apply in_flat_map in H. destruct H as (i & _ & H). destruct (Nat.ltb 1 _); [|contradiction]. destruct H as [<-|[]]. exact Logic.I. }
    destruct Hp as [Hp|[Hp|Hp]]; eapply H; eauto.
  - intros sol Hg. pose proof (Hq sol Hg) as Hq'. eexists. split; [apply decode_grid; intros r c Hp; now apply Hq'|].
    destruct Hg as [_ Hc]. pose proof (proj1 (sat_units (val sol)) Hc) as Hu. split; [|split].
    + apply grid_shape. intros r c Hr Hcc. unfold filled. destruct (given s r c) as [n|] eqn:E; [now apply (entry_range r c)|].
      destruct (Hq' r c) as [_ H]; [now apply null_In|]. apply domain_In in H; tauto.
    + intros r c n Hr Hcc E. rewrite grid_at by assumption. unfold filled. now rewrite E.
    + intros r c r' c' Hr Hcc Hr' Hc' Hne Hun E. rewrite !grid_at by assumption. unfold filled. rewrite E.
      destruct (given s r' c') as [n|] eqn:E'.
      * destruct (Hq' r c) as [_ H]; [now apply null_In|]. apply domain_In in H; try assumption. destruct H as [_ H].
        intros En. apply (H r' c'); try assumption. congruence.
      * apply Hu; auto; now apply null_In.
  - intros sol sol' b Hg Hg' Hd Hd' x Hx. pose proof (Hq sol Hg) as Hq1. pose proof (Hq sol' Hg') as Hq2.
    rewrite decode_grid in Hd by (intros r c Hp; now apply Hq1). rewrite decode_grid in Hd' by (intros r c Hp; now apply Hq2).
    assert (E : grid_of (filled (val sol)) = grid_of (filled (val sol'))) by congruence.
    apply names_Vs in Hx. destruct Hx as ([r c] & Hp & ->). apply null_In in Hp. destruct Hp as (Hr & Hc & Hn).
    assert (Ea : at_ (grid_of (filled (val sol))) r c = at_ (grid_of (filled (val sol'))) r c) by now rewrite E.
    rewrite !grid_at in Ea by assumption. unfold filled in Ea. now rewrite Hn in Ea.
  - intros g (Hg1 & Hg2 & Hg3).
    set (L := map (fun p => (c_name p, at_ g (fst p) (snd p))) (null_cells s)).
    assert (HLn : names_of L = names_of Vs).
    { unfold L, Vs. clear. unfold names_of. induction (null_cells s) as [|p l IH]; [reflexivity|]. cbn [map flat_map app fst]. f_equal. exact IH. }
    assert (Hval : forall r c, In (r, c) (null_cells s) -> val L (c_name (r, c)) = at_ g r c).
    { intros r c Hp. apply val_In; [rewrite HLn; exact HND|]. unfold L. apply in_map_iff. exists (r, c). auto. }
    exists (val L). split; [|split].
    + intros x d Hin. unfold Vs in Hin. apply in_flat_map in Hin. destruct Hin as ([r c] & Hp & [E|[]]). apply pair_equal_spec in E. destruct E as [<- <-].
      rewrite Hval by exact Hp. apply null_In in Hp. destruct Hp as (Hr & Hc & Hn). apply domain_In; try assumption. split; [now apply Hg1|].
      intros r' c' Hr' Hc' Hu E. destruct (pair_dec (r, c) (r', c')) as [Ep|Ep]; [injection Ep as <- <-; congruence|].
      apply (Hg3 r c r' c'); auto. symmetry. now apply Hg2.
    + apply sat_units. intros r c r' c' Hp Hp' Hne Hu. rewrite !Hval by assumption. apply null_In in Hp, Hp'. apply Hg3; tauto.
    + intros sol Hsol.
      assert (Hv : forall r c, In (r, c) (null_cells s) -> dget sol (c_name (r, c)) = Some (at_ g r c)).
      { intros r c Hp. rewrite Hsol, Hval; [reflexivity|exact Hp|]. apply names_Vs. eauto. }
      rewrite decode_grid.
      * f_equal. etransitivity; [|symmetry; now apply grid_eta]. unfold grid_of. apply map_ext_in. intros r Hr. apply map_ext_in. intros c Hc. apply in_seq in Hr, Hc.
        unfold filled. destruct (given s r c) as [n|] eqn:E; [symmetry; apply Hg2; try lia; exact E|].
        unfold val, dget_or. rewrite Hv; [reflexivity|]. apply null_In. repeat split; try lia. exact E.
      * intros r c Hp. unfold val, dget_or. now rewrite Hv.
Qed.

Lemma sudoku_exact clk shuffle o : has_blank s -> shuffles shuffle ->
  exactly (fun fuel => sudoku_run clk shuffle fuel s o) (completion s) (o_timeout o) (sudoku_limit o).
Proof. intros Hb Hs. exact (describes_exactly clk shuffle _ _ _ _ _ _ _ _ _ _ (sudoku_describes Hb) Hs). Qed.

Lemma completion_solution g : consistent s -> (completion s g <-> solution_grid s g).
Proof.
  intros Hc. split.
  - intros (H1 & H2 & H3). split; [|exact H2]. split; [exact H1|]. intros r c r' c' Hr Hcc Hr' Hc' Hne Hu.
    destruct (given s r c) as [n|] eqn:E; [|now apply H3].
    destruct (given s r' c') as [n'|] eqn:E'.
    + rewrite (H2 r c n), (H2 r' c' n') by assumption. now apply (Hc r c r' c').
    + intros Ea. apply (H3 r' c' r c); auto. unfold same_unit in *. intuition congruence.
  - intros ((H1 & H2) & H3). split; [exact H1|]. split; [exact H3|]. intros. now apply H2.
Qed.
End S.

Lemma exactly_ext {B} run (ok ok' : B -> Prop) t l : (forall b, ok b <-> ok' b) -> exactly run ok t l -> exactly run ok' t l.
Proof.
  intros H [H1 H2]. split; [exact H1|]. intros fuel bs r i Hr. destruct (H2 fuel bs r i Hr) as (A1 & A2 & A3 & A4 & A5).
  split; [exact A1|]. split; [intros b Hb; now apply H, A2|]. split; [exact A3|]. split; [intros Hi b Hb; apply (A4 Hi b), H, Hb|exact A5].
Qed.

Lemma sudoku_solutions clk shuffle s o : well_formed s -> has_blank s -> consistent s -> shuffles shuffle ->
  exactly (fun fuel => sudoku_run clk shuffle fuel s o) (solution_grid s) (o_timeout o) (sudoku_limit o).
Proof.
  intros Hw Hb Hc Hs. apply (exactly_ext _ (completion s)); [intros g; now apply completion_solution|]. now apply sudoku_exact.
Qed.

(** The constructor rejects everything else. *)
Lemma sudoku_rejects clk shuffle fuel s o : ~ well_formed s ->
  exists ex, sudoku_run clk shuffle fuel s o = Some ([], Some ex, None) /\
    (ex = ValueError \/ ex = IndexError \/ ex = AttributeError) /\
    (length s <> 9%nat -> ex = ValueError) /\
    ((forall row, In row s -> length row = 9%nat) -> ex = ValueError).
Proof.
  intros Hw. unfold sudoku_run, puzzle_run, construct, sudoku_init.
  assert (Hrow : forall row c ex, check_row row c = Err ex -> ex = ValueError \/ (ex = IndexError /\ (9 < c + length row)%nat)).
  { clear. induction row as [|v row IH]; intros c ex; cbn [check_row length]; [discriminate|]. destruct (accepted v); [|intros E; injection E as <-; auto].
    destruct (Nat.ltb_spec c 9); intros E; [destruct (IH _ _ E) as [->|[-> Hl]]; [auto|right; split; [reflexivity|lia]]|]. injection E as <-. right. split; [reflexivity|lia]. }
  assert (Hrows : forall l ex, check_rows l = Err ex -> ex = ValueError \/ (ex = IndexError /\ exists row, In row l /\ (9 < length row)%nat)).
  { clear - Hrow. induction l as [|row l IH]; intros ex; cbn [check_rows]; [discriminate|]. destruct (check_row row 0) as [[]|ex'] eqn:E; cbn [bind].
    - intros H. destruct (IH ex H) as [->|(-> & row' & Hin & Hl)]; [auto|]. right. split; [reflexivity|]. exists row'. split; [now right|exact Hl].
    - intros H. injection H as <-. destruct (Hrow row 0%nat ex' E) as [->|[-> Hl]]; [auto|]. right. split; [reflexivity|]. exists row. split; [now left|exact Hl]. }
  destruct (Nat.eqb_spec (length s) 9) as [H9|H9]; cbn [negb].
  2:{ exists ValueError. cbn. repeat split; auto. }
  destruct (check_rows s) as [[]|ex] eqn:Ec.
  - destruct (existsb (fun row => Nat.ltb (length row) 9) s) eqn:Ee.
    + exists AttributeError. cbn. split; [reflexivity|]. split; [auto|]. split; [intros; contradiction|]. intros H. exfalso.
      apply existsb_exists in Ee. destruct Ee as (row & Hin & Hl). apply Nat.ltb_lt in Hl. specialize (H row Hin). lia.
    + exfalso. apply Hw. apply well_formed_checks. auto.
  - exists ex. cbn. split; [reflexivity|]. destruct (Hrows s ex Ec) as [->|(-> & row & Hin & Hl)].
    + repeat split; auto.
    + split; [auto|]. split; [intros; contradiction|]. intros H. specialize (H row Hin). lia.
Qed.
