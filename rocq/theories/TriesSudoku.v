(** The numbers tried by SudokuSolver. *)
From Coq Require Import Permutation Sorted.
From Verif Require Import PuzzleWatch SpecPuzzle SpecSudoku SpecSafe SpecSolve SpecWatch SpecTries NameFacts DictFacts
  ExprFacts PuzzleFacts PuzzleUserFacts SolverProps SudokuFacts TriesFacts.
From Verif Require GraphFacts TriesGraph.
Open Scope list_scope.
Open Scope Z_scope.

Local Arguments c_name : simpl never.

Section S.
Variable s : list (list (option Z)).
Hypothesis Hw : well_formed s.
Let P0 := fun _ : nat => 0.
Let names := names_of (Vs s).

Lemma Cs_group p : In p (Cs s) -> exists index i, p = PDiff (group s index i).
Proof.
  intros H. unfold Cs in H. rewrite !in_app_iff in H.
  assert (G : forall index, In p (Cgroup s index) -> exists index i, p = PDiff (group s index i)).
  { intros index Hi. unfold Cgroup in Hi. apply in_flat_map in Hi. destruct Hi as (i & _ & Hi). destruct (Nat.ltb 1 _); [|contradiction]. destruct Hi as [<-|[]]. eauto. }
  destruct H as [H|[H|H]]; eapply G; eauto.
Qed.

Lemma group_names index i x : In x (group s index i) -> In x names.
Proof. intros H. apply in_map_iff in H. destruct H as (p & <- & Hp). apply filter_In in Hp. apply names_Vs. exists p. tauto. Qed.

Lemma sudoku_keeps : keeps_names (Cs s).
Proof. intros f ex Hf. apply Cs_group in Hf. destruct Hf as (index & i & E). discriminate. Qed.

Lemma sudoku_solvable w : built P0 w (Vs s) (Cs s) -> m_solvable (w_model w) = true.
Proof.
  intros Hb. destruct (m_solvable (w_model w)) eqn:E; [reflexivity|exfalso]. destruct (b_solv _ _ _ _ Hb E) as (p & Hp & Hno).
  apply Cs_group in Hp. destruct Hp as (index & i & ->). apply (Hno (fun x => Z.of_nat (GraphFacts.pos x (group s index i)))).
  intros x y Hx Hy Hne Ev. apply Nat2Z.inj in Ev.
  destruct (GraphFacts.pos_spec [] [] x _ Hx) as [_ E1], (GraphFacts.pos_spec [] [] y _ Hy) as [_ E2]. congruence.
Qed.

(** The unbound names have different negative values. *)
Definition full (t : subst) (x : name) : Z := match dget t x with Some v => v | None => -1 - Z.of_nat (GraphFacts.pos x names) end.

Lemma full_diff t x y : (forall z v, dget t z = Some v -> 0 <= v) -> In x names -> In y names -> x <> y ->
  (full t x <> full t y <-> forall v, dget t x = Some v -> dget t y <> Some v).
Proof.
  intros H0 Hx Hy Hne. unfold full. destruct (dget t x) as [v|] eqn:Ex, (dget t y) as [v'|] eqn:Ey.
  - split; [intros H u E; congruence|intros H E; subst; now apply (H v')].
  - apply H0 in Ex. split; [intros; discriminate|lia].
  - apply H0 in Ey. split; [intros; discriminate|lia].
  - split; [intros; discriminate|]. intros _ E. assert (E' : GraphFacts.pos x names = GraphFacts.pos y names) by lia.
    destruct (GraphFacts.pos_spec [] [] x _ Hx) as [_ E1], (GraphFacts.pos_spec [] [] y _ Hy) as [_ E2]. congruence.
Qed.

Lemma diffs_units t : (forall z v, dget t z = Some v -> 0 <= v) ->
  ((forall xs x y v, In (PDiff xs) (Cs s) -> In x xs -> In y xs -> x <> y -> dget t x = Some v -> dget t y <> Some v) <->
   forall r c r' c' v, In (r, c) (null_cells s) -> In (r', c') (null_cells s) -> (r, c) <> (r', c') -> same_unit r c r' c' ->
     dget t (c_name (r, c)) = Some v -> dget t (c_name (r', c')) <> Some v).
Proof.
  intros H0. pose proof (sat_units s (full t)) as Hu. split.
  - intros H r c r' c' v H1 H2 Hne Hun. revert v. apply full_diff; [exact H0|apply names_Vs; eauto|apply names_Vs; eauto|intros E; apply c_name_inj in E; contradiction|].
    apply Hu; auto. intros b Hb. destruct (Cs_group b Hb) as (index & i & ->). intros x y Hx Hy Hxy.
    apply full_diff; [exact H0|now apply group_names in Hx|now apply group_names in Hy|exact Hxy|]. intros v. now apply (H _ _ _ _ Hb).
  - intros H xs x y v Hp Hx Hy Hne. destruct (Cs_group _ Hp) as (index & i & E). injection E as ->. revert v.
    apply full_diff; [exact H0|now apply group_names in Hx|now apply group_names in Hy|exact Hne|].
    refine (proj2 Hu _ (PDiff (group s index i)) Hp x y Hx Hy Hne). intros r c r' c' H1 H2 Hrc Hun.
    apply full_diff; [exact H0|apply names_Vs; eauto|apply names_Vs; eauto|intros E; apply c_name_inj in E; contradiction|]. intros v. now apply H.
Qed.

Section Order.
Variable l : list (nat * nat).
Hypothesis Hl : Permutation l (null_cells s).

Lemma l_In r c : In (r, c) l <-> (r < 9)%nat /\ (c < 9)%nat /\ given s r c = None.
Proof.
  rewrite <- null_In. split; intros H; [exact (Permutation_in _ Hl H)|exact (Permutation_in _ (Permutation_sym Hl) H)].
Qed.
Lemma l_NoDup : NoDup l.
Proof. apply (Permutation_NoDup (Permutation_sym Hl)). apply null_NoDup. Qed.

Lemma written_names b : map fst (written b) = map c_name (map fst b).
Proof. unfold written. rewrite !map_map. reflexivity. Qed.
Lemma written_In b p v : In (c_name p, v) (written b) <-> In (p, v) b.
Proof.
  unfold written. rewrite in_map_iff. split.
  - intros ([q u] & E & Hq). cbn [fst snd] in E. pose proof (f_equal fst E) as E1. pose proof (f_equal snd E) as E2. cbn [fst snd] in E1, E2.
    apply (c_name_inj q p) in E1. congruence.
  - intros H. exists (p, v). split; [reflexivity|exact H].
Qed.
Lemma written_NoDup b : (exists p rest, l = map fst b ++ p :: rest) -> NoDup (names_of (written b)).
Proof.
  intros (p & rest & E). unfold names_of. rewrite written_names. apply FinFun.Injective_map_NoDup; [intros q q'; apply c_name_inj|].
  pose proof l_NoDup as H. rewrite E in H. now apply NoDup_app_inv in H.
Qed.
Lemma written_get b p v : (exists p rest, l = map fst b ++ p :: rest) -> (dget (written b) (c_name p) = Some v <-> In (p, v) b).
Proof.
  intros H. rewrite <- written_In. split; [apply dget_In|]. intros Hi. apply dget_NoDup; [now apply written_NoDup|exact Hi].
Qed.

Lemma fill_starts b : (exists p rest, l = map fst b ++ p :: rest) -> starts (map c_name l) (written b).
Proof. intros (p & rest & E). exists (c_name p), (map c_name rest). rewrite written_names, E, map_app. reflexivity. Qed.

Lemma fill_tried b : partial_fill s l b <-> (exists p rest, l = map fst b ++ p :: rest) /\ tried P0 (Vs s) (Cs s) (written b).
Proof.
  assert (Hd : (exists p rest, l = map fst b ++ p :: rest) ->
    ((forall r c v, In ((r, c), v) b -> 1 <= v <= 9 /\ forall r' c', (r' < 9)%nat -> (c' < 9)%nat -> same_unit r c r' c' -> given s r' c' <> Some v) <->
     (forall x v, In (x, v) (written b) -> exists d, In (x, d) (Vs s) /\ In v d))).
  { intros (p & rest & E).
    assert (Hin : forall q v, In (q, v) b -> In q (null_cells s)).
    { intros q v Hq. apply (Permutation_in _ Hl). rewrite E. apply in_or_app. left. apply (in_map fst) in Hq. exact Hq. }
    split.
    - intros H x v Hx. unfold written in Hx. apply in_map_iff in Hx. destruct Hx as ([[r c] u] & Ex & Hx). cbn [fst snd] in Ex.
      pose proof (f_equal snd Ex) as Eu. apply (f_equal fst) in Ex. cbn [fst snd] in Ex, Eu. subst u x.
      pose proof (Hin _ _ Hx) as Hn. exists (cell_domain s (r, c)). split; [apply in_flat_map; exists (r, c); split; [exact Hn|now left]|].
      apply null_In in Hn. apply domain_In; [tauto|tauto|now apply H].
    - intros H r c v Hx. pose proof (Hin _ _ Hx) as Hn. apply (written_In b (r, c) v), H in Hx. destruct Hx as (d & Hd & Hv).
      apply in_flat_map in Hd. destruct Hd as (q & _ & [Eq|[]]). pose proof (f_equal snd Eq) as Ed. apply (f_equal fst) in Eq. cbn [fst snd] in Eq, Ed.
      apply c_name_inj in Eq. subst q d. apply null_In in Hn. apply domain_In in Hv; tauto. }
  split.
  - intros (H1 & H2 & H3). split; [exact H1|]. assert (Hdom := proj1 (Hd H1) H2). split; [exact Hdom|]. split; [intros f Hf; apply Cs_group in Hf; destruct Hf as (? & ? & Ef); discriminate|].
    apply diffs_units.
    + intros z v Hz. apply dget_In in Hz. unfold written in Hz. apply in_map_iff in Hz. destruct Hz as ([[r c] u] & Ez & Hz). apply (f_equal snd) in Ez. cbn in Ez. subst u. apply H2 in Hz. lia.
    + intros r c r' c' v _ _ Hne Hu G1 G2. apply (written_get b _ _ H1) in G1, G2. exact (H3 _ _ _ _ _ _ G1 G2 Hne Hu eq_refl).
  - intros (H1 & H2 & _ & H4). assert (Hdom := proj2 (Hd H1) H2). split; [exact H1|]. split; [exact Hdom|].
    intros r c v r' c' v' G1 G2 Hne Hu <-. destruct H1 as (p & rest & E).
    assert (Hin : forall q v, In (q, v) b -> In q (null_cells s)).
    { intros q u Hq. apply (Permutation_in _ Hl). rewrite E. apply in_or_app. left. apply (in_map fst) in Hq. exact Hq. }
    refine (proj1 (diffs_units (written b) _) H4 r c r' c' v (Hin _ _ G1) (Hin _ _ G2) Hne Hu _ _).
    + intros z u Hz. apply dget_In in Hz. unfold written in Hz. apply in_map_iff in Hz. destruct Hz as ([[rr cc] uu] & Ez & Hz). apply (f_equal snd) in Ez. cbn in Ez. subst uu. apply Hdom in Hz. lia.
    + apply written_get; eauto.
    + apply written_get; eauto.
Qed.

Lemma starts_written t : starts (map c_name l) t -> exists b, t = written b /\ exists p rest, l = map fst b ++ p :: rest.
Proof.
  intros (x & q & E). destruct (TriesGraph.map_split c_name l _ _ _ E) as (li & p & lq & El & Et & _ & _).
  exists (combine li (map snd t)).
  assert (Hlen : length li = length (map snd t)) by (rewrite map_length, <- (map_length fst t), <- Et, map_length; reflexivity).
  split.
  - clear E El. revert t Et Hlen. induction li as [|a li IH]; intros [|[y v] t] Et Hlen; try discriminate; [reflexivity|].
    cbn [map fst] in Et. pose proof (f_equal (hd y) Et) as Ey. apply (f_equal (@tl _)) in Et. cbn [tl hd] in Et, Ey. cbn [map combine written].
    unfold written in *. cbn [map fst snd]. rewrite <- (IH t Et) by (cbn in Hlen; lia). subst y. reflexivity.
  - exists p, lq. rewrite El. f_equal. clear -Hlen. revert Hlen. generalize (map snd t). induction li as [|a li IH]; intros [|v q] H; try discriminate; [reflexivity|]. cbn. f_equal. apply IH. cbn in H. lia.
Qed.
End Order.

Definition reading (p q : nat * nat) : Prop := (fst p < fst q \/ fst p = fst q /\ snd p < snd q)%nat.

Fixpoint in_order (l : list (nat * nat)) : bool :=
  match l with
  | [] => true
  | p :: q => forallb (fun p' => Nat.ltb (fst p) (fst p') || Nat.eqb (fst p) (fst p') && Nat.ltb (snd p) (snd p'))%bool q && in_order q
  end.
Lemma in_order_reading l : in_order l = true -> ForallOrdPairs reading l.
Proof.
  induction l as [|p l IH]; intros H; [constructor|]. cbn in H. apply andb_true_iff in H. destruct H as [H1 H2]. constructor; [|now apply IH].
  apply Forall_forall. intros q Hq. rewrite forallb_forall in H1. specialize (H1 q Hq). apply orb_true_iff in H1. unfold reading.
  destruct H1 as [H1|H1]; [left; now apply Nat.ltb_lt|right]. apply andb_true_iff in H1. destruct H1 as [H1 H3]. split; [now apply Nat.eqb_eq|now apply Nat.ltb_lt].
Qed.
Lemma null_sorted : ForallOrdPairs reading (null_cells s).
Proof.
  assert (H : forall l (f : nat * nat -> bool), ForallOrdPairs reading l -> ForallOrdPairs reading (filter f l)).
  { induction 1 as [|p l Hp Hl IH]; [constructor|]. cbn. destruct (f p); [|exact IH]. constructor; [|exact IH].
    apply Forall_forall. intros q Hq. apply filter_In in Hq. rewrite Forall_forall in Hp. now apply Hp. }
  apply H. apply in_order_reading. vm_compute. reflexivity.
Qed.

Lemma sudoku_tries clk shuffle f o ts ys r i : has_blank s -> shuffles shuffle ->
  sudoku_watched clk shuffle f s o = Some (ts, ys, r, i) ->
  exists order, NoDup order /\ (forall r c, In (r, c) order <-> (r < 9)%nat /\ (c < 9)%nat /\ given s r c = None) /\
    (o_policy o = Some ORDERED -> ForallOrdPairs (fun p q => (fst p < fst q \/ fst p = fst q /\ snd p < snd q)%nat) order) /\ NoDup ts /\
    (forall t, In t ts -> exists b, t = written b /\ partial_fill s order b) /\
    (i = None -> forall b, partial_fill s order b -> In (written b) ts).
Proof.
  intros Hbl Hs H. unfold sudoku_watched in H. pose proof (sudoku_adds s Hw) as Ha.
  destruct (TriesGraph.puzzle_watched_inv clk shuffle f _ _ (Vs s) (Cs s) _ ts ys r i Ha H) as (e & e' & _ & Hb & Hrun & ->).
  destruct (sudoku_describes s Hw Hbl) as [_ HV Hsafe _ _ _].
  set (sv := new_solver _ _ _ _) in *.
  destruct (new_solver_lims (arg_or (o_policy o) GROUPS) (o_timeout o) (sudoku_limit o) (o_compile o)) as [Hto Hli]. fold sv in Hto, Hli.
  destruct (t_tries P0 clk shuffle f e sv (Vs s) (Cs s) ts ys e' r Hb Hs HV (fun _ => Hsafe) Hto Hli sudoku_keeps Hrun (sudoku_solvable _ Hb))
    as (order & Hp & Ho & _ & Ht & Hn & Hall).
  assert (EV : names_of (Vs s) = map c_name (null_cells s)).
  { unfold Vs. clear. induction (null_cells s) as [|p q IH]; [reflexivity|]. cbn. f_equal. exact IH. }
  rewrite EV in Hp, Ho. destruct (Permutation_map_inv _ _ Hp) as (l & -> & Hpl). symmetry in Hpl.
  exists l. split; [now apply l_NoDup|]. split; [intros; now apply l_In|]. split; [|split; [exact Hn|split]].
  - intros Hpo. assert (E : l = null_cells s).
    { apply (TriesGraph.map_inj c_name); [intros; now apply c_name_inj|]. apply Ho. unfold sv, policy_of. cbn. now rewrite Hpo. }
    rewrite E. exact null_sorted.
  - intros t Hin. destruct (Ht t Hin) as [H1 H2]. destruct (starts_written l t H1) as (b & -> & Hb'). exists b. split; [reflexivity|]. now apply fill_tried.
  - intros Hi b Hf. apply fill_tried in Hf; [|exact Hpl]. destruct Hf as [H1 H2]. apply Hall; [exact Hi| |exact H2]. now apply fill_starts.
Qed.
End S.
