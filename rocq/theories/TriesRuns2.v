(** The partial assignments that the search of a NonogramSolver extends. *)
From Coq Require Import Permutation.
From Verif Require Import NonogramWatch SpecPuzzle SpecNonogram SpecSafe SpecSolve SpecWatch SpecRuns NameFacts DictFacts
  ExprFacts ExprProps PuzzleFacts PuzzleUserFacts SolverProps NonogramFacts TriesFacts TriesRuns.
From Verif Require TriesGraph.
Open Scope list_scope.
Open Scope Z_scope.

Local Notation P0 := (fun _ : nat => 0).
Local Arguments name2 : simpl never.

(** A formula keeps the names on which its value depends. *)
Lemma keeps_if f : (forall x, In x (fvars f) -> exists a a' v v', (forall y, y <> x -> a y = a' y) /\
    meaning P0 a f = Some v /\ meaning P0 a' f = Some v' /\ v <> v') ->
  forall ex, build f = Ok (OExpr ex) -> incl (fvars f) (vars ex).
Proof.
  intros Hdep ex Hb x Hx. destruct (in_dec string_dec x (vars ex)) as [H|Hn]; [exact H|exfalso].
  destruct (Hdep x Hx) as (a & a' & v & v' & Hdiff & Hm & Hm' & Hne).
  set (bd := fun b : assignment => map (fun y => (y, b y)) (fvars f)).
  assert (Hbd : forall b, binds (bd b) b (fvars f)) by (intros b y Hy; now apply dget_map_fun).
  pose proof (build_meaning _ a (bd a) _ v _ (Hbd a) Hm Hb) as E. pose proof (build_meaning _ a' (bd a') _ v' _ (Hbd a') Hm' Hb) as E'.
  cbn [oval] in E, E'. rewrite (evaluate_agree _ (bd a) (bd a') ex) in E; [congruence|].
  intros y Hy. assert (Hyv : In y (vars ex)) by now apply vars_occurs.
  assert (Hyf : In y (fvars f)) by exact (build_vars _ _ y Hb Hyv).
  rewrite (Hbd a y Hyf), (Hbd a' y Hyf). f_equal. apply Hdiff. intros ->. contradiction.
Qed.

Definition at1 (x : name) (v w : Z) (y : name) : Z := if String.eqb y x then v else w.
Lemma at1_same x v w : at1 x v w x = v.
Proof. unfold at1. now rewrite String.eqb_refl. Qed.
Lemma at1_other x v w y : y <> x -> at1 x v w y = w.
Proof. intros H. unfold at1. destruct (String.eqb_spec y x); congruence. Qed.

Section N.
Variables (rows cols : list (list Z)).
Hypothesis HR : positive_clues rows.
Hypothesis HC : positive_clues cols.
Let nr := Z.of_nat (length rows).
Let nc := Z.of_nat (length cols).
Let RI := LI "r" nc rows.
Let CI := LI "c" nr cols.
Let V := VN rows cols.
Let C := CN rows cols.

Lemma C_inv b : In b C <->
  (exists r k p q, (r < length rows)%nat /\ nth_error (RI r) k = Some p /\ nth_error (RI r) (S k) = Some q /\ b = PForm (f_after p q)) \/
  (exists c k p q, (c < length cols)%nat /\ nth_error (CI c) k = Some p /\ nth_error (CI c) (S k) = Some q /\ b = PForm (f_after p q)) \/
  (exists r c, (r < length rows)%nat /\ (c < length cols)%nat /\
     (cover_list (Z.of_nat c) (RI r) <> [] \/ cover_list (Z.of_nat r) (CI c) <> []) /\ b = PForm (f_cell rows cols r c)).
Proof.
  assert (HL : forall pre num clues, In b (CL pre num clues) <->
    exists i k p q, (i < length clues)%nat /\ nth_error (LI pre num clues i) k = Some p /\ nth_error (LI pre num clues i) (S k) = Some q /\ b = PForm (f_after p q)).
  { intros pre num clues. unfold CL. rewrite in_flat_map. split.
    - intros (i & Hi & H). apply in_seq in Hi. apply order_In in H. destruct H as [(p & q & E & _)|(k & p & q & H1 & H2 & H3)]; [discriminate|].
      exists i, k, p, q. repeat split; auto; lia.
    - intros (i & k & p & q & Hi & H1 & H2 & H3). exists i. split; [apply in_seq; lia|]. apply order_In. right. exists k, p, q. auto. }
  assert (Hc : In b (Ccells rows cols) <-> exists r c, (r < length rows)%nat /\ (c < length cols)%nat /\
     (cover_list (Z.of_nat c) (RI r) <> [] \/ cover_list (Z.of_nat r) (CI c) <> []) /\ b = PForm (f_cell rows cols r c)).
  { unfold Ccells. rewrite in_flat_map.
    assert (Hp : forall r c, In b (p_cell rows cols r c) <-> (cover_list (Z.of_nat c) (RI r) <> [] \/ cover_list (Z.of_nat r) (CI c) <> []) /\ b = PForm (f_cell rows cols r c)).
    { intros r c. unfold p_cell. fold nr nc. fold RI CI.
      destruct (cover_list (Z.of_nat c) (RI r)) eqn:E1, (cover_list (Z.of_nat r) (CI c)) eqn:E2; cbn [In]; split; intros H;
        try contradiction; try (destruct H as [[H|H] _]; now contradiction H);
        try (destruct H as [<-|[]]; split; [first [left; discriminate|right; discriminate]|reflexivity]); left; symmetry; apply H. }
    split.
    - intros (r & Hr & H). apply in_flat_map in H. destruct H as (c & Hc & H). apply in_seq in Hr, Hc. apply Hp in H. exists r, c. repeat split; try tauto; lia.
    - intros (r & c & Hr & Hc & H). exists r. split; [apply in_seq; lia|]. apply in_flat_map. exists c. split; [apply in_seq; lia|]. now apply Hp. }
  unfold C, CN. rewrite !in_app_iff, !HL, Hc. reflexivity.
Qed.

Lemma LI_differ pre num clues i k p q : (forall a b a' b', name2 pre a b = name2 pre a' b' -> a = a' /\ b = b') ->
  nth_error (LI pre num clues i) k = Some p -> nth_error (LI pre num clues i) (S k) = Some q -> rv_name p <> rv_name q.
Proof.
  intros Hi Hp Hq. apply LI_get in Hp, Hq. destruct Hp as [_ ->], Hq as [_ ->]. cbn [rv_name]. intros E. apply Hi in E. lia.
Qed.

Lemma after_depends p q : rv_name p <> rv_name q ->
  forall x, In x (fvars (f_after p q)) -> exists a a' v v', (forall y, y <> x -> a y = a' y) /\
    meaning P0 a (f_after p q) = Some v /\ meaning P0 a' (f_after p q) = Some v' /\ v <> v'.
Proof.
  intros Hne x Hx. cbn [f_after fvars app In] in Hx. assert (x = rv_name q \/ x = rv_name p) as Hx' by (destruct Hx as [<-|[<-|[]]]; auto). clear Hx.
  assert (Hm : forall a, meaning P0 a (f_after p q) = Some (if a (rv_name p) + rv_size p <? a (rv_name q) then 1 else 0)) by reflexivity.
  destruct Hx' as [->| ->].
  - exists (at1 (rv_name q) (rv_size p + 1) 0), (at1 (rv_name q) (rv_size p) 0), 1, 0. rewrite !Hm, !at1_same, !at1_other by exact Hne.
    split; [intros y Hy; now rewrite !at1_other|]. split; [|split; [|discriminate]]; f_equal.
    + destruct (Z.ltb_spec (0 + rv_size p) (rv_size p + 1)); [reflexivity|lia].
    + destruct (Z.ltb_spec (0 + rv_size p) (rv_size p)); [lia|reflexivity].
  - assert (Hne' : rv_name q <> rv_name p) by congruence.
    exists (at1 (rv_name p) (-1 - rv_size p) 0), (at1 (rv_name p) (0 - rv_size p) 0), 1, 0. rewrite !Hm, !at1_same, !at1_other by exact Hne'.
    split; [intros y Hy; now rewrite !at1_other|]. split; [|split; [|discriminate]]; f_equal.
    + destruct (Z.ltb_spec (-1 - rv_size p + rv_size p) 0); [reflexivity|lia].
    + destruct (Z.ltb_spec (0 - rv_size p + rv_size p) 0); [lia|reflexivity].
Qed.

Lemma cell_meaning a r c v w :
  meaning P0 a (FSum (cover_list (Z.of_nat c) (RI r))) = Some v -> meaning P0 a (FSum (cover_list (Z.of_nat r) (CI c))) = Some w ->
  meaning P0 a (f_cell rows cols r c) = Some (if v =? w then 1 else 0).
Proof.
  intros Hv Hw. unfold f_cell. fold nr nc. fold RI CI. cbn [meaning] in *. rewrite Hv, Hw. reflexivity.
Qed.

Lemma cover_fvars_iff c L x : In x (flat_map fvars (cover_list c L)) <-> exists rv, In rv (filter (near c) L) /\ x = rv_name rv.
Proof.
  unfold cover_list. fold (near c). rewrite in_flat_map. split.
  - intros (f & Hf & Hx). apply in_map_iff in Hf. destruct Hf as (rv & <- & Hrv). exists rv. split; [exact Hrv|]. cbn in Hx. intuition congruence.
  - intros (rv & Hrv & ->). exists (covers c rv). split; [now apply in_map|]. cbn. auto.
Qed.

Lemma row_name r rv : In rv (RI r) -> exists k, rv_name rv = name2 "r" r k.
Proof. intros H. apply In_nth_error in H. destruct H as (k & H). apply LI_get in H. destruct H as [_ ->]. exists k. reflexivity. Qed.
Lemma col_name c rv : In rv (CI c) -> exists k, rv_name rv = name2 "c" c k.
Proof. intros H. apply In_nth_error in H. destruct H as (k & H). apply LI_get in H. destruct H as [_ ->]. exists k. reflexivity. Qed.
Lemma row_col r c k k' : name2 "r" r k <> name2 "c" c k'.
Proof. intros E. discriminate E. Qed.

Lemma cell_depends r c x : In x (fvars (f_cell rows cols r c)) -> exists a a' v v', (forall y, y <> x -> a y = a' y) /\
    meaning P0 a (f_cell rows cols r c) = Some v /\ meaning P0 a' (f_cell rows cols r c) = Some v' /\ v <> v'.
Proof.
  intros Hx. unfold f_cell in Hx. cbn [fvars] in Hx. fold nr nc in Hx. fold RI CI in Hx. apply in_app_or in Hx.
  set (far := Z.of_nat r + Z.of_nat c + 1).
  assert (Hrow : forall a, (forall rv, In rv (RI r) -> a (rv_name rv) = far) -> meaning P0 a (FSum (cover_list (Z.of_nat c) (RI r))) = Some 0).
  { intros a Ha. apply count_zero. intros rv Hrv. apply filter_In in Hrv. unfold over. rewrite (Ha rv) by tauto. unfold far. lia. }
  assert (Hcol : forall a, (forall rv, In rv (CI c) -> a (rv_name rv) = far) -> meaning P0 a (FSum (cover_list (Z.of_nat r) (CI c))) = Some 0).
  { intros a Ha. apply count_zero. intros rv Hrv. apply filter_In in Hrv. unfold over. rewrite (Ha rv) by tauto. unfold far. lia. }
  exists (fun _ => far).
  assert (H0 : meaning P0 (fun _ => far) (f_cell rows cols r c) = Some 1) by (apply (cell_meaning _ _ _ 0 0); auto).
  destruct Hx as [Hx|Hx]; apply cover_fvars_iff in Hx; destruct Hx as (rv & Hrv & ->); pose proof Hrv as Hin; apply filter_In in Hin; destruct Hin as [Hin _].
  - exists (at1 (rv_name rv) (Z.of_nat c) far), 1, 0. split; [intros y Hy; now rewrite at1_other|]. split; [exact H0|]. split; [|discriminate].
    destruct (count_some (at1 (rv_name rv) (Z.of_nat c) far) (Z.of_nat c) (filter (near (Z.of_nat c)) (RI r))) as (v & Hv & Hpos).
    { exists rv. split; [exact Hrv|]. unfold over. rewrite at1_same. assert (0 < rv_size rv) by (eapply (sizes_positive rows cols); [exact HR|exact Hin]). lia. }
    rewrite (cell_meaning _ r c v 0); [|exact Hv|].
    + destruct (Z.eqb_spec v 0); [lia|reflexivity].
    + apply Hcol. intros rv' Hrv'. apply at1_other. destruct (row_name _ _ Hin) as (k & ->), (col_name _ _ Hrv') as (k' & ->). intros E. symmetry in E. now apply row_col in E.
  - exists (at1 (rv_name rv) (Z.of_nat r) far), 1, 0. split; [intros y Hy; now rewrite at1_other|]. split; [exact H0|]. split; [|discriminate].
    destruct (count_some (at1 (rv_name rv) (Z.of_nat r) far) (Z.of_nat r) (filter (near (Z.of_nat r)) (CI c))) as (v & Hv & Hpos).
    { exists rv. split; [exact Hrv|]. unfold over. rewrite at1_same. assert (0 < rv_size rv) by (eapply (sizes_positive rows cols); [exact HC|exact Hin]). lia. }
    rewrite (cell_meaning _ r c 0 v); [|apply Hrow|exact Hv].
    + destruct (Z.eqb_spec 0 v); [lia|reflexivity].
    + intros rv' Hrv'. apply at1_other. destruct (col_name _ _ Hin) as (k & ->), (row_name _ _ Hrv') as (k' & ->). apply row_col.
Qed.

Lemma C_depends f x : In (PForm f) C -> In x (fvars f) -> exists a a' v v', (forall y, y <> x -> a y = a' y) /\
    meaning P0 a f = Some v /\ meaning P0 a' f = Some v' /\ v <> v'.
Proof.
  intros Hf Hx. apply C_inv in Hf. destruct Hf as [(r & k & p & q & Hr & Hp & Hq & E)|[(c & k & p & q & Hc & Hp & Hq & E)|(r & c & _ & _ & _ & E)]]; injection E as ->.
  - apply after_depends; [|exact Hx]. refine (LI_differ _ _ _ _ _ _ _ _ Hp Hq). intros a b a' b'. apply name2_inj.
  - apply after_depends; [|exact Hx]. refine (LI_differ _ _ _ _ _ _ _ _ Hp Hq). intros a b a' b'. apply name2_inj.
  - now apply cell_depends.
Qed.

Lemma runs_keep : keeps_names C.
Proof. intros f ex Hf. apply keeps_if. intros x Hx. now apply C_depends. Qed.

Lemma C_named f : In (PForm f) C -> exists x, In x (fvars f).
Proof.
  intros Hf. apply C_inv in Hf. destruct Hf as [(r & k & p & q & Hr & Hp & Hq & E)|[(c & k & p & q & Hc & Hp & Hq & E)|(r & c & _ & _ & Hne & E)]]; injection E as ->;
    [eexists; now left|eexists; now left|].
  unfold f_cell. cbn [fvars]. fold nr nc. fold RI CI.
  assert (Hsome : forall c L, cover_list c L <> [] -> exists x, In x (flat_map fvars (cover_list c L))).
  { intros c' L H. unfold cover_list in *. destruct (filter _ L) as [|rv l]; [now contradiction H|]. exists (rv_name rv). cbn. now left. }
  destruct Hne as [Hne|Hne]; destruct (Hsome _ _ Hne) as (x & Hx); exists x; apply in_or_app; auto.
Qed.

Lemma C_diff xs : ~ In (PDiff xs) C.
Proof. intros H. apply C_inv in H. destruct H as [(r & k & p & q & _ & _ & _ & E)|[(c & k & p & q & _ & _ & _ & E)|(r & c & _ & _ & _ & E)]]; discriminate. Qed.

Lemma runs_solvable w : built P0 w V C -> m_solvable (w_model w) = true.
Proof.
  intros Hb. destruct (m_solvable (w_model w)) eqn:E; [reflexivity|exfalso]. destruct (b_solv _ _ _ _ Hb E) as ([f|xs] & Hp & Hno); [|now apply C_diff in Hp].
  destruct (C_named f Hp) as (x & Hx). destruct (C_depends f x Hp Hx) as (a & a' & v & v' & _ & Hv & Hv' & Hne).
  destruct (Z.eq_dec v 0) as [->|Hnz]; [apply (Hno a'); exists v'; split; [exact Hv'|congruence]|apply (Hno a); exists v; split; [exact Hv|exact Hnz]].
Qed.

End N.
