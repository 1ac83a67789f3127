(** Nonograms and the riddle with constraints added by the user. *)
From Verif Require Import Nonogram Einstein PuzzleUser SpecPuzzleUser SpecPuzzle SpecNonogram SpecEinstein SpecSafe SpecSolve.
From Verif Require Import ExprFacts NameFacts DictFacts PuzzleFacts PuzzleUserFacts PuzzleUserRel SudokuFacts NonogramFacts EinsteinFacts.
Open Scope list_scope.
Open Scope Z_scope.

(** ** Nonograms *)
Section N.
Variables (rows cols : list (list Z)).
Let RI := LI "r" (Z.of_nat (length cols)) rows.
Let CI := LI "c" (Z.of_nat (length rows)) cols.

Definition nonogram_name (x : name) : Prop :=
  exists i j,
    ((i < length rows)%nat /\ (j < length (nth i rows []))%nat /\ x = name2 "r" i j) \/
    ((i < length cols)%nat /\ (j < length (nth i cols []))%nat /\ x = name2 "c" i j).
Lemma nonogram_known x : nonogram_name x <-> In x (names_of (VN rows cols)).
Proof.
  unfold VN. rewrite names_app, in_app_iff, !VL_names. split.
  - intros (i & j & [(H1 & H2 & ->)|(H1 & H2 & ->)]); [left|right]; exists i, j; auto.
  - intros [(i & j & H1 & H2 & ->)|(i & j & H1 & H2 & ->)]; exists i, j; auto.
Qed.

Lemma order_names rvs x : forall prev p, In p (order prev rvs) -> In x (p_names p) ->
  In x (map rv_name rvs) \/ exists q, prev = Some q /\ x = rv_name q.
Proof.
  induction rvs as [|rv rvs IH]; intros prev p Hp Hx; [contradiction|]. cbn [order] in Hp. apply in_app_or in Hp. destruct Hp as [Hp|Hp].
  - destruct prev as [q|]; [|contradiction]. destruct Hp as [<-|[]]. cbn in Hx. destruct Hx as [<-|[<-|[]]]; [left; now left|right; eauto].
  - destruct (IH (Some rv) p Hp Hx) as [H|(q & E & ->)]; [left; now right|]. injection E as <-. left. now left.
Qed.

Lemma nonogram_closed p x : In p (CN rows cols) -> In x (p_names p) -> In x (names_of (VN rows cols)).
Proof.
  intros Hp Hx. unfold CN in Hp. rewrite !in_app_iff in Hp. destruct Hp as [Hp|[Hp|Hp]].
  - apply in_flat_map in Hp. destruct Hp as (i & Hi & Hp). apply in_seq in Hi. destruct (order_names _ x _ p Hp Hx) as [H|(q & E & _)]; [|discriminate].
    apply in_map_iff in H. destruct H as (rv & <- & Hrv). apply (VN_rows rows cols i); [lia|exact Hrv].
  - apply in_flat_map in Hp. destruct Hp as (i & Hi & Hp). apply in_seq in Hi. destruct (order_names _ x _ p Hp Hx) as [H|(q & E & _)]; [|discriminate].
    apply in_map_iff in H. destruct H as (rv & <- & Hrv). apply (VN_cols rows cols i); [lia|exact Hrv].
  - unfold Ccells in Hp. apply in_flat_map in Hp. destruct Hp as (r & Hr & Hp). apply in_flat_map in Hp. destruct Hp as (c & Hc & Hp). apply in_seq in Hr, Hc.
    assert (E : p = PForm (f_cell rows cols r c)).
    { unfold p_cell in Hp. destruct (cover_list (Z.of_nat c) (LI "r" (Z.of_nat (length cols)) rows r)), (cover_list (Z.of_nat r) (LI "c" (Z.of_nat (length rows)) cols c)); cbn in Hp; intuition congruence. }
    subst p. cbn [p_names f_cell fvars] in Hx. apply in_app_or in Hx. destruct Hx as [Hx|Hx]; apply cover_fvars in Hx; apply in_map_iff in Hx; destruct Hx as (rv & <- & Hrv).
    + apply (VN_rows rows cols r); [lia|exact Hrv].
    + apply (VN_cols rows cols c); [lia|exact Hrv].
Qed.

Lemma start_nth pre num clues a i j : (j < length (nth i clues []))%nat -> nth j (starts a (LI pre num clues i)) 0 = a (name2 pre i j).
Proof.
  intros Hj. unfold starts, LI. rewrite <- map_map with (f := rv_name) (g := a). rewrite infos_nth, map_map. exact (SudokuFacts.nth_map_seq (fun k => a (name2 pre i k)) 0 (length (nth i clues [])) j Hj).
Qed.

Lemma infos_dom mk num : forall clue k start, (forall v, In v clue -> 1 <= v) -> 0 <= start ->
  forall rv, In rv (infos mk num k start (room clue) clue) -> forall v, rv_start rv <= v < rv_end rv - rv_size rv -> 0 <= v <= num.
Proof.
  induction clue as [|size clue IH]; intros k start Hpos Hst rv Hrv v Hv; [contradiction|].
  pose proof (room_pos size clue Hpos) as Hr. pose proof (Hpos size (or_introl eq_refl)) as Hsz. cbn [infos In] in Hrv. destruct Hrv as [<-|Hrv].
  - cbn [rv_start rv_end rv_size] in Hv. lia.
  - destruct clue as [|size' clue]; [contradiction|].
    replace (room (size :: size' :: clue) - (size + gap (size' :: clue))) with (room (size' :: clue)) in Hrv by (unfold room; cbn [total length gap]; lia).
    refine (IH _ _ _ _ rv Hrv v Hv); [intros u Hu; apply Hpos; now right|cbn [gap]; lia].
Qed.

Lemma VL_dom pre num clues : positive_clues clues -> forall x d v, In (x, d) (VL pre num clues) -> In v d ->
  exists i j, (i < length clues)%nat /\ (j < length (nth i clues []))%nat /\ x = name2 pre i j /\ 0 <= v <= num.
Proof.
  intros Hpos x d v Hin Hv. unfold VL in Hin. apply in_flat_map in Hin. destruct Hin as (i & Hi & Hin). apply in_seq in Hi.
  apply in_map_iff in Hin. destruct Hin as (rv & E & Hrv). injection E as <- <-. apply zrange_In in Hv.
  assert (Hn : In (rv_name rv) (map rv_name (LI pre num clues i))) by now apply in_map.
  unfold LI in Hn, Hrv. apply infos_names in Hn. destruct Hn as (j & Hj & E). exists i, j. split; [lia|]. split; [lia|]. split; [exact E|].
  eapply infos_dom; [|reflexivity|exact Hrv|exact Hv]. intros u Hu. eapply Hpos; [|exact Hu]. apply nth_In. lia.
Qed.

Lemma nonogram_ready : positive_clues rows -> positive_clues cols -> (exists l, In l (rows ++ cols) /\ l <> []) ->
  is_ready (nonogram_init rows cols) (nonogram_decode (length cols)) (matches rows cols) (nonogram_values rows cols) (nonogram_var rows cols).
Proof.
  intros HR HC Hrun.
  exists (map RI (seq 0 (length rows))), (VN rows cols), (CN rows cols). constructor.
  - now apply nonogram_describes.
  - apply nonogram_closed.
  - intros s b Hg Hb. destruct (nonogram_good rows cols HR HC s Hg) as (H1 & PR & PC & Hcr).
    rewrite (decode_picture rows cols) in Hb by assumption. injection Hb as <-. split.
    + intros r xs j Hr [Hbl Hcov] Hj.
      destruct (PR r Hr) as [_ B]. destruct (blocks_unique _ _ _ _ _ _ Hbl B) as [-> _].
      { intros c Hc. rewrite <- Hcov by exact Hc. pose proof (picture_covers rows cols (val s) r (Z.to_nat c) Hr ltac:(lia)) as Hp.
        unfold row_cover in Hp. rewrite Z2Nat.id in Hp by lia. exact Hp. }
      symmetry. apply start_nth. rewrite (blocks_length _ _ _ _ Hbl) in Hj. exact Hj.
    + intros c xs j Hc [Hbl Hcov] Hj.
      destruct (PC c Hc) as [_ B]. destruct (blocks_unique _ _ _ _ _ _ Hbl B) as [-> _].
      { intros r Hr. rewrite <- Hcov by exact Hr. pose proof (picture_covers rows cols (val s) (Z.to_nat r) c ltac:(lia) Hc) as Hp.
        rewrite Hcr in Hp by (auto; lia). unfold col_cover in Hp. rewrite Z2Nat.id in Hp by lia. exact Hp. }
      symmetry. apply start_nth. rewrite (blocks_length _ _ _ _ Hbl) in Hj. exact Hj.
  - intros b a a' (_ & _ & Hrows & Hcols) [A1 A2] [B1 B2] x Hx. apply nonogram_known in Hx. destruct Hx as (i & j & [(Hi & Hj & ->)|(Hi & Hj & ->)]).
    + destruct (Hrows (Z.of_nat i) ltac:(lia)) as (xs & X1 & X2). rewrite Nat2Z.id in X1, X2.
      pose proof (conj X1 X2 : runs_at (fun c => pixel b (Z.of_nat i) c) (length cols) (nth i rows []) xs) as X. rewrite <- (blocks_length _ _ _ _ X1) in Hj.
      now rewrite (A1 i xs j), (B1 i xs j).
    + destruct (Hcols (Z.of_nat i) ltac:(lia)) as (xs & X1 & X2). rewrite Nat2Z.id in X1, X2.
      pose proof (conj X1 X2 : runs_at (fun r => pixel b r (Z.of_nat i)) (length rows) (nth i cols []) xs) as X. rewrite <- (blocks_length _ _ _ _ X1) in Hj.
      now rewrite (A2 i xs j), (B2 i xs j).
  - intros x d v Hin Hv. unfold VN in Hin. apply in_app_or in Hin. destruct Hin as [Hin|Hin].
    + destruct (VL_dom "r" _ rows HR x d v Hin Hv) as (i & j & H1 & H2 & -> & H3). exists i, j. left. auto.
    + destruct (VL_dom "c" _ cols HC x d v Hin Hv) as (i & j & H1 & H2 & -> & H3). exists i, j. right. auto.
  - intros x. rewrite <- nonogram_known. split.
    + intros (i & j & [(H1 & H2 & H3)|(H1 & H2 & H3)]); exists 0, i, j; [left|right]; (split; [exact H1|split; [exact H2|split; [exact H3|lia]]]).
    + intros (v & i & j & [(H1 & H2 & H3 & _)|(H1 & H2 & H3 & _)]); exists i, j; [left|right]; auto.
Qed.

Lemma nonogram_user clk shuffle o us : positive_clues rows -> positive_clues cols -> (exists l, In l (rows ++ cols) /\ l <> []) -> shuffles shuffle ->
  us_ok (nonogram_var rows cols) (o_compile o) us ->
  exactly_firsts (fun fuel => user_run clk shuffle fuel (nonogram_init rows cols) (nonogram_decode (length cols)) MIN_BOUND o us)
    (also_with (matches rows cols) (nonogram_values rows cols) us) (o_timeout o) (o_limit o).
Proof.
  intros HR HC Hrun Hs Hu. apply (user_exactly _ _ _ _ _ _ _ _ _ _ _ _ (nonogram_ready HR HC Hrun) Hs Hu).
Qed.
End N.

(** ** The riddle *)
Definition einstein_name (x : name) : Prop :=
  (exists k vs v, In (k, vs) attributes /\ In v vs /\ x = mkname k v) \/ In x (map fst house_differences).
Lemma einstein_known x : einstein_name x <-> In x (names_of VE).
Proof.
  unfold names_of. rewrite in_map_iff. split.
  - intros [(k & vs & v & Hk & Hv & ->)|Hx].
    + exists (mkname k v, indices). split; [reflexivity|now apply (VE_var k vs)].
    + exists (x, [-1; 1]). split; [reflexivity|]. apply VE_pm. exact Hx.
  - intros ([y d] & <- & Hin). destruct (VE_cases y d Hin) as [(k & vs & v & Hk & Hv & -> & _)|[Hx _]]; [left; exists k, vs, v; auto|right; exact Hx].
Qed.

Lemma einstein_ready : is_ready einstein_init einstein_decode riddle_answer einstein_values einstein_var.
Proof.
  exists variables_, VE, CE. constructor.
  - exact einstein_describes.
  - intros p x Hp Hx.
    assert (A : forallb (fun p => forallb (fun x => memb x (names_of VE)) (p_names p)) CE = true) by (vm_compute; reflexivity).
    rewrite forallb_forall in A. specialize (A p Hp). rewrite forallb_forall in A. apply memb_In. now apply A.
  - intros s b Hg Hb. destruct (solution_facts s Hg) as (H1 & _ & H3 & F). split.
    + intros i row k v Hi Hkv. assert (E : b = zsol (hval s)) by congruence. apply (arrangement_iff (hval s) H1) in E.
      destruct E as [_ E]. destruct (E i row Hi) as [_ E']. exact (proj2 (E' k v Hkv)).
    + unfold facts, K in F. destruct F as (_ & _ & _ & _ & _ & _ & _ & _ & _ & F1 & F2 & _ & _ & F3 & F4).
      intros x y w [E|[E|[E|[E|[]]]]]; injection E as <- <- <-; symmetry; assumption.
  - intros b a a' (h & Hp & _ & Hz) [A1 A2] [B1 B2] x Hx. apply (arrangement_iff h Hp) in Hz. subst b.
    assert (H : forall k vs v, In (k, vs) attributes -> In v vs -> a (mkname k v) = a' (mkname k v)).
    { intros k vs v Hk Hv. assert (Hin : In (h k v, EinsteinFacts.rows h attributes (h k v)) (zsol h)).
      { unfold zsol. apply in_map_iff. exists (h k v). split; [reflexivity|]. apply in_indices. now apply (Hp k vs). }
      pose proof (zsol_at h Hp k vs v Hk Hv) as Hr. now rewrite (A1 _ _ k v Hin Hr), (B1 _ _ k v Hin Hr). }
    apply einstein_known in Hx. destruct Hx as [(k & vs & v & Hk & Hv & ->)|Hx]; [now apply (H k vs)|].
    assert (HK : forall k v, existsb (fun kv : string * list string => String.eqb k (fst kv) && memb v (snd kv)) attributes = true -> a (mkname k v) = a' (mkname k v)).
    { intros k v Hex. apply existsb_exists in Hex. destruct Hex as ([k' vs] & Ha & Hb). apply Bool.andb_true_iff in Hb. cbn [fst snd] in Hb. destruct Hb as [Hb1 Hb2].
      apply String.eqb_eq in Hb1. subst k'. apply memb_In in Hb2. exact (H k vs v Ha Hb2). }
    apply in_map_iff in Hx. destruct Hx as ([y [u w]] & <- & Hin). cbn [fst]. rewrite (A2 _ _ _ Hin), (B2 _ _ _ Hin).
    destruct Hin as [E|[E|[E|[E|[]]]]]; injection E as <- <- <-.
    + exact (f_equal2 Z.sub (HK "smoke" "Blend" eq_refl) (HK "animal" "cats" eq_refl))%string.
    + exact (f_equal2 Z.sub (HK "smoke" "Dunhill" eq_refl) (HK "animal" "a horse" eq_refl))%string.
    + exact (f_equal2 Z.sub (HK "owner" "Norwegian" eq_refl) (HK "color" "blue" eq_refl))%string.
    + exact (f_equal2 Z.sub (HK "drink" "water" eq_refl) (HK "smoke" "Blend" eq_refl))%string.
  - intros x d v Hin Hv. destruct (VE_cases x d Hin) as [(k & vs & w & Hk & Hw & -> & ->)|[Hx ->]].
    + left. split; [exists k, vs, w; auto|]. now apply in_indices in Hv.
    + right. split; [exact Hx|]. cbn in Hv. intuition.
  - intros x. rewrite <- einstein_known. split.
    + intros [H|H]; exists 1; [left|right]; (split; [exact H|]); [lia|now left].
    + intros (v & [[H _]|[H _]]); [left|right]; exact H.
Qed.

Lemma einstein_user clk shuffle o us : shuffles shuffle -> us_ok einstein_var (o_compile o) us ->
  exactly_firsts (fun fuel => user_run clk shuffle fuel einstein_init einstein_decode MIN_BOUND o us)
    (also_with riddle_answer einstein_values us) (o_timeout o) (o_limit o).
Proof.
  intros Hs Hu. apply (user_exactly _ _ _ _ _ _ _ _ _ _ _ _ einstein_ready Hs Hu).
Qed.
