(** Facts about the model of NonogramSolver. *)
From Verif Require Import Nonogram SpecPuzzle SpecNonogram SpecSafe SpecSolve NameFacts DictFacts PuzzleFacts PuzzleUserFacts QueensFacts SudokuFacts.
Open Scope list_scope.
Open Scope Z_scope.

(** ** Blocks in a line *)
Lemma blocks_length lo hi : forall xs clue, blocks lo hi xs clue -> length xs = length clue.
Proof.
  intros xs. revert lo. induction xs as [|x xs IH]; intros lo [|k clue] H; cbn in *; try tauto. f_equal. destruct H as (_ & _ & _ & H). eauto.
Qed.

Lemma blocks_weaken lo lo' hi xs clue : lo' <= lo -> blocks lo hi xs clue -> blocks lo' hi xs clue.
Proof. destruct xs, clue; cbn; try tauto. intros H (H1 & H2). split; [lia|exact H2]. Qed.

Lemma covered_ge hi : forall xs clue lo c, blocks lo hi xs clue -> covered xs clue c -> lo <= c < hi.
Proof.
  induction xs as [|x xs IH]; intros [|k clue] lo c H Hc; cbn in *; try tauto. destruct H as (H1 & H2 & H3 & H4).
  destruct Hc as [Hc|Hc]; [lia|]. apply (IH _ _ _ H4) in Hc. lia.
Qed.

Lemma covered_dec xs clue c : covered xs clue c \/ ~ covered xs clue c.
Proof.
  revert clue. induction xs as [|x xs IH]; intros [|k clue]; cbn; try tauto. destruct (IH clue); [tauto|].
  destruct (Z_le_dec x c), (Z_lt_dec c (x + k)); intuition lia.
Qed.

(** The covered cells determine the blocks. *)
Lemma blocks_unique hi : forall xs clue ys clue' lo, blocks lo hi xs clue -> blocks lo hi ys clue' ->
  (forall c, lo <= c < hi -> (covered xs clue c <-> covered ys clue' c)) -> xs = ys /\ clue = clue'.
Proof.
  induction xs as [|x xs IH]; intros [|k clue] ys clue' lo H H' Heq; cbn in H; try tauto.
  - destruct ys as [|y ys], clue' as [|k' clue']; cbn in H'; try tauto. exfalso.
    destruct (Heq y) as [_ Hy]; [lia|]. apply Hy. cbn. left. lia.
  - destruct H as (H1 & H2 & H3 & H4). destruct ys as [|y ys], clue' as [|k' clue']; cbn in H'; try tauto.
    + exfalso. destruct (Heq x) as [Hx _]; [lia|]. apply Hx. cbn. left. lia.
    + destruct H' as (H1' & H2' & H3' & H4'). cbn in Heq.
      assert (Hge : forall c, covered xs clue c -> x + k + 1 <= c) by (intros c Hc; apply (covered_ge _ _ _ _ _ H4 Hc)).
      assert (Hge' : forall c, covered ys clue' c -> y + k' + 1 <= c) by (intros c Hc; apply (covered_ge _ _ _ _ _ H4' Hc)).
      assert (Exy : x = y).
      { destruct (Heq x) as [Hx _]; [lia|]. destruct (Heq y) as [_ Hy]; [lia|]. specialize (Hx ltac:(left; lia)). specialize (Hy ltac:(left; lia)).
        destruct Hx as [Hx|Hx]; [|apply Hge' in Hx]; (destruct Hy as [Hy|Hy]; [|apply Hge in Hy]); lia. }
      subst y.
      assert (Ek : k = k').
      { destruct (Z.lt_trichotomy k k') as [Hk|[Hk|Hk]]; [|exact Hk|].
        - destruct (Heq (x + k)) as [_ Hx]; [lia|]. specialize (Hx ltac:(left; lia)). destruct Hx as [Hx|Hx]; [lia|apply Hge in Hx; lia].
        - destruct (Heq (x + k')) as [Hx _]; [lia|]. specialize (Hx ltac:(left; lia)). destruct Hx as [Hx|Hx]; [lia|apply Hge' in Hx; lia]. }
      subst k'. destruct (IH clue ys clue' (x + k + 1) H4 H4') as [-> ->]; [|auto].
      intros c Hc. destruct (Heq c) as [A B]; [lia|]. split; intros Hcc; [specialize (A (or_intror Hcc)); destruct A|specialize (B (or_intror Hcc)); destruct B]; auto; lia.
Qed.

Lemma has_runs_unique f n clue clue' : has_runs f n clue -> has_runs f n clue' -> clue = clue'.
Proof.
  intros (xs & H & E) (ys & H' & E'). apply (blocks_unique n xs clue ys clue' 0); auto.
  intros c Hc. rewrite <- E, <- E' by exact Hc. reflexivity.
Qed.

Fixpoint total (clue : list Z) : Z := match clue with [] => 0 | k :: clue' => k + total clue' end.
Lemma zsum_total l : zsum l = total l.
Proof.
  unfold zsum. assert (H : forall l a, fold_left Z.add l a = a + total l).
  { clear. induction l as [|k l IH]; intros a; cbn; [lia|]. rewrite IH. lia. }
  rewrite H. lia.
Qed.
Definition room (clue : list Z) : Z := total clue + Z.of_nat (length clue) - 1.

Lemma room_pos k clue : (forall j, In j (k :: clue) -> 1 <= j) -> k <= room (k :: clue).
Proof.
  intros H. unfold room. cbn [total length]. assert (Ht : 0 <= total clue).
  { assert (H' : forall j, In j clue -> 1 <= j) by (intros j Hj; apply H; now right). clear H. induction clue as [|j clue IH]; cbn; [lia|].
    pose proof (H' j (or_introl eq_refl)). specialize (IH ltac:(intros i Hi; apply H'; now right)). lia. }
  lia.
Qed.

Lemma blocks_room hi : forall xs x clue lo, blocks lo hi (x :: xs) clue -> x + room clue <= hi.
Proof.
  induction xs as [|x' xs IH]; intros x [|k clue] lo H; cbn in H; try tauto; destruct H as (H1 & H2 & H3 & H4); unfold room; cbn [total length].
  - destruct clue; [cbn; lia|tauto].
  - apply IH in H4 as H5. destruct clue as [|k' clue]; [destruct H4|]. destruct H4 as (H4 & _). unfold room in H5. lia.
Qed.

(** ** The variables of a line *)
Section L.
Variables (mk : nat -> name) (num : Z).
Hypothesis mk_inj : forall i j, mk i = mk j -> i = j.
Hypothesis mk_good : forall i, good_name (mk i) = true.
Let P0 := fun _ : nat => 0.

Definition gap (clue' : list Z) : Z := match clue' with [] => 0 | _ => 1 end.
Fixpoint infos (k : nat) (start rem : Z) (clue : list Z) : list run_var :=
  match clue with
  | [] => []
  | size :: clue' =>
      RunVar (mk k) size start (num - rem + 1 + size) :: infos (S k) (start + (size + gap clue')) (rem - (size + gap clue')) clue'
  end.
End L.

Definition f_after (p rv : run_var) : formula :=
  FBin UGt (FVar (rv_name rv)) (FBin UAdd (FVar (rv_name p)) (FInt (rv_size p))).
Definition after (prev : option run_var) (rv : run_var) : list pbody :=
  match prev with None => [] | Some p => [PForm (f_after p rv)] end.
Fixpoint order (prev : option run_var) (rvs : list run_var) : list pbody :=
  match rvs with [] => [] | rv :: rvs' => after prev rv ++ order (Some rv) rvs' end.
Definition dom (rv : run_var) : name * list Z := (rv_name rv, zrange (rv_start rv) (rv_end rv - rv_size rv)).

Section L.
Variables (mk : nat -> name) (num : Z).
Hypothesis mk_inj : forall i j, mk i = mk j -> i = j.
Hypothesis mk_good : forall i, good_name (mk i) = true.
Let P0 := fun _ : nat => 0.

Lemma infos_names : forall clue k start rem x, In x (map rv_name (infos mk num k start rem clue)) <-> exists j, (k <= j < k + length clue)%nat /\ x = mk j.
Proof.
  induction clue as [|size clue IH]; intros k start rem x; cbn [infos map In length].
  - split; [contradiction|intros (j & Hj & _); lia].
  - rewrite IH. cbn [rv_name]. split.
    + intros [<-|(j & Hj & ->)]; [exists k|exists j]; split; auto; lia.
    + intros (j & Hj & ->). destruct (Nat.eq_dec j k) as [->|]; [now left|]. right. exists j. split; [lia|reflexivity].
Qed.

Lemma infos_sizes : forall clue k start rem, map rv_size (infos mk num k start rem clue) = clue.
Proof. induction clue as [|size clue IH]; intros; cbn; [reflexivity|]. now rewrite IH. Qed.

Lemma infos_nth : forall clue k start rem, map rv_name (infos mk num k start rem clue) = map mk (seq k (length clue)).
Proof. induction clue as [|size clue IH]; intros; cbn; [reflexivity|]. now rewrite IH. Qed.

Lemma line_adds : forall clue k start rem prev vs,
  (forall j, (k <= j)%nat -> ~ In (mk j) (names_of vs)) ->
  (forall p, prev = Some p -> In (rv_name p) (names_of vs)) ->
  adds P0 vs (line_loop mk num k start rem prev clue) (infos mk num k start rem clue)
    (map dom (infos mk num k start rem clue)) (order prev (infos mk num k start rem clue)).
Proof.
  induction clue as [|size clue IH]; intros k start rem prev vs Hf Hp; [apply adds_ret|].
  cbn [line_loop infos map order]. fold (gap clue).
  set (rv := RunVar (mk k) size start (num - rem + 1 + size)).
  set (I := infos mk num (S k) (start + (size + gap clue)) (rem - (size + gap clue)) clue).
  apply (adds_ext P0 vs (op_bind (int_variable (zrange start (num - rem + 1)) (mk k)) (fun x =>
      op_bind (match prev with None => op_ret tt | Some p => add_formula (FBin UGt (FVar x) (FBin UAdd (FVar (rv_name p)) (FInt (rv_size p)))) end) (fun _ =>
      op_bind (line_loop mk num (S k) (start + (size + gap clue)) (rem - (size + gap clue)) (Some (RunVar x size start (num - rem + 1 + size))) clue) (fun rest =>
      op_ret (RunVar x size start (num - rem + 1 + size) :: rest))))) _ _
    ([(mk k, zrange start (num - rem + 1))] ++ ([] ++ (map dom I ++ []))) _ ([] ++ (after prev rv ++ (order (Some rv) I ++ [])))).
  - apply (adds_bind P0 vs _ _ (mk k)); [apply adds_intvar; [apply mk_good|now apply Hf|apply zrange_NoDup]|].
    assert (Hk : In (mk k) (names_of (vs ++ [(mk k, zrange start (num - rem + 1))]))) by (rewrite names_app, in_app_iff; right; now left).
    apply (adds_bind P0 _ _ _ tt).
    + destruct prev as [p|]; [|apply adds_ret]. apply adds_form; [apply not_consts_l| |intros a; cbn; eexists; reflexivity|reflexivity|reflexivity].
      intros x [<-|[<-|[]]]; [exact Hk|]. rewrite names_app, in_app_iff. left. now apply Hp.
    + apply (adds_bind P0 _ _ _ I); [|apply adds_ret]. rewrite app_nil_r. apply IH.
      * intros j Hj. rewrite names_app, in_app_iff. intros [H|[H|[]]]; [apply (Hf j); [lia|exact H]|]. apply mk_inj in H. lia.
      * intros p E. injection E as <-. exact Hk.
  - reflexivity.
  - cbn [app]. rewrite app_nil_r. unfold dom at 2. cbn [rv_name rv_start rv_end rv_size rv]. do 2 f_equal. f_equal. lia.
  - cbn [app]. now rewrite app_nil_r.
Qed.

Definition in_dom (a : assignment) (rv : run_var) : Prop := rv_start rv <= a (rv_name rv) < rv_end rv - rv_size rv.
Definition starts (a : assignment) (rvs : list run_var) : list Z := map (fun rv => a (rv_name rv)) rvs.

Lemma sat_after a p rv : sat P0 a (PForm (f_after p rv)) <-> a (rv_name p) + rv_size p < a (rv_name rv).
Proof.
  cbn [sat f_after meaning arith]. split.
  - intros (v & Hv & Hne). destruct (Z.ltb_spec (a (rv_name p) + rv_size p) (a (rv_name rv))); [assumption|congruence].
  - intros H. eexists. split; [reflexivity|]. destruct (Z.ltb_spec (a (rv_name p) + rv_size p) (a (rv_name rv))); lia.
Qed.

Lemma line_sound a : forall clue k start prev lo, (forall j, In j clue -> 1 <= j) ->
  (forall rv, In rv (infos mk num k start (room clue) clue) -> in_dom a rv) ->
  (forall p, In p (order prev (infos mk num k start (room clue) clue)) -> sat P0 a p) ->
  match prev with Some p => lo = a (rv_name p) + rv_size p + 1 | None => lo <= start end ->
  blocks lo num (starts a (infos mk num k start (room clue) clue)) clue.
Proof.
  induction clue as [|size clue IH]; intros k start prev lo Hpos Hd Ho Hlo; [exact Logic.I|].
  assert (Hroom : clue <> [] -> room (size :: clue) - (size + gap clue) = room clue).
  { intros Hne. unfold room. destruct clue; [contradiction|]. cbn [total length gap]. lia. }
  pose proof (room_pos size clue Hpos) as Hr. cbn [infos starts map blocks] in *.
  set (rv := RunVar (mk k) size start (num - room (size :: clue) + 1 + size)) in *.
  pose proof (Hd rv (or_introl eq_refl)) as H1. unfold in_dom in H1. cbn [rv_start rv_end rv_size rv_name rv] in H1.
  cbn [rv_name rv]. split.
  - destruct prev as [p|]; [|lia]. specialize (Ho (PForm (f_after p rv))). cbn [order after app In] in Ho.
    specialize (Ho (or_introl eq_refl)). apply sat_after in Ho. cbn [rv_name rv] in Ho. lia.
  - split; [apply Hpos; now left|]. split; [lia|].
    destruct clue as [|size' clue]; [exact Logic.I|]. rewrite Hroom in * by discriminate.
    apply (IH (S k) _ (Some rv)); [intros j Hj; apply Hpos; now right|intros rv' Hrv; apply Hd; now right| |reflexivity].
    intros p Hp. apply Ho. cbn [order]. apply in_or_app. now right.
Qed.

Lemma line_complete a : forall clue k start prev lo xs, blocks lo num xs clue -> start <= lo ->
  starts a (infos mk num k start (room clue) clue) = xs ->
  (forall p, prev = Some p -> a (rv_name p) + rv_size p + 1 <= lo) ->
  (forall rv, In rv (infos mk num k start (room clue) clue) -> in_dom a rv) /\
  (forall p, In p (order prev (infos mk num k start (room clue) clue)) -> sat P0 a p).
Proof.
  induction clue as [|size clue IH]; intros k start prev lo xs Hb Hlo Hx Hp; [split; intros ? []|].
  assert (Hroom : clue <> [] -> room (size :: clue) - (size + gap clue) = room clue).
  { intros Hne. unfold room. destruct clue; [contradiction|]. cbn [total length gap]. lia. }
  destruct xs as [|x xs]; [contradiction|]. pose proof (blocks_room _ _ _ _ _ Hb) as Hr. cbn [infos starts map order] in *.
  set (rv := RunVar (mk k) size start (num - room (size :: clue) + 1 + size)) in *.
  destruct Hb as (H1 & H2 & H3 & H4). 
  assert (Ex : a (mk k) = x) by exact (f_equal (hd 0) Hx). apply (f_equal (@tl Z)) in Hx. cbn [tl] in Hx.
  assert (Hrest : (forall rv', In rv' (infos mk num (S k) (start + (size + gap clue)) (room (size :: clue) - (size + gap clue)) clue) -> in_dom a rv') /\
    (forall p, In p (order (Some rv) (infos mk num (S k) (start + (size + gap clue)) (room (size :: clue) - (size + gap clue)) clue)) -> sat P0 a p)).
  { destruct clue as [|size' clue]; [split; intros ? []|]. rewrite Hroom in * by discriminate. apply (IH _ _ _ (x + size + 1) xs); auto.
    - cbn [gap]. lia.
    - intros p E. injection E as <-. cbn [rv_name rv_size rv]. lia. }
  destruct Hrest as [R1 R2]. split.
  - intros rv' [<-|Hrv]; [|auto]. unfold in_dom. cbn [rv_start rv_end rv_size rv_name rv]. lia.
  - intros p Hin. apply in_app_or in Hin. destruct Hin as [Hin|Hin]; [|auto]. destruct prev as [q|]; [|destruct Hin]. destruct Hin as [<-|[]].
    apply sat_after. cbn [rv_name rv]. specialize (Hp q eq_refl). lia.
Qed.

(** The number of runs of the line that cover a cell. *)
Lemma cover_sum a c : forall rvs lo, blocks lo num (starts a rvs) (map rv_size rvs) -> (forall rv, In rv rvs -> in_dom a rv) ->
  exists v, meaning P0 a (FSum (cover_list c rvs)) = Some v /\
    (covered (starts a rvs) (map rv_size rvs) c -> v = 1) /\ (~ covered (starts a rvs) (map rv_size rvs) c -> v = 0).
Proof.
  induction rvs as [|rv rvs IH]; intros lo Hb Hd.
  - exists 0. cbn. split; [reflexivity|]. split; [contradiction|reflexivity].
  - cbn [starts map blocks covered] in *. destruct Hb as (H1 & H2 & H3 & H4).
    destruct (IH _ H4) as (v & Ev & V1 & V0); [intros rv' Hrv; apply Hd; now right|].
    fold (starts a rvs) in *.
    assert (Hge : covered (starts a rvs) (map rv_size rvs) c -> a (rv_name rv) + rv_size rv + 1 <= c) by (intros Hc; apply (covered_ge _ _ _ _ _ H4 Hc)).
    pose proof (Hd rv (or_introl eq_refl)) as Hrv. unfold in_dom in Hrv.
    unfold cover_list in *. cbn [filter].
    destruct ((rv_start rv <=? c) && (c <? rv_end rv)) eqn:Ew.
    + cbn [map]. cbn [meaning] in *. rewrite Ev. unfold covers at 1. cbn [meaning arith is01].
      set (u := (if a (rv_name rv) <=? c then 1 else 0)). set (w := if c <? a (rv_name rv) + rv_size rv then 1 else 0).
      assert (Hu : u = 1 /\ a (rv_name rv) <= c \/ u = 0 /\ c < a (rv_name rv)) by (unfold u; destruct (Z.leb_spec (a (rv_name rv)) c); lia).
      assert (Hw : w = 1 /\ c < a (rv_name rv) + rv_size rv \/ w = 0 /\ a (rv_name rv) + rv_size rv <= c)
        by (unfold w; destruct (Z.ltb_spec c (a (rv_name rv) + rv_size rv)); lia).
      clearbody u w. destruct Hu as [[-> Hu]|[-> Hu]], Hw as [[-> Hw]|[-> Hw]]; cbn; try lia; eexists; (split; [reflexivity|]); split; intros Hc.
      * rewrite V0; [lia|]. intros Hc'. apply Hge in Hc'. lia.
      * exfalso. apply Hc. left. lia.
      * rewrite V1; [lia|]. destruct Hc as [Hc|Hc]; [lia|exact Hc].
      * rewrite V0; [lia|tauto].
      * rewrite V1; [lia|]. destruct Hc as [Hc|Hc]; [lia|exact Hc].
      * rewrite V0; [lia|tauto].
    + exists v. split; [exact Ev|]. apply andb_false_iff in Ew. rewrite Z.leb_gt, Z.ltb_ge in Ew. split; intros Hc.
      * destruct Hc as [Hc|Hc]; [lia|auto].
      * apply V0. tauto.
Qed.

Lemma cover_list_nil c a rvs : cover_list c rvs = [] -> (forall rv, In rv rvs -> in_dom a rv) -> ~ covered (starts a rvs) (map rv_size rvs) c.
Proof.
  intros E Hd. induction rvs as [|rv rvs IH]; cbn [starts map covered]; [tauto|]. unfold cover_list in E. cbn [filter] in E.
  destruct ((rv_start rv <=? c) && (c <? rv_end rv)) eqn:Ew; [discriminate|].
  intros [H|H]; [|apply IH; auto; intros rv' Hrv; apply Hd; now right].
  pose proof (Hd rv (or_introl eq_refl)) as H1. unfold in_dom in H1. apply andb_false_iff in Ew. rewrite Z.leb_gt, Z.ltb_ge in Ew. lia.
Qed.

Lemma cover_defined a c rvs : exists v, meaning P0 a (FSum (cover_list c rvs)) = Some v.
Proof.
  unfold cover_list. induction (filter _ rvs) as [|rv l [v IH]]; [exists 0; reflexivity|]. cbn [map]. cbn [meaning] in *. rewrite IH.
  unfold covers at 1. cbn [meaning arith]. destruct (_ <=? _), (_ <? _); eexists; reflexivity.
Qed.

Lemma cover_fvars c rvs x : In x (flat_map fvars (cover_list c rvs)) -> In x (map rv_name rvs).
Proof.
  unfold cover_list. rewrite in_flat_map. intros (f & Hf & Hx). apply in_map_iff in Hf. destruct Hf as (rv & <- & Hrv).
  apply filter_In in Hrv. destruct Hrv as [Hrv _]. apply in_map_iff. exists rv. split; [|exact Hrv]. cbn in Hx. tauto.
Qed.

Lemma cover_safe c rvs : (forall rv, In rv rvs -> name_ok (rv_name rv) = true) ->
  forallb f_arith (cover_list c rvs) = true /\ forallb div_ok (cover_list c rvs) = true.
Proof.
  intros H. unfold cover_list. split; apply forallb_forall; intros f Hf; apply in_map_iff in Hf; destruct Hf as (rv & <- & Hrv);
    apply filter_In in Hrv; destruct Hrv as [Hrv _]; [|reflexivity]. cbn. now rewrite (H rv Hrv).
Qed.
End L.

(** ** Lists *)
Lemma enumerate_seq {A} (l : list A) d : enumerate l = map (fun i => (i, nth i l d)) (seq 0 (length l)).
Proof.
  unfold enumerate. assert (H : forall l k, combine (seq k (length l)) l = map (fun i => (i, nth (i - k) l d)) (seq k (length l))).
  { clear l. induction l as [|x l IH]; intros k; [reflexivity|]. cbn [length seq combine map]. rewrite Nat.sub_diag. f_equal.
    rewrite IH. apply map_ext_in. intros i Hi. apply in_seq in Hi. replace (i - k)%nat with (S (i - S k)) by lia. reflexivity. }
  rewrite H. apply map_ext. intros i. now rewrite Nat.sub_0_r.
Qed.

Lemma flat_map_map {A B C} (f : B -> list C) (g : A -> B) l : flat_map f (map g l) = flat_map (fun x => f (g x)) l.
Proof. induction l as [|x l IH]; cbn; [reflexivity|]. now rewrite IH. Qed.

Lemma flat_map_ext_in {A B} (f g : A -> list B) l : (forall x, In x l -> f x = g x) -> flat_map f l = flat_map g l.
Proof. induction l as [|x l IH]; intros H; cbn; [reflexivity|]. rewrite H by now left. rewrite IH by (intros y Hy; apply H; now right). reflexivity. Qed.

Lemma names_flat_map {A B} (f : B -> dict A) l : names_of (flat_map f l) = flat_map (fun b => names_of (f b)) l.
Proof. induction l as [|b l IH]; [reflexivity|]. cbn [flat_map]. rewrite names_app. now rewrite IH. Qed.

Lemma map_eq_in {A B} (f g : A -> B) l : map f l = map g l -> forall x, In x l -> f x = g x.
Proof. induction l as [|y l IH]; intros E x Hx; [contradiction|]. cbn in E. injection E as E1 E2. destruct Hx as [<-|Hx]; auto. Qed.

Lemma names_combine {A} (ns : list name) (xs : list A) : length ns = length xs -> names_of (combine ns xs) = ns.
Proof. revert xs. induction ns as [|n ns IH]; intros [|x xs] E; cbn in *; try discriminate; [reflexivity|]. f_equal. apply IH. lia. Qed.

Lemma map_combine (a : name -> Z) (ns : list name) (xs : list Z) : length ns = length xs ->
  (forall x v, In (x, v) (combine ns xs) -> a x = v) -> map a ns = xs.
Proof.
  revert xs. induction ns as [|n ns IH]; intros [|x xs] E H; cbn in *; try discriminate; [reflexivity|].
  f_equal; [apply H; now left|]. apply IH; [lia|]. intros y v Hy. apply H. now right.
Qed.

Lemma finite_choice {A} (d : A) (Q : nat -> A -> Prop) n : (forall i, (i < n)%nat -> exists x, Q i x) ->
  exists l, length l = n /\ forall i, (i < n)%nat -> Q i (nth i l d).
Proof.
  revert Q. induction n as [|n IH]; intros Q H; [exists []; split; [reflexivity|lia]|].
  destruct (H 0%nat) as (x & Hx); [lia|]. destruct (IH (fun i => Q (S i))) as (l & E & Hl); [intros i Hi; apply H; lia|].
  exists (x :: l). split; [cbn; lia|]. intros [|i] Hi; [exact Hx|]. apply Hl. lia.
Qed.

(** ** Marking the cells of a row *)
Lemma list_set_length {A} (l : list A) i a : length (list_set l i a) = length l.
Proof. revert i. induction l as [|b l IH]; intros [|i]; cbn; auto. Qed.
Lemma list_set_nth {A} (l : list A) i a j d : (i < length l)%nat -> nth j (list_set l i a) d = if (j =? i)%nat then a else nth j l d.
Proof.
  revert i j. induction l as [|b l IH]; intros [|i] [|j] H; cbn in *; try lia; auto. apply IH. lia.
Qed.

Lemma set_all_spec m : forall v row, 0 <= v -> v + Z.of_nat m <= Z.of_nat (length row) ->
  exists row', set_all row (zrange v (v + Z.of_nat m)) = Ok row' /\ length row' = length row /\
    forall c, nth c row' 0 = if (v <=? Z.of_nat c) && (Z.of_nat c <? v + Z.of_nat m) then 1 else nth c row 0.
Proof.
  induction m as [|m IH]; intros v row H1 H2.
  - exists row. unfold zrange. replace (Z.to_nat _) with 0%nat by lia. split; [reflexivity|]. split; [reflexivity|]. intros c.
    destruct (Z.leb_spec v (Z.of_nat c)), (Z.ltb_spec (Z.of_nat c) (v + Z.of_nat 0)); cbn; try reflexivity; lia.
  - assert (E : zrange v (v + Z.of_nat (S m)) = v :: zrange (v + 1) (v + 1 + Z.of_nat m)).
    { unfold zrange. replace (Z.to_nat (v + Z.of_nat (S m) - v)) with (S m) by lia. replace (Z.to_nat (v + 1 + Z.of_nat m - (v + 1))) with m by lia.
      cbn [seq map]. f_equal; [lia|]. rewrite <- seq_shift, map_map. apply map_ext. intros i. lia. }
    rewrite E. cbn [set_all]. unfold py_setitem. destruct (Z.ltb_spec v 0); [lia|].
    destruct (Z.leb_spec 0 v); [|lia]. destruct (Z.ltb_spec v (Z.of_nat (length row))); [|lia]. cbn [andb bind].
    destruct (IH (v + 1) (list_set row (Z.to_nat v) 1)) as (row' & E' & L' & N'); [lia|rewrite list_set_length; lia|].
    exists row'. split; [exact E'|]. split; [now rewrite L', list_set_length|]. intros c. rewrite N', list_set_nth by lia.
    destruct (Nat.eqb_spec c (Z.to_nat v)); destruct (Z.leb_spec (v + 1) (Z.of_nat c)), (Z.ltb_spec (Z.of_nat c) (v + 1 + Z.of_nat m)),
      (Z.leb_spec v (Z.of_nat c)), (Z.ltb_spec (Z.of_nat c) (v + Z.of_nat (S m))); cbn; try reflexivity; lia.
Qed.

Fixpoint coveredb (xs clue : list Z) (c : Z) : bool :=
  match xs, clue with
  | x :: xs', k :: clue' => (x <=? c) && (c <? x + k) || coveredb xs' clue' c
  | _, _ => false
  end.
Lemma coveredb_spec xs clue c : coveredb xs clue c = true <-> covered xs clue c.
Proof.
  revert clue. induction xs as [|x xs IH]; intros [|k clue]; cbn; try (split; [discriminate|contradiction]).
  rewrite orb_true_iff, andb_true_iff, Z.leb_le, Z.ltb_lt, IH. reflexivity.
Qed.

Lemma mark_spec s : forall rvs lo row, (forall rv, In rv rvs -> dget s (rv_name rv) = Some (val s (rv_name rv))) ->
  0 <= lo -> blocks lo (Z.of_nat (length row)) (starts (val s) rvs) (map rv_size rvs) ->
  exists row', mark_row s row rvs = Ok row' /\ length row' = length row /\
    forall c, nth c row' 0 = if coveredb (starts (val s) rvs) (map rv_size rvs) (Z.of_nat c) then 1 else nth c row 0.
Proof.
  induction rvs as [|rv rvs IH]; intros lo row Hs Hlo Hb; [exists row; repeat split; reflexivity|].
  cbn [mark_row starts map blocks coveredb] in *. fold (starts (val s) rvs) in *. destruct Hb as (H1 & H2 & H3 & H4).
  unfold get_item. rewrite Hs by now left. cbn [bind].
  destruct (set_all_spec (Z.to_nat (rv_size rv)) (val s (rv_name rv)) row) as (row1 & E1 & L1 & N1); [lia|lia|].
  rewrite Z2Nat.id in E1, N1 by lia. rewrite E1. cbn [bind].
  destruct (IH (val s (rv_name rv) + rv_size rv + 1) row1) as (row2 & E2 & L2 & N2);
    [intros rv' Hrv; apply Hs; now right|lia|rewrite L1; exact H4|].
  exists row2. split; [exact E2|]. split; [congruence|]. intros c. rewrite N2, N1.
  destruct (coveredb _ _ _); [now rewrite orb_true_r|]. now rewrite orb_false_r.
Qed.

Definition line_of (n : nat) (xs clue : list Z) : list Z := map (fun c => if coveredb xs clue (Z.of_nat c) then 1 else 0) (seq 0 n).

Lemma mark_line s rvs n : (forall rv, In rv rvs -> dget s (rv_name rv) = Some (val s (rv_name rv))) ->
  blocks 0 (Z.of_nat n) (starts (val s) rvs) (map rv_size rvs) ->
  mark_row s (repeat 0 n) rvs = Ok (line_of n (starts (val s) rvs) (map rv_size rvs)).
Proof.
  intros Hs Hb. destruct (mark_spec s rvs 0 (repeat 0 n)) as (row & E & L & N); [exact Hs|lia|rewrite repeat_length; exact Hb|].
  rewrite E. f_equal. rewrite repeat_length in L. apply (nth_ext _ _ 0 0); [unfold line_of; now rewrite map_length, seq_length|].
  intros c Hc. rewrite N. unfold line_of. rewrite nth_map_seq by lia. destruct (coveredb _ _ _); [reflexivity|]. apply nth_repeat.
Qed.

(** ** The model of a nonogram *)
Definition LI (pre : string) (num : Z) (clues : list (list Z)) (i : nat) : list run_var :=
  infos (name2 pre i) num 0 0 (room (nth i clues [])) (nth i clues []).
Definition VL pre num clues : dict (list Z) := flat_map (fun i => map dom (LI pre num clues i)) (seq 0 (length clues)).
Definition CL pre num clues : list pbody := flat_map (fun i => order None (LI pre num clues i)) (seq 0 (length clues)).

Section C.
Variables (pre : string) (num : Z) (clues : list (list Z)).
Hypothesis Hpre : good_prefix pre = true.
Let P0 := fun _ : nat => 0.

Lemma LI_sizes i : map rv_size (LI pre num clues i) = nth i clues [].
Proof. apply infos_sizes. Qed.

Lemma LI_names i x : In x (map rv_name (LI pre num clues i)) <-> exists j, (j < length (nth i clues []))%nat /\ x = name2 pre i j.
Proof.
  unfold LI. rewrite infos_names. split; intros (j & Hj & ->); exists j; split; auto; lia.
Qed.

Lemma dom_names rvs : names_of (map dom rvs) = map rv_name rvs.
Proof. unfold names_of. rewrite map_map. reflexivity. Qed.

Lemma VL_names x : In x (names_of (VL pre num clues)) <->
  exists i j, (i < length clues)%nat /\ (j < length (nth i clues []))%nat /\ x = name2 pre i j.
Proof.
  unfold VL. rewrite names_flat. split.
  - intros (i & Hi & Hx). rewrite dom_names in Hx. apply LI_names in Hx. destruct Hx as (j & Hj & ->). apply in_seq in Hi. exists i, j. repeat split; auto; lia.
  - intros (i & j & Hi & Hj & ->). exists i. split; [apply in_seq; lia|]. rewrite dom_names. apply LI_names. exists j. auto.
Qed.

Lemma VL_rv i rv : (i < length clues)%nat -> In rv (LI pre num clues i) -> In (dom rv) (VL pre num clues).
Proof. intros Hi Hrv. unfold VL. apply in_flat_map. exists i. split; [apply in_seq; lia|]. now apply in_map. Qed.

Lemma LI_ok i rv : In rv (LI pre num clues i) -> name_ok (rv_name rv) = true.
Proof.
  intros H. assert (Hn : In (rv_name rv) (map rv_name (LI pre num clues i))) by now apply in_map.
  apply LI_names in Hn. destruct Hn as (j & _ & ->). now apply name2_ok.
Qed.

Lemma lines_adds vs : (forall i j, ~ In (name2 pre i j) (names_of vs)) ->
  adds P0 vs (op_for (line_vars pre num) (enumerate clues)) (map (LI pre num clues) (seq 0 (length clues))) (VL pre num clues) (CL pre num clues).
Proof.
  intros Hf. set (I := fun p : nat * list Z => infos (name2 pre (fst p)) num 0 0 (room (snd p)) (snd p)).
  replace (map (LI pre num clues) (seq 0 (length clues))) with (map I (enumerate clues)) by (rewrite (enumerate_seq clues []), map_map; reflexivity).
  replace (VL pre num clues) with (flat_map (fun p => map dom (I p)) (enumerate clues)) by (rewrite (enumerate_seq clues []), flat_map_map; reflexivity).
  replace (CL pre num clues) with (flat_map (fun p => order None (I p)) (enumerate clues)) by (rewrite (enumerate_seq clues []), flat_map_map; reflexivity).
  apply adds_for. intros l1 [i clue] l2 E. unfold line_vars, I. cbn [fst snd]. rewrite zsum_total. fold (room clue).
  apply line_adds; [intros a b H; now apply name2_inj in H|intros a; now apply name2_good| |discriminate].
  intros j _. rewrite names_app, in_app_iff. intros [H|H]; [now apply Hf in H|].
  apply names_flat in H. destruct H as ([i' clue'] & Hin & Hx). rewrite dom_names in Hx. apply infos_names in Hx. destruct Hx as (j' & _ & Ej).
  cbn [fst] in Ej. apply name2_inj in Ej. destruct Ej as [<- _].
  assert (HN : NoDup (map fst (enumerate clues))).
  { rewrite (enumerate_seq clues []), map_map. cbn. rewrite map_id. apply seq_NoDup. }
  rewrite E, map_app in HN. cbn [map fst] in HN. apply NoDup_remove_2 in HN. apply HN. apply in_or_app. left. change i with (fst (i, clue')). now apply in_map.
Qed.

Definition placed (a : assignment) : Prop := forall i, (i < length clues)%nat ->
  (forall rv, In rv (LI pre num clues i) -> in_dom a rv) /\ blocks 0 num (starts a (LI pre num clues i)) (nth i clues []).

Lemma lines_sound a : positive_clues clues ->
  (forall x d, In (x, d) (VL pre num clues) -> In (a x) d) -> (forall p, In p (CL pre num clues) -> sat P0 a p) -> placed a.
Proof.
  intros Hpos Hd Hc i Hi. assert (Hdom : forall rv, In rv (LI pre num clues i) -> in_dom a rv).
  { intros rv Hrv. specialize (Hd _ _ (VL_rv i rv Hi Hrv)). apply zrange_In in Hd. exact Hd. }
  split; [exact Hdom|]. apply (line_sound (name2 pre i) num a (nth i clues []) 0 0 None); [|exact Hdom| |lia].
  - intros k Hk. apply (Hpos (nth i clues [])); [now apply nth_In|exact Hk].
  - intros p Hp. apply Hc. unfold CL. apply in_flat_map. exists i. split; [apply in_seq; lia|exact Hp].
Qed.

Lemma lines_complete a (X : list (list Z)) :
  (forall i, (i < length clues)%nat -> blocks 0 num (nth i X []) (nth i clues []) /\ starts a (LI pre num clues i) = nth i X []) ->
  (forall x d, In (x, d) (VL pre num clues) -> In (a x) d) /\ (forall p, In p (CL pre num clues) -> sat P0 a p) /\ placed a.
Proof.
  intros H. 
  assert (Hl : forall i, (i < length clues)%nat -> (forall rv, In rv (LI pre num clues i) -> in_dom a rv) /\ (forall p, In p (order None (LI pre num clues i)) -> sat P0 a p)).
  { intros i Hi. destruct (H i Hi) as [H1 H2]. apply (line_complete (name2 pre i) num a (nth i clues []) 0 0 None 0 (nth i X [])); auto; [lia|discriminate]. }
  split; [|split].
  - intros x d Hin. unfold VL in Hin. apply in_flat_map in Hin. destruct Hin as (i & Hi & Hin). apply in_seq in Hi.
    apply in_map_iff in Hin. destruct Hin as (rv & E & Hrv). unfold dom in E. apply pair_equal_spec in E. destruct E as [<- <-]. apply zrange_In.
    apply (proj1 (Hl i ltac:(lia)) rv Hrv).
  - intros p Hp. unfold CL in Hp. apply in_flat_map in Hp. destruct Hp as (i & Hi & Hp). apply in_seq in Hi. apply (Hl i ltac:(lia)). exact Hp.
  - intros i Hi. split; [now apply Hl|]. destruct (H i Hi) as [H1 ->]. exact H1.
Qed.
End C.

Section N.
Variables (rows cols : list (list Z)).
Let P0 := fun _ : nat => 0.
Let nr := length rows.
Let nc := length cols.
Let RI := LI "r" (Z.of_nat nc) rows.
Let CI := LI "c" (Z.of_nat nr) cols.

Definition f_cell (r c : nat) : formula :=
  FBin UEq (FSum (cover_list (Z.of_nat c) (RI r))) (FSum (cover_list (Z.of_nat r) (CI c))).
Definition p_cell (r c : nat) : list pbody :=
  match cover_list (Z.of_nat c) (RI r), cover_list (Z.of_nat r) (CI c) with [], [] => [] | _, _ => [PForm (f_cell r c)] end.
Definition Ccells : list pbody := flat_map (fun r => flat_map (p_cell r) (seq 0 nc)) (seq 0 nr).
Definition VN : dict (list Z) := VL "r" (Z.of_nat nc) rows ++ VL "c" (Z.of_nat nr) cols.
Definition CN : list pbody := CL "r" (Z.of_nat nc) rows ++ CL "c" (Z.of_nat nr) cols ++ Ccells.

Lemma VN_rows i rv : (i < nr)%nat -> In rv (RI i) -> In (rv_name rv) (names_of VN).
Proof.
  intros Hi H. unfold VN. rewrite names_app, in_app_iff. left. apply VL_names.
  assert (Hn : In (rv_name rv) (map rv_name (RI i))) by now apply in_map. apply LI_names in Hn. destruct Hn as (j & Hj & ->). exists i, j. auto.
Qed.
Lemma VN_cols i rv : (i < nc)%nat -> In rv (CI i) -> In (rv_name rv) (names_of VN).
Proof.
  intros Hi H. unfold VN. rewrite names_app, in_app_iff. right. apply VL_names.
  assert (Hn : In (rv_name rv) (map rv_name (CI i))) by now apply in_map. apply LI_names in Hn. destruct Hn as (j & Hj & ->). exists i, j. auto.
Qed.

Lemma flat_nil {A B} (l : list A) : flat_map (fun _ => @nil B) l = [].
Proof. induction l; auto. Qed.

(** The number of covering runs depends on where the runs are. *)
Lemma cover_not_const c rvs k : (forall rv, In rv rvs -> 0 < rv_size rv) -> cover_list c rvs <> [] -> build (FSum (cover_list c rvs)) <> Ok (OExpr (Const k)).
Proof.
  intros Hp Hne Hb. unfold cover_list in *. set (l := filter _ rvs) in *.
  assert (Hl : forall rv, In rv l -> 0 < rv_size rv) by (intros rv H; apply filter_In in H; now apply Hp). clearbody l.
  assert (H1 : meaning P0 (fun _ => c) (FSum (map (covers c) l)) = Some (Z.of_nat (length l))).
  { clear Hb Hne. induction l as [|rv l IH]; [reflexivity|]. cbn [map]. cbn [meaning] in *. rewrite IH by (intros; apply Hl; now right). unfold covers at 1. cbn [meaning arith].
    pose proof (Hl rv (or_introl eq_refl)). rewrite (proj2 (Z.leb_le c c)) by lia. rewrite (proj2 (Z.ltb_lt c (c + rv_size rv))) by lia. change (Some (1 + Z.of_nat (length l)) = Some (Z.of_nat (S (length l)))). f_equal. lia. }
  assert (H2 : meaning P0 (fun _ => c + 1) (FSum (map (covers c) l)) = Some 0).
  { clear. induction l as [|rv l IH]; [reflexivity|]. cbn [map]. cbn [meaning] in *. rewrite IH. unfold covers at 1. cbn [meaning arith].
    rewrite (proj2 (Z.leb_gt (c + 1) c)) by lia. destruct (_ <? _); reflexivity. }
  pose proof (build_const _ _ _ _ _ Hb H1). pose proof (build_const _ _ _ _ _ Hb H2). destruct l; [now apply Hne|cbn in *; lia].
Qed.

Lemma sizes_positive pre num clues i rv : positive_clues clues -> In rv (LI pre num clues i) -> 0 < rv_size rv.
Proof.
  intros Hp H. assert (Hs : In (rv_size rv) (nth i clues [])) by (rewrite <- (LI_sizes pre num clues i); now apply in_map).
  destruct (Nat.lt_ge_cases i (length clues)) as [Hi|Hi]; [|now rewrite nth_overflow in Hs].
  pose proof (Hp _ (nth_In _ _ Hi) _ Hs). lia.
Qed.

Lemma nonogram_adds : positive_clues rows -> positive_clues cols -> adds P0 [] (nonogram_init rows cols) (map RI (seq 0 nr)) VN CN.
Proof.
  intros HpR HpC.
  unfold nonogram_init.
  replace VN with (VL "r" (Z.of_nat nc) rows ++ VL "c" (Z.of_nat nr) cols ++ [] ++ []) by (unfold VN; cbn [app]; now rewrite app_nil_r).
  replace CN with (CL "r" (Z.of_nat nc) rows ++ CL "c" (Z.of_nat nr) cols ++ Ccells ++ []) by (unfold CN; now rewrite app_nil_r).
  eapply adds_bind; [apply lines_adds; [reflexivity|intros i j []]|].
  eapply adds_bind.
  { apply lines_adds; [reflexivity|]. intros i j H. apply VL_names in H. destruct H as (i' & j' & _ & _ & E). discriminate E. }
  fold nr nc. fold RI CI. eapply adds_bind; [|apply adds_ret].
  apply (adds_ext P0 _ (op_for (fun r => op_for (fun c => add_cell r c (map RI (seq 0 nr)) (map CI (seq 0 nc))) (seq 0 nc)) (seq 0 nr))
    _ (map (fun _ => map (fun _ => tt) (seq 0 nc)) (seq 0 nr)) (flat_map (fun _ => flat_map (fun _ => []) (seq 0 nc)) (seq 0 nr)) _ Ccells); [|reflexivity| |reflexivity].
  2: { rewrite (flat_map_ext_in _ (fun _ => [])) by (intros; apply flat_nil). apply flat_nil. }
  apply adds_for. intros l1 r l2 E1. destruct (seq_split_notin _ _ _ _ E1) as [_ Hr].
  apply adds_for. intros l3 c l4 E2. destruct (seq_split_notin _ _ _ _ E2) as [_ Hc].
  unfold add_cell, p_cell. rewrite !nth_map_seq by assumption.
  set (vs := (_ ++ flat_map _ l3)). assert (Hvs : forall x, In x (names_of VN) -> In x (names_of vs)).
  { intros x Hx. unfold vs. rewrite !names_app, !in_app_iff. unfold VN in Hx. rewrite names_app, in_app_iff in Hx. left. left. destruct Hx as [Hx|Hx]; [left; right; exact Hx|right; exact Hx]. }
  assert (Hform : adds P0 vs (add_formula (f_cell r c)) tt [] [PForm (f_cell r c)]).
  { apply adds_form.
    - intros u g h k d E Hg Hh. unfold f_cell in E. injection E as _ <- <-. revert Hg Hh.
      destruct (cover_list (Z.of_nat c) (RI r)) eqn:E; [discriminate|]. intros Hg _. rewrite <- E in Hg. revert Hg.
      apply cover_not_const; [intros rv Hrv; exact (sizes_positive _ _ _ _ _ HpR Hrv)|rewrite E; discriminate].
    - intros x Hx. apply Hvs. cbn [f_cell fvars] in Hx. apply in_app_or in Hx.
      destruct Hx as [Hx|Hx]; apply cover_fvars in Hx; apply in_map_iff in Hx; destruct Hx as (rv & <- & Hrv); [now apply (VN_rows r)|now apply (VN_cols c)].
    - intros a. unfold f_cell. destruct (cover_defined a (Z.of_nat c) (RI r)) as [v Hv]. destruct (cover_defined a (Z.of_nat r) (CI c)) as [w Hw].
      exists (if v =? w then 1 else 0). change (match meaning P0 a (FSum (cover_list (Z.of_nat c) (RI r))), meaning P0 a (FSum (cover_list (Z.of_nat r) (CI c))) with
        Some v, Some w => arith UEq v w | _, _ => None end = Some (if v =? w then 1 else 0)).
      fold P0 in Hv, Hw. rewrite Hv, Hw. reflexivity.
    - cbn [f_cell div_ok]. rewrite (proj2 (cover_safe (Z.of_nat c) (RI r) (fun rv H => LI_ok "r" _ rows eq_refl r rv H))).
      rewrite (proj2 (cover_safe (Z.of_nat r) (CI c) (fun rv H => LI_ok "c" _ cols eq_refl c rv H))). reflexivity.
    - reflexivity. }
  fold (f_cell r c). destruct (cover_list (Z.of_nat c) (RI r)) as [|f fs] eqn:Er, (cover_list (Z.of_nat r) (CI c)) as [|g gs] eqn:Ec; [apply adds_ret| | |];
    exact Hform.
Qed.

Lemma CN_safe p : In p CN -> p_safe p.
Proof.
  assert (Ho : forall rvs prev p, (forall rv, In rv rvs -> name_ok (rv_name rv) = true) -> (forall q, prev = Some q -> name_ok (rv_name q) = true) -> In p (order prev rvs) -> p_safe p).
  { clear. induction rvs as [|rv rvs IH]; intros prev p H Hp Hin; [contradiction|]. cbn [order] in Hin. apply in_app_or in Hin. destruct Hin as [Hin|Hin].
    - destruct prev as [q|]; [|contradiction]. destruct Hin as [<-|[]]. cbn. rewrite (H rv (or_introl eq_refl)), (Hp q eq_refl). reflexivity.
    - apply (IH (Some rv) p); auto; [intros rv' Hrv; apply H; now right|]. intros q E. injection E as <-. apply H. now left. }
  unfold CN. intros H. apply in_app_or in H. destruct H as [H|H]; [|apply in_app_or in H; destruct H as [H|H]].
  - apply in_flat_map in H. destruct H as (i & _ & H). apply (Ho _ None p) in H; [exact H|intros rv; apply LI_ok; reflexivity|discriminate].
  - apply in_flat_map in H. destruct H as (i & _ & H). apply (Ho _ None p) in H; [exact H|intros rv; apply LI_ok; reflexivity|discriminate].
  - unfold Ccells in H. apply in_flat_map in H. destruct H as (r & _ & H). apply in_flat_map in H. destruct H as (c & _ & H).
    assert (E : p = PForm (f_cell r c)). { unfold p_cell in H. destruct (cover_list (Z.of_nat c) (RI r)), (cover_list (Z.of_nat r) (CI c)); cbn in H; intuition congruence. }
    subst p. cbn [p_safe f_safe f_cell f_arith].
    rewrite (proj1 (cover_safe (Z.of_nat c) (RI r) (fun rv H => LI_ok "r" _ rows eq_refl r rv H))).
    rewrite (proj1 (cover_safe (Z.of_nat r) (CI c) (fun rv H => LI_ok "c" _ cols eq_refl c rv H))). reflexivity.
Qed.

Definition row_cover (a : assignment) (r c : nat) : Prop := covered (starts a (RI r)) (nth r rows []) (Z.of_nat c).
Definition col_cover (a : assignment) (r c : nat) : Prop := covered (starts a (CI c)) (nth c cols []) (Z.of_nat r).

Lemma cells_sat a : placed "r" (Z.of_nat nc) rows a -> placed "c" (Z.of_nat nr) cols a ->
  ((forall p, In p Ccells -> sat P0 a p) <-> forall r c, (r < nr)%nat -> (c < nc)%nat -> (row_cover a r c <-> col_cover a r c)).
Proof.
  intros HR HC.
  assert (Hcell : forall r c, (r < nr)%nat -> (c < nc)%nat -> ((forall p, In p (p_cell r c) -> sat P0 a p) <-> (row_cover a r c <-> col_cover a r c))).
  { intros r c Hr Hc. destruct (HR r Hr) as [R1 R2]. destruct (HC c Hc) as [C1 C2].
    pose proof (cover_sum (Z.of_nat nc) a (Z.of_nat c) (RI r) 0) as SR. pose proof (cover_sum (Z.of_nat nr) a (Z.of_nat r) (CI c) 0) as SC.
    pose proof (fun E => cover_list_nil (Z.of_nat c) a (RI r) E R1) as NR. pose proof (fun E => cover_list_nil (Z.of_nat r) a (CI c) E C1) as NC.
    assert (EsR : map rv_size (RI r) = nth r rows []) by apply LI_sizes. assert (EsC : map rv_size (CI c) = nth c cols []) by apply LI_sizes.
    rewrite EsR in *. rewrite EsC in *.
    destruct (SR R2 R1) as (v & Ev & V1 & V0). destruct (SC C2 C1) as (w & Ew & W1 & W0).
    fold (row_cover a r c) in *. fold (col_cover a r c) in *. fold P0 in Ev, Ew.
    assert (Hs : sat P0 a (PForm (f_cell r c)) <-> v = w).
    { unfold sat, f_cell. cbn [meaning] in Ev, Ew |- *. rewrite Ev, Ew. cbn [arith]. split.
      - intros (u & Eu & Hu). destruct (Z.eqb_spec v w); [assumption|congruence].
      - intros ->. exists 1. rewrite Z.eqb_refl. split; [reflexivity|lia]. }
    assert (Hvw : v = w <-> (row_cover a r c <-> col_cover a r c)).
    { destruct (covered_dec (starts a (RI r)) (nth r rows []) (Z.of_nat c)) as [HA|HA], (covered_dec (starts a (CI c)) (nth c cols []) (Z.of_nat r)) as [HB|HB];
        fold (row_cover a r c) in HA; fold (col_cover a r c) in HB;
        [rewrite (V1 HA), (W1 HB)|rewrite (V1 HA), (W0 HB)|rewrite (V0 HA), (W1 HB)|rewrite (V0 HA), (W0 HB)]; intuition lia. }
    unfold p_cell. destruct (cover_list (Z.of_nat c) (RI r)) as [|f fs] eqn:Er, (cover_list (Z.of_nat r) (CI c)) as [|g gs] eqn:Ec.
    1: { specialize (NR eq_refl). specialize (NC eq_refl). split; [tauto|intros _ p []]. }
    all: rewrite <- Hvw, <- Hs; split; [intros H; apply H; now left|intros H p [<-|[]]; exact H]. }
  unfold Ccells. split.
  - intros H r c Hr Hc. apply (Hcell r c Hr Hc). intros p Hp. apply H. apply in_flat_map. exists r. split; [apply in_seq; lia|].
    apply in_flat_map. exists c. split; [apply in_seq; lia|exact Hp].
  - intros H p Hp. apply in_flat_map in Hp. destruct Hp as (r & Hr & Hp). apply in_flat_map in Hp. destruct Hp as (c & Hc & Hp). apply in_seq in Hr, Hc.
    apply (proj2 (Hcell r c ltac:(lia) ltac:(lia)) (H r c ltac:(lia) ltac:(lia)) p Hp).
Qed.

Definition picture (a : assignment) : list (list Z) := map (fun r => line_of nc (starts a (RI r)) (nth r rows [])) (seq 0 nr).

Lemma decode_picture s : (forall x, In x (names_of VN) -> dget s x = Some (val s x)) -> placed "r" (Z.of_nat nc) rows (val s) ->
  nonogram_decode nc (map RI (seq 0 nr)) s = Ok (picture (val s)).
Proof.
  intros Hs HR. unfold nonogram_decode, picture. set (g := fun rvs => mark_row s (repeat 0 nc) rvs).
  transitivity (mapM (fun r => g (RI r)) (seq 0 nr)).
  { generalize (seq 0 nr). induction l as [|r l IH]; [reflexivity|]. cbn [map mapM]. now rewrite IH. }
  apply mapM_Ok. intros r Hr. apply in_seq in Hr. unfold g. destruct (HR r) as [R1 R2]; [unfold nr in *; lia|].
  assert (EsR : map rv_size (RI r) = nth r rows []) by apply LI_sizes. rewrite <- EsR in R2 |- *.
  apply mark_line; [|exact R2]. intros rv Hrv. apply Hs. apply (VN_rows r); [lia|exact Hrv].
Qed.

Lemma pixel_picture a r c : (r < nr)%nat -> (c < nc)%nat ->
  pixel (picture a) (Z.of_nat r) (Z.of_nat c) = if coveredb (starts a (RI r)) (nth r rows []) (Z.of_nat c) then 1 else 0.
Proof.
  intros Hr Hc. unfold pixel, picture. rewrite !Nat2Z.id, nth_map_seq by exact Hr. unfold line_of. now rewrite nth_map_seq by exact Hc.
Qed.

Lemma picture_covers a r c : (r < nr)%nat -> (c < nc)%nat -> (pixel (picture a) (Z.of_nat r) (Z.of_nat c) <> 0 <-> row_cover a r c).
Proof.
  intros Hr Hc. rewrite pixel_picture by assumption. unfold row_cover. rewrite <- coveredb_spec. destruct (coveredb _ _ _); split; intros; congruence.
Qed.

Lemma nonogram_good : positive_clues rows -> positive_clues cols ->
  forall s, good_solution P0 VN CN s ->
    (forall x, In x (names_of VN) -> dget s x = Some (val s x)) /\ placed "r" (Z.of_nat nc) rows (val s) /\ placed "c" (Z.of_nat nr) cols (val s) /\
    forall r c, (r < nr)%nat -> (c < nc)%nat -> (row_cover (val s) r c <-> col_cover (val s) r c).
Proof.
  intros HpR HpC s [H1 H2]. split.
    - intros x Hx. unfold names_of in Hx. apply in_map_iff in Hx. destruct Hx as ([y d] & <- & Hin). now apply (H1 y d).
    - assert (HR : placed "r" (Z.of_nat nc) rows (val s)).
      { apply lines_sound; auto.
        - intros x d Hin. apply (H1 x d). unfold VN. apply in_or_app. now left.
        - intros p Hp. apply H2. unfold CN. apply in_or_app. now left. }
      assert (HC : placed "c" (Z.of_nat nr) cols (val s)).
      { apply lines_sound; auto.
        - intros x d Hin. apply (H1 x d). unfold VN. apply in_or_app. now right.
        - intros p Hp. apply H2. unfold CN. apply in_or_app. right. apply in_or_app. now left. }
      split; [exact HR|]. split; [exact HC|]. apply (cells_sat _ HR HC). intros p Hp. apply H2. unfold CN. apply in_or_app. right. apply in_or_app. now right.
Qed.

Lemma nonogram_describes : positive_clues rows -> positive_clues cols -> (exists l, In l (rows ++ cols) /\ l <> []) ->
  describes (nonogram_init rows cols) (map RI (seq 0 nr)) VN CN (nonogram_decode nc) (matches rows cols).
Proof.
  intros HpR HpC Hrun. pose proof (nonogram_good HpR HpC) as Hgs. constructor.
  - exact (nonogram_adds HpR HpC).
  - destruct Hrun as (l & Hl & Hne). intros E. assert (Hex : exists x, In x (names_of VN)).
    { unfold VN. assert (Hlen : (0 < length l)%nat) by (destruct l; [contradiction|cbn; lia]). apply in_app_or in Hl.
      destruct Hl as [Hl|Hl]; apply (In_nth _ _ []) in Hl; destruct Hl as (i & Hi & Ei); [exists (name2 "r" i 0)|exists (name2 "c" i 0)];
        rewrite names_app, in_app_iff; [left|right]; apply VL_names; exists i, 0%nat; rewrite Ei; auto. }
    destruct Hex as (x & Hx). rewrite E in Hx. contradiction.
  - intros p Hp. now apply CN_safe.
  - intros s Hg. destruct (Hgs s Hg) as (H1 & HR & HC & Hcr). exists (picture (val s)). split; [now apply decode_picture|]. split; [|split; [|split]].
    + intros row Hrow v Hv. unfold picture in Hrow. apply in_map_iff in Hrow. destruct Hrow as (r & <- & _). unfold line_of in Hv.
      apply in_map_iff in Hv. destruct Hv as (c & <- & _). destruct (coveredb _ _ _); auto.
    + split; [unfold picture; now rewrite map_length, seq_length|]. intros row Hrow. unfold picture in Hrow. apply in_map_iff in Hrow.
      destruct Hrow as (r & <- & _). unfold line_of. now rewrite map_length, seq_length.
    + intros r Hr. change (0 <= r < Z.of_nat nr) in Hr. destruct (HR (Z.to_nat r)) as [R1 R2]; [unfold nr in *; lia|]. exists (starts (val s) (RI (Z.to_nat r))). split; [exact R2|].
      intros c Hc. change (0 <= c < Z.of_nat nc) in Hc. pose proof (picture_covers (val s) (Z.to_nat r) (Z.to_nat c) ltac:(lia) ltac:(lia)) as Hp. rewrite !Z2Nat.id in Hp by lia. rewrite Hp.
      unfold row_cover. rewrite Z2Nat.id by lia. reflexivity.
    + intros c Hc. change (0 <= c < Z.of_nat nc) in Hc. destruct (HC (Z.to_nat c)) as [C1 C2]; [unfold nc in *; lia|]. exists (starts (val s) (CI (Z.to_nat c))). split; [exact C2|].
      intros r Hr. change (0 <= r < Z.of_nat nr) in Hr. pose proof (picture_covers (val s) (Z.to_nat r) (Z.to_nat c) ltac:(lia) ltac:(lia)) as Hp. rewrite !Z2Nat.id in Hp by lia. rewrite Hp.
      rewrite Hcr by lia. unfold col_cover. rewrite Z2Nat.id by lia. reflexivity.
  - intros s s' b Hg Hg' Hd Hd' x Hx. destruct (Hgs s Hg) as (H1 & HR & HC & Hcr). destruct (Hgs s' Hg') as (H1' & HR' & HC' & Hcr').
    rewrite decode_picture in Hd, Hd' by assumption. rewrite <- Hd in Hd'. injection Hd' as Epic.
    assert (Hrow : forall r c, (r < nr)%nat -> (c < nc)%nat -> (row_cover (val s) r c <-> row_cover (val s') r c)).
    { intros r c Hr Hc. rewrite <- !picture_covers by assumption. now rewrite Epic. }
    unfold VN in Hx. rewrite names_app, in_app_iff in Hx. destruct Hx as [Hx|Hx]; apply VL_names in Hx; destruct Hx as (i & j & Hi & Hj & ->).
    + assert (E : starts (val s) (RI i) = starts (val s') (RI i)).
      { apply (blocks_unique (Z.of_nat nc) _ (nth i rows []) _ (nth i rows []) 0 (proj2 (HR i Hi)) (proj2 (HR' i Hi))).
        intros c Hc. specialize (Hrow i (Z.to_nat c) Hi ltac:(lia)). unfold row_cover in Hrow. rewrite Z2Nat.id in Hrow by lia. exact Hrow. }
      assert (Hn : In (name2 "r" i j) (map rv_name (RI i))) by (apply LI_names; exists j; auto).
      apply in_map_iff in Hn. destruct Hn as (rv & <- & Hrv). exact (map_eq_in _ _ _ E rv Hrv).
    + assert (E : starts (val s) (CI i) = starts (val s') (CI i)).
      { apply (blocks_unique (Z.of_nat nr) _ (nth i cols []) _ (nth i cols []) 0 (proj2 (HC i Hi)) (proj2 (HC' i Hi))).
        intros r Hr. specialize (Hrow (Z.to_nat r) i ltac:(lia) Hi). rewrite Hcr, Hcr' in Hrow by (auto; lia). unfold col_cover in Hrow. rewrite Z2Nat.id in Hrow by lia. exact Hrow. }
      assert (Hn : In (name2 "c" i j) (map rv_name (CI i))) by (apply LI_names; exists j; auto).
      apply in_map_iff in Hn. destruct Hn as (rv & <- & Hrv). exact (map_eq_in _ _ _ E rv Hrv).
  - intros b (Hbw & (Hlb & Hlr) & Hrows & Hcols). fold nr in Hlb, Hrows, Hcols. fold nc in Hlr, Hrows, Hcols.
    destruct (finite_choice [] (fun r xs => blocks 0 (Z.of_nat nc) xs (nth r rows []) /\ forall c, 0 <= c < Z.of_nat nc -> (pixel b (Z.of_nat r) c <> 0 <-> covered xs (nth r rows []) c)) nr) as (X & LX & HX).
    { intros r Hr. specialize (Hrows (Z.of_nat r) ltac:(lia)). rewrite Nat2Z.id in Hrows. exact Hrows. }
    destruct (finite_choice [] (fun c ys => blocks 0 (Z.of_nat nr) ys (nth c cols []) /\ forall r, 0 <= r < Z.of_nat nr -> (pixel b r (Z.of_nat c) <> 0 <-> covered ys (nth c cols []) r)) nc) as (Y & LY & HY).
    { intros c Hc. specialize (Hcols (Z.of_nat c) ltac:(lia)). rewrite Nat2Z.id in Hcols. exact Hcols. }
    set (L := flat_map (fun r => combine (map rv_name (RI r)) (nth r X [])) (seq 0 nr) ++ flat_map (fun c => combine (map rv_name (CI c)) (nth c Y [])) (seq 0 nc)).
    assert (HlR : forall r, (r < nr)%nat -> length (map rv_name (RI r)) = length (nth r X [])).
    { intros r Hr. destruct (HX r Hr) as [B _]. apply blocks_length in B. rewrite B. unfold RI, LI. now rewrite infos_nth, map_length, seq_length. }
    assert (HlC : forall c, (c < nc)%nat -> length (map rv_name (CI c)) = length (nth c Y [])).
    { intros c Hc. destruct (HY c Hc) as [B _]. apply blocks_length in B. rewrite B. unfold CI, LI. now rewrite infos_nth, map_length, seq_length. }
    assert (HLn : names_of L = names_of VN).
    { unfold L, VN, VL. rewrite !names_app, !names_flat_map. f_equal; apply flat_map_ext_in; intros i Hi; apply in_seq in Hi; rewrite dom_names, names_combine; auto;
        [apply HlR; lia|apply HlC; lia]. }
    assert (HLND : NoDup (names_of L)) by (rewrite HLn; exact (adds_NoDup _ _ _ _ (nonogram_adds HpR HpC))).
    assert (HsR : forall r, (r < nr)%nat -> starts (val L) (RI r) = nth r X []).
    { intros r Hr. unfold starts. rewrite <- map_map with (f := rv_name) (g := val L). apply map_combine; [now apply HlR|]. intros x v Hin. apply val_In; [exact HLND|].
      unfold L. apply in_or_app. left. apply in_flat_map. exists r. split; [apply in_seq; lia|exact Hin]. }
    assert (HsC : forall c, (c < nc)%nat -> starts (val L) (CI c) = nth c Y []).
    { intros c Hc. unfold starts. rewrite <- map_map with (f := rv_name) (g := val L). apply map_combine; [now apply HlC|]. intros x v Hin. apply val_In; [exact HLND|].
      unfold L. apply in_or_app. right. apply in_flat_map. exists c. split; [apply in_seq; lia|exact Hin]. }
    destruct (lines_complete "r" (Z.of_nat nc) rows (val L) X) as (R1 & R2 & R3); [intros i Hi; split; [now apply HX|now apply HsR]|].
    destruct (lines_complete "c" (Z.of_nat nr) cols (val L) Y) as (C1 & C2 & C3); [intros i Hi; split; [now apply HY|now apply HsC]|].
    exists (val L). split; [|split].
    + intros x d Hin. unfold VN in Hin. apply in_app_or in Hin. destruct Hin as [Hin|Hin]; auto.
    + intros p Hp. unfold CN in Hp. apply in_app_or in Hp. destruct Hp as [Hp|Hp]; [now apply R2|]. apply in_app_or in Hp. destruct Hp as [Hp|Hp]; [now apply C2|].
      revert p Hp. apply (cells_sat _ R3 C3). intros r c Hr Hc. unfold row_cover, col_cover. rewrite HsR, HsC by assumption.
      destruct (HX r Hr) as [_ E1]. destruct (HY c Hc) as [_ E2]. rewrite <- E1, <- E2 by lia. reflexivity.
    + intros s Hsd. assert (Hv : forall x, In x (names_of VN) -> val s x = val L x) by (intros x Hx; unfold val at 1, dget_or; now rewrite Hsd).
      assert (Est : forall r, (r < nr)%nat -> starts (val s) (RI r) = starts (val L) (RI r)).
      { intros r Hr. apply map_ext_in. intros rv Hrv. apply Hv. now apply (VN_rows r). }
      rewrite decode_picture.
      * f_equal. apply (nth_ext _ _ [] []); [unfold picture; now rewrite map_length, seq_length|]. intros r Hr. unfold picture in Hr. rewrite map_length, seq_length in Hr.
        unfold picture. rewrite nth_map_seq by exact Hr. rewrite Est, HsR by exact Hr. destruct (HX r Hr) as [_ E1].
        assert (Hin : In (nth r b []) b) by (apply nth_In; lia).
        apply (nth_ext _ _ 0 0); [unfold line_of; rewrite map_length, seq_length; symmetry; apply Hlr, Hin|].
        intros c Hc. unfold line_of in Hc |- *. rewrite map_length, seq_length in Hc. rewrite nth_map_seq by exact Hc.
        specialize (E1 (Z.of_nat c) ltac:(lia)). unfold pixel in E1. rewrite !Nat2Z.id in E1.
        assert (Hcell : nth c (nth r b []) 0 = 0 \/ nth c (nth r b []) 0 = 1) by (apply (Hbw _ Hin); apply nth_In; rewrite (Hlr _ Hin); exact Hc).
        rewrite <- coveredb_spec in E1. destruct (coveredb _ _ _), Hcell as [Hcell|Hcell]; rewrite Hcell in *; intuition congruence.
      * intros x Hx. rewrite Hv by exact Hx. now apply Hsd.
      * intros r Hr. destruct (R3 r Hr) as [D1 D2]. split.
        -- intros rv Hrv. specialize (D1 rv Hrv). unfold in_dom in *. rewrite Hv by now apply (VN_rows r). exact D1.
        -- fold RI in D2 |- *. fold (RI r). rewrite Est by exact Hr. exact D2.
Qed.

Lemma nonogram_exact clk shuffle o : positive_clues rows -> positive_clues cols -> (exists l, In l (rows ++ cols) /\ l <> []) -> shuffles shuffle ->
  exactly (fun fuel => nonogram_run clk shuffle fuel rows cols o) (matches rows cols) (o_timeout o) (o_limit o).
Proof. intros HpR HpC Hrun Hs. exact (describes_exactly clk shuffle _ _ _ _ _ _ _ _ _ _ (nonogram_describes HpR HpC Hrun) Hs). Qed.
End N.

(** ** pixmap_to_nonogram *)
Lemma line_runs_spec : forall line pos count, 0 <= count ->
  exists xs, blocks (pos - count) (pos + Z.of_nat (length line)) xs (line_runs count line) /\
    forall c, pos - count <= c < pos + Z.of_nat (length line) ->
      (covered xs (line_runs count line) c <-> c < pos \/ pos <= c /\ nth (Z.to_nat (c - pos)) line 0 <> 0).
Proof.
  induction line as [|cell line IH]; intros pos count Hc; cbn [line_runs length].
  - unfold truthy. destruct (Z.eqb_spec count 0); cbn [negb].
    + exists []. split; [exact Logic.I|]. intros c Hc'. lia.
    + exists [pos - count]. split; [cbn; lia|]. intros c Hc'. cbn. split; intros H; [left; lia|left; lia].
  - assert (Hnth : forall c, pos + 1 <= c -> nth (Z.to_nat (c - pos)) (cell :: line) 0 = nth (Z.to_nat (c - (pos + 1))) line 0).
    { intros c Hc'. replace (Z.to_nat (c - pos)) with (S (Z.to_nat (c - (pos + 1)))) by lia. reflexivity. }
    unfold truthy at 1 3. destruct (Z.eqb_spec cell 0) as [->|Hcell]; cbn [negb].
    + destruct (IH (pos + 1) 0 ltac:(lia)) as (xs & B & E). replace (pos + 1 - 0) with (pos + 1) in * by lia.
      replace (pos + 1 + Z.of_nat (length line)) with (pos + Z.of_nat (S (length line))) in * by lia.
      unfold truthy. destruct (Z.eqb_spec count 0) as [->|Hcount]; cbn [negb app].
      * exists xs. split; [apply (blocks_weaken (pos + 1)); [lia|exact B]|]. intros c Hc'.
        destruct (Z.eq_dec c pos) as [->|Hne].
        -- split; intros H; [apply (covered_ge _ _ _ _ _ B) in H; lia|]. rewrite Z.sub_diag in H. cbn in H. lia.
        -- rewrite E, Hnth by lia. split; intros [H|H]; try lia; right; (split; [lia|apply H]).
      * exists (pos - count :: xs). split.
        -- cbn [blocks]. split; [lia|]. split; [lia|]. split; [lia|]. replace (pos - count + count + 1) with (pos + 1) by lia. exact B.
        -- intros c Hc'. cbn [covered]. replace (pos - count + count) with pos by lia. destruct (Z.lt_ge_cases c pos) as [Hlt|Hge].
           ++ split; intros _; left; lia.
           ++ destruct (Z.eq_dec c pos) as [->|Hne].
              ** split; intros [H|H]; try lia; [apply (covered_ge _ _ _ _ _ B) in H; lia|]. rewrite Z.sub_diag in H. cbn in H. lia.
              ** rewrite E, Hnth by lia. lia.
    + destruct (IH (pos + 1) (count + 1) ltac:(lia)) as (xs & B & E). replace (pos + 1 - (count + 1)) with (pos - count) in * by lia.
      replace (pos + 1 + Z.of_nat (length line)) with (pos + Z.of_nat (S (length line))) in * by lia.
      exists xs. split; [exact B|]. intros c Hc'. rewrite E by lia. destruct (Z.lt_trichotomy c pos) as [H1|[->|H1]].
      * split; intros _; left; lia.
      * rewrite Z.sub_diag. cbn [nth Z.to_nat]. split; intros _; [right; split; [lia|exact Hcell]|left; lia].
      * rewrite Hnth by lia. split; intros [H|H]; try lia; right; (split; [lia|apply H]).
Qed.

Lemma line_runs_has line f : (forall c, 0 <= c < Z.of_nat (length line) -> f c = nth (Z.to_nat c) line 0) ->
  has_runs f (Z.of_nat (length line)) (line_runs 0 line).
Proof.
  intros Hf. destruct (line_runs_spec line 0 0 ltac:(lia)) as (xs & B & E). rewrite Z.sub_diag in *. rewrite Z.add_0_l in *.
  exists xs. split; [exact B|]. intros c Hc. rewrite Hf, E by lia. rewrite Z.sub_0_r. split; [intros H; right; split; [lia|exact H]|intros [H|H]; [lia|apply H]].
Qed.

Lemma line_runs_pos : forall line count k, 0 <= count -> In k (line_runs count line) -> 1 <= k.
Proof.
  induction line as [|cell line IH]; intros count k Hc Hk; cbn [line_runs] in Hk; unfold truthy in Hk.
  - destruct (Z.eqb_spec count 0); cbn in Hk; [contradiction|]. destruct Hk as [<-|[]]. lia.
  - destruct (Z.eqb_spec cell 0); cbn [negb] in Hk; [|apply (IH (count + 1)); [lia|exact Hk]].
    apply in_app_or in Hk. destruct Hk as [Hk|Hk]; [|apply (IH 0); [lia|exact Hk]].
    destruct (Z.eqb_spec count 0); cbn in Hk; [contradiction|]. destruct Hk as [<-|[]]. lia.
Qed.

Lemma shape_cols nr nc b : rectangular nr nc b -> (b = [] -> nc = 0%nat) -> snd (pixmap_shape b) = nc.
Proof.
  intros [_ H] Hne. unfold pixmap_shape. cbn [snd]. destruct b as [|row b]; [symmetry; now apply Hne|]. clear Hne.
  assert (Hle : forall b' : list (list Z), (forall row, In row b' -> length row = nc) -> (fold_right (fun row n => Nat.max (length row) n) 0 b' <= nc)%nat).
  { clear. induction b' as [|row b' IH]; intros H; cbn; [lia|]. rewrite H by now left. specialize (IH ltac:(intros r Hr; apply H; now right)). lia. }
  cbn. rewrite (H row) by now left. specialize (Hle b ltac:(intros r Hr; apply H; now right)). lia.
Qed.

Lemma pixmap_clues nr nc b : rectangular nr nc b -> (b = [] -> nc = 0%nat) ->
  exists rows cols, pixmap_to_nonogram b = Ok (rows, cols) /\ length rows = nr /\ length cols = nc /\
    positive_clues rows /\ positive_clues cols /\ clues_of b rows cols.
Proof.
  intros Hr Hne. unfold pixmap_to_nonogram. rewrite (shape_cols nr nc b Hr Hne). destruct Hr as [Hlen Hrow].
  set (col := fun c : nat => map (fun row => nth c row 0) b).
  assert (Hcol : forall c, (c < nc)%nat -> mapM (fun row => match nth_error row c with Some v => Ok v | None => Err IndexError end) b = Ok (col c)).
  { intros c Hc. apply mapM_Ok. intros row Hin. rewrite (nth_error_nth' row 0) by (rewrite Hrow; auto). reflexivity. }
  assert (Hm : mapM (fun c => let! line := mapM (fun row => match nth_error row c with Some v => Ok v | None => Err IndexError end) b in Ok (line_runs 0 line)) (seq 0 nc)
    = Ok (map (fun c => line_runs 0 (col c)) (seq 0 nc))).
  { apply mapM_Ok. intros c Hc. apply in_seq in Hc. rewrite Hcol by lia. reflexivity. }
  rewrite Hm. cbn [bind]. eexists _, _. split; [reflexivity|]. rewrite !map_length, seq_length. split; [exact Hlen|]. split; [reflexivity|].
  split; [|split; [|split; [|split]]].
  - intros l Hl k Hk. apply in_map_iff in Hl. destruct Hl as (row & <- & _). apply (line_runs_pos row 0); [lia|exact Hk].
  - intros l Hl k Hk. apply in_map_iff in Hl. destruct Hl as (c & <- & _). apply (line_runs_pos (col c) 0); [lia|exact Hk].
  - rewrite !map_length, seq_length. split; [reflexivity|exact Hrow].
  - rewrite !map_length, seq_length. intros r Hr. change (@nil Z) with (line_runs 0 []) at 1. rewrite map_nth.
    assert (Hin : In (nth (Z.to_nat r) b []) b) by (apply nth_In; lia). rewrite <- (Hrow _ Hin). apply line_runs_has. intros c Hc. reflexivity.
  - rewrite !map_length, seq_length. intros c Hc. rewrite nth_map_seq by lia.
    replace (Z.of_nat (length b)) with (Z.of_nat (length (col (Z.to_nat c)))) by (unfold col; now rewrite map_length).
    apply line_runs_has. intros r Hr. unfold pixel, col. unfold col in Hr. rewrite map_length in Hr.
    erewrite (nth_indep (map _ b)) by (rewrite map_length; lia). rewrite (map_nth (fun row => nth (Z.to_nat c) row 0) b []). reflexivity.
Qed.

Lemma clues_unique b rows cols rows' cols' : clues_of b rows cols -> clues_of b rows' cols' ->
  length rows = length rows' -> length cols = length cols' -> rows = rows' /\ cols = cols'.
Proof.
  intros (_ & R & C) (_ & R' & C') E1 E2. rewrite <- E1, <- E2 in *. split; apply (nth_ext _ _ [] []); auto; intros i Hi.
  - apply (has_runs_unique (fun c => pixel b (Z.of_nat i) c) (Z.of_nat (length cols))).
    + specialize (R (Z.of_nat i) ltac:(lia)). rewrite Nat2Z.id in R. exact R.
    + specialize (R' (Z.of_nat i) ltac:(lia)). rewrite Nat2Z.id in R'. exact R'.
  - apply (has_runs_unique (fun r => pixel b r (Z.of_nat i)) (Z.of_nat (length rows))).
    + specialize (C (Z.of_nat i) ltac:(lia)). rewrite Nat2Z.id in C. exact C.
    + specialize (C' (Z.of_nat i) ltac:(lia)). rewrite Nat2Z.id in C'. exact C'.
Qed.

Lemma has_runs_nonempty f n clue c : has_runs f n clue -> 0 <= c < n -> f c <> 0 -> clue <> [].
Proof. intros (xs & _ & H) Hc Hf ->. apply H in Hf; [|exact Hc]. destruct xs; exact Hf. Qed.

Lemma round_trip clk shuffle o nr nc b : rectangular nr nc b -> black_white b ->
  (exists r c, 0 <= r < Z.of_nat nr /\ 0 <= c < Z.of_nat nc /\ pixel b r c <> 0) -> shuffles shuffle ->
  exists rows cols, pixmap_to_nonogram b = Ok (rows, cols) /\
    exactly (fun fuel => nonogram_run clk shuffle fuel rows cols o) (matches rows cols) (o_timeout o) (o_limit o) /\ matches rows cols b.
Proof.
  intros Hr Hb (r & c & Hr' & Hc & Hp) Hs.
  destruct (pixmap_clues nr nc b Hr) as (rows & cols & E & L1 & L2 & P1 & P2 & Hcl).
  { intros ->. destruct Hr as [<- _]. cbn in Hr'. lia. }
  exists rows, cols. split; [exact E|]. split; [|split; [exact Hb|exact Hcl]].
  apply nonogram_exact; auto. exists (nth (Z.to_nat r) rows []). split; [apply in_or_app; left; apply nth_In; lia|].
  destruct Hcl as (_ & HR & _). specialize (HR r ltac:(lia)). apply (has_runs_nonempty _ _ _ c HR); [lia|exact Hp].
Qed.

Lemma mapM_Err {A B} (f : A -> res B) l e : (forall x, In x l -> f x = Err e \/ exists y, f x = Ok y) -> (exists x, In x l /\ f x = Err e) -> mapM f l = Err e.
Proof.
  induction l as [|x l IH]; intros H (y & Hy & E); [contradiction|]. cbn [mapM]. destruct (H x (or_introl eq_refl)) as [Ex|(z & Ex)]; rewrite Ex; [reflexivity|].
  cbn [bind]. rewrite IH; [reflexivity|intros w Hw; apply H; now right|]. destruct Hy as [->|Hy]; [congruence|]. exists y. auto.
Qed.

Lemma ragged b row row' : In row b -> In row' b -> (length row < length row')%nat -> pixmap_to_nonogram b = Err IndexError.
Proof.
  intros Hr Hr' Hlt. unfold pixmap_to_nonogram. set (g := fun c : nat => let! line := _ in Ok (line_runs 0 line)).
  assert (Hcol : forall c, mapM (fun row : list Z => match nth_error row c with Some v => Ok v | None => Err IndexError end) b = Err IndexError \/
    exists y, mapM (fun row : list Z => match nth_error row c with Some v => Ok v | None => Err IndexError end) b = Ok y).
  { intros c. clear. induction b as [|row b IH]; [right; exists []; reflexivity|]. cbn [mapM]. destruct (nth_error row c); [|left; reflexivity].
    destruct IH as [->|(y & ->)]; [left; reflexivity|right; eexists; reflexivity]. }
  assert (Hm : mapM g (seq 0 (snd (pixmap_shape b))) = Err IndexError); [|now rewrite Hm].
  apply mapM_Err.
  - intros c _. unfold g. destruct (Hcol c) as [->|(y & ->)]; [now left|right; eexists; reflexivity].
  - exists (length row). split.
    + apply in_seq. split; [lia|]. unfold pixmap_shape. cbn [snd]. clear - Hr' Hlt. induction b as [|x b IH]; [contradiction|]. cbn. destruct Hr' as [->|H]; [lia|]. specialize (IH H). lia.
    + unfold g. rewrite (mapM_Err _ b IndexError); [reflexivity| |].
      * intros x _. destruct (nth_error x (length row)); [right; eexists; reflexivity|now left].
      * exists row. split; [exact Hr|]. assert (E : nth_error row (length row) = None) by now apply nth_error_None. now rewrite E.
Qed.
