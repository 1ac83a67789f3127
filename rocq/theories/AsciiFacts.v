(** The drawings of AsciiMapColoringSolver are the colourings of the regions of the map. *)
From Verif Require Import AsciiMap SpecAscii SpecPuzzle SpecGraph SpecSolve AsciiCells AsciiGroups PuzzleFacts GraphFacts NameFacts.
From Coq Require Import Ascii Permutation Lia.
Open Scope list_scope.
Open Scope Z_scope.

(** ** [exactly] and bijections *)
Lemma exactly_iff {B} run (ok ok' : B -> Prop) t l : (forall b, ok b <-> ok' b) -> exactly run ok t l -> exactly run ok' t l.
Proof.
  intros He [H1 H2]. split; [exact H1|]. intros fuel bs r i E. destruct (H2 fuel bs r i E) as (A1 & A2 & A3 & A4 & A5).
  split; [exact A1|]. split; [intros b Hb; now apply He, A2|]. split; [exact A3|]. split; [|exact A5]. intros Hi b Hb. now apply A4, He.
Qed.

Definition map_run {B C} (f : B -> res C) (out : option (list B * option exn * option interrupt)) : option (list C * option exn * option interrupt) :=
  match out with
  | None => None
  | Some (sols, r, i) => match mapM f sols with Ok ms => Some (ms, r, i) | Err ex => Some ([], Some ex, i) end
  end.
Lemma exactly_map {B C} (f : B -> res C) run (ok : B -> Prop) (ok' : C -> Prop) t l :
  (forall b, ok b -> exists c, f b = Ok c /\ ok' c) ->
  (forall b b' c, ok b -> ok b' -> f b = Ok c -> f b' = Ok c -> b = b') ->
  (forall c, ok' c -> exists b, ok b /\ f b = Ok c) ->
  exactly run ok t l -> exactly (fun fuel => map_run f (run fuel)) ok' t l.
Proof.
  intros Hf Hinj Hsur [H1 H2].
  assert (Hm : forall fuel bs r i, run fuel = Some (bs, r, i) -> exists cs, mapM f bs = Ok cs /\ Forall2 (fun b c => f b = Ok c) bs cs).
  { intros fuel bs r i E. destruct (H2 fuel bs r i E) as (_ & A2 & _). apply mapM_Forall2. intros b Hb. destruct (Hf b (A2 b Hb)) as (c & Ec & _). eauto. }
  split.
  - destruct H1 as (fuel & [[bs r] i] & E). destruct (Hm _ _ _ _ E) as (cs & Ec & _). exists fuel, (cs, r, i). rewrite E. cbn. now rewrite Ec.
  - intros fuel cs r i E. destruct (run fuel) as [[[bs r'] i']|] eqn:Er; [|discriminate]. destruct (Hm _ _ _ _ Er) as (cs' & Ec & HF).
    cbn in E. rewrite Ec in E. injection E as <- <- <-. destruct (H2 fuel bs r' i' Er) as (A1 & A2 & A3 & A4 & A5 & A6 & A7).
    assert (El : length cs' = length bs) by (clear - HF; induction HF; cbn; congruence).
    split; [exact A1|]. split; [|split; [|split; [|split; [|split]]]].
    + intros c Hc. destruct (Forall2_In_r _ _ _ c HF Hc) as (b & Hb & E). destruct (Hf b (A2 b Hb)) as (c' & E' & Hok). congruence.
    + clear - HF A2 A3 Hinj. induction HF as [|b c bs cs E HF IH]; [constructor|]. inversion A3; subst. constructor.
      * intros Hin. destruct (Forall2_In_r _ _ _ c HF Hin) as (b' & Hb' & E'). rewrite (Hinj b b' c) in H1; auto; [apply A2; now left|apply A2; now right].
      * apply IH; [intros b' Hb'; apply A2; now right|assumption].
    + intros Hi c Hc. destruct (Hsur c Hc) as (b & Hb & E). destruct (Forall2_In_l _ _ _ b HF (A4 Hi b Hb)) as (c' & Hc' & E'). congruence.
    + rewrite El. exact A5.
    + exact A6.
    + rewrite El. exact A7.
Qed.

(** ** Grids with the same cells *)
Lemma list_ext {A} : forall l l' : list A, (forall i, nth_error l i = nth_error l' i) -> l = l'.
Proof.
  induction l as [|a l IH]; intros [|b l'] H; [reflexivity|discriminate (H O)|discriminate (H O)|]. f_equal; [specialize (H O); cbn in H; congruence|].
  apply IH. intros i. exact (H (S i)).
Qed.
Lemma grid_ext {A} (m m' : list (list A)) : map (@length A) m = map (@length A) m' -> (forall p a, at_cell m p a -> at_cell m' p a) -> m = m'.
Proof.
  intros Hl H. apply list_ext. intros i. pose proof (f_equal (fun l => nth_error l i) Hl) as Hi. cbn in Hi. rewrite !nth_error_map in Hi.
  destruct (nth_error m i) as [row|] eqn:E, (nth_error m' i) as [row'|] eqn:E'; cbn in Hi; try discriminate; [|reflexivity]. f_equal. injection Hi as Hi.
  apply list_ext. intros j. destruct (nth_error row j) as [a|] eqn:Ej.
  - assert (Ha : at_cell m (Z.of_nat i, Z.of_nat j) a) by (exists row; cbn; rewrite !Nat2Z.id; repeat split; [lia|lia|exact E|exact Ej]).
    destruct (H _ _ Ha) as (r & _ & _ & F1 & F2). cbn in F1, F2. rewrite Nat2Z.id in F1, F2. congruence.
  - apply nth_error_None in Ej. symmetry. apply nth_error_None. lia.
Qed.

Lemma at_blank lines p (b : mcell) : at_cell (blank_map lines) p b <-> b = None /\ exists c, at_cell lines p c.
Proof.
  unfold blank_map, at_cell. split.
  - intros (row & H1 & H2 & E1 & E2). rewrite nth_error_map in E1. destruct (nth_error lines (Z.to_nat (fst p))) as [r|] eqn:E; [|discriminate].
    injection E1 as <-. rewrite nth_error_map in E2. destruct (nth_error r (Z.to_nat (snd p))) as [c|] eqn:Ec; [|discriminate]. injection E2 as <-.
    split; [reflexivity|]. exists c, r. auto.
  - intros (-> & c & r & H1 & H2 & E1 & E2). exists (map (fun _ => None) r). rewrite nth_error_map, E1. split; [exact H1|]. split; [exact H2|].
    split; [reflexivity|]. now rewrite nth_error_map, E2.
Qed.
Lemma blank_length lines : map (@length mcell) (blank_map lines) = map (@length ascii) lines.
Proof. unfold blank_map. rewrite map_map. apply map_ext. intros r. apply map_length. Qed.

(** ** Painting *)
Lemma set_cells_spec v : forall ps m, (forall p, In p ps -> exists a, at_cell m p a) ->
  exists m', set_cells m ps v = Ok m' /\ map (@length mcell) m' = map (@length mcell) m /\
    forall q b, at_cell m' q b <-> (In q ps /\ b = v) \/ (~ In q ps /\ at_cell m q b).
Proof.
  induction ps as [|p ps IH]; intros m H; cbn [set_cells].
  - exists m. split; [reflexivity|]. split; [reflexivity|]. intros q b. cbn. tauto.
  - destruct (H p (or_introl eq_refl)) as (a & Ha). destruct (set_cell_at m p a v Ha) as (m1 & E1 & H1 & L1). rewrite E1. cbn [bind].
    destruct (IH m1) as (m' & E & L & Hm).
    { intros q Hq. destruct (pos_dec q p) as [->|Hne]; [exists v; apply H1; auto|]. destruct (H q (or_intror Hq)) as (x & Hx). exists x. apply H1. auto. }
    exists m'. split; [exact E|]. split; [congruence|]. intros q b. rewrite Hm, H1. cbn. destruct (pos_dec q p) as [->|Hne]; [|intuition congruence].
    destruct (pmem_dec p ps) as [Hp|Hp]; intuition congruence.
Qed.

Lemma member_cons g gs i q : member (g :: gs) (S i) q <-> member gs i q.
Proof. unfold member. reflexivity. Qed.
Lemma member_0 g gs q : member (g :: gs) 0 q <-> In q g.
Proof. unfold member. cbn. split; [intros (h & E & H); congruence|intros H; eauto]. Qed.

Lemma paint_spec order sol (col : nat -> string) : (forall l, Permutation (order l) l) -> forall gs gid m,
  (forall i p, member gs i p -> exists a, at_cell m p a) ->
  (forall i j p, member gs i p -> member gs j p -> i = j) ->
  (forall i, (gid <= i < gid + length gs)%nat -> dget sol (str_nat i) = Some (col i)) ->
  exists m', paint order sol gid gs m = Ok m' /\ map (@length mcell) m' = map (@length mcell) m /\
    forall q b, at_cell m' q b <-> (exists i, member gs i q /\ b = Some (glabel (gid + i), col (gid + i)%nat)) \/ ((~ exists i, member gs i q) /\ at_cell m q b).
Proof.
  intros Ho. induction gs as [|g gs IH]; intros gid m Hin Hdis Hget; cbn [paint].
  - exists m. split; [reflexivity|]. split; [reflexivity|]. intros q b. split.
    + intros H. right. split; [intros (i & h & E & _); destruct i; discriminate|exact H].
    + intros [(i & (h & E & _) & _)|[_ H]]; [destruct i; discriminate|exact H].
  - rewrite (Hget gid) by (cbn; lia). cbn [bind].
    destruct (set_cells_spec (Some (glabel gid, col gid)) (order g) m) as (m1 & E1 & L1 & H1).
    { intros p Hp. apply (Hin O). apply member_0. apply (Permutation_in _ (Ho g) Hp). }
    rewrite E1. cbn [bind].
    assert (H1' : forall q b, at_cell m1 q b <-> (In q g /\ b = Some (glabel gid, col gid)) \/ (~ In q g /\ at_cell m q b)).
    { intros q b. rewrite H1. assert (Hq : In q (order g) <-> In q g) by (split; apply Permutation_in; [|apply Permutation_sym]; apply Ho). now rewrite Hq. }
    destruct (IH (S gid) m1) as (m' & E & L & Hm).
    { intros i p M. destruct (pmem_dec p g) as [Hg|Hg]; [eexists; apply H1'; left; split; [exact Hg|reflexivity]|].
      destruct (Hin (S i) p) as (a & Ha); [apply member_cons; exact M|]. exists a. apply H1'. auto. }
    { intros i j p M1 M2. specialize (Hdis (S i) (S j) p). assert (S i = S j) by (apply Hdis; apply member_cons; assumption). lia. }
    { intros i Hi. apply Hget. cbn. lia. }
    exists m'. split; [exact E|]. split; [congruence|]. intros q b. rewrite Hm, H1'. split.
    + intros [(i & M & ->)|[Hn [[Hg ->]|[Hg Ha]]]].
      * left. exists (S i). split; [apply member_cons; exact M|]. now rewrite <- plus_n_Sm.
      * left. exists O. split; [apply member_0; exact Hg|]. now rewrite <- plus_n_O.
      * right. split; [|exact Ha]. intros ([|i] & M); [apply member_0 in M; contradiction|]. apply Hn. exists i. exact (proj1 (member_cons _ _ _ _) M).
    + intros [([|i] & M & ->)|[Hn Ha]].
      * apply member_0 in M. right. split; [|left; split; [exact M|now rewrite <- plus_n_O]]. intros (i & Mi).
        assert (S i = O) by (apply (Hdis (S i) O q); [apply member_cons|apply member_0]; assumption). lia.
      * left. exists i. split; [exact (proj1 (member_cons _ _ _ _) M)|]. now rewrite <- plus_n_Sm.
      * right. split; [intros (i & M); apply Hn; exists (S i); apply member_cons; exact M|]. right. split; [|exact Ha].
        intros Hg. apply Hn. exists O. apply member_0. exact Hg.
Qed.

Lemma glabel_of i : glabel i = label_of i.
Proof.
  unfold glabel, label_of. change (length glabels) with 36%nat. assert (H : (i mod 36 < 36)%nat) by (apply Nat.mod_upper_bound; lia).
  set (d := (i mod 36)%nat) in *. cbv zeta.
  assert (A : forallb (fun d => Ascii.eqb (nth d glabels " "%char) (ascii_of_nat (if Nat.ltb d 10 then 48 + d else 55 + d))) (seq 0 36) = true) by (vm_compute; reflexivity).
  rewrite forallb_forall in A. apply Ascii.eqb_eq, A. apply in_seq. lia.
Qed.

(** ** The colourings *)
Lemma str_nat_inj i j : str_nat i = str_nat j -> i = j.
Proof. intros E. apply (name1_inj ""%string). unfold name1. cbn. exact E. Qed.
Lemma map_nodes_In groups u : In u (map_nodes groups) <-> exists i, (i < length groups)%nat /\ u = str_nat i.
Proof.
  unfold map_nodes. rewrite in_map_iff. split; [intros (i & <- & Hi); apply in_seq in Hi; exists i; split; [lia|reflexivity]|].
  intros (i & Hi & ->). exists i. split; [reflexivity|apply in_seq; lia].
Qed.
Lemma map_graph groups : is_graph (map_nodes groups) (map_edges groups).
Proof.
  split.
  - unfold map_nodes. apply FinFun.Injective_map_NoDup; [intros i j; apply str_nat_inj|apply seq_NoDup].
  - intros u v H. unfold map_edges in H. apply in_map_iff in H. destruct H as ((i & j) & E & H). injection E as <- <-.
    apply group_edges_spec in H. destruct H as (_ & p & q & M1 & M2 & _). apply member_lt in M1, M2.
    cbn. split; apply map_nodes_In; eauto.
Qed.

Definition colour_dict (n : nat) (col : nat -> string) : list (string * string) := map (fun i => (str_nat i, col i)) (seq 0 n).
Lemma colour_dict_get n col i : (i < n)%nat -> dget (colour_dict n col) (str_nat i) = Some (col i).
Proof.
  intros H. apply (@dget_NoDup string).
  - unfold names_of, colour_dict. rewrite map_map. apply (FinFun.Injective_map_NoDup (f := str_nat)); [intros a b; apply str_nat_inj|apply seq_NoDup].
  - unfold colour_dict. apply in_map_iff. exists i. split; [reflexivity|apply in_seq; lia].
Qed.
Lemma colour_dict_In n col u c : In (u, c) (colour_dict n col) <-> exists i, (i < n)%nat /\ u = str_nat i /\ c = col i.
Proof.
  unfold colour_dict. rewrite in_map_iff. split.
  - intros (i & E & Hi). injection E as <- <-. apply in_seq in Hi. exists i. repeat split; lia.
  - intros (i & Hi & -> & ->). exists i. split; [reflexivity|apply in_seq; lia].
Qed.
Lemma dict_of_keys (b : list (string * string)) : forall n k, map fst b = map str_nat (seq k n) -> NoDup (map fst b) ->
  b = map (fun i => (str_nat i, dget_or b (str_nat i) ""%string)) (seq k n).
Proof.
  intros n k E Hnd. assert (H : forall b' n k, map fst b' = map str_nat (seq k n) -> (forall x, In x b' -> In x b) ->
    b' = map (fun i => (str_nat i, dget_or b (str_nat i) ""%string)) (seq k n)).
  { clear n k E. induction b' as [|[u c] b' IH]; intros [|n] k E Hi; try discriminate; [reflexivity|]. cbn in E. injection E as -> E. cbn. f_equal.
    - f_equal. unfold dget_or. rewrite (@dget_NoDup string b (str_nat k) c); [reflexivity|exact Hnd|]. apply Hi. now left.
    - apply IH; [exact E|]. intros x Hx. apply Hi. now right. }
  apply H; auto.
Qed.

Section map.
Variables (lines : grid) (groups : list (list point)) (colors : list string) (order : list point -> list point).
Hypothesis Hreg : regions lines groups.
Hypothesis Ho : forall l, Permutation (order l) l.
Let nodes := map_nodes groups.
Let edges := map_edges groups.
Let n := length groups.

Lemma member_cell i p : member groups i p -> exists a, at_cell (blank_map lines) p a.
Proof.
  intros M. destruct Hreg as (H1 & _). destruct (proj2 (H1 p)) as (c & Hc & _); [eauto|]. exists None. apply at_blank. eauto.
Qed.
Lemma region_cell i : (i < n)%nat -> exists p, member groups i p.
Proof. intros Hi. destruct Hreg as (_ & _ & _ & H4). destruct (H4 i Hi) as (p & M & _). eauto. Qed.

Lemma painted col : exists m, paint order (colour_dict n col) 0 groups (blank_map lines) = Ok m /\
  map (@length mcell) m = map (@length ascii) lines /\
  forall q b, at_cell m q b <-> (exists i, member groups i q /\ b = Some (label_of i, col i)) \/
    ((~ exists i, member groups i q) /\ b = None /\ exists c, at_cell lines q c).
Proof.
  destruct (paint_spec order (colour_dict n col) col Ho groups 0 (blank_map lines) member_cell) as (m & E & L & H).
  - apply Hreg.
  - intros i Hi. apply colour_dict_get. exact (proj2 Hi).
  - exists m. split; [exact E|]. split; [rewrite L; apply blank_length|]. intros q b. rewrite H, at_blank.
    assert (F : forall i, Some (glabel (0 + i), col (0 + i)%nat) = Some (label_of i, col i)) by (intros i; change (0 + i)%nat with i; now rewrite glabel_of).
    split; (intros [(i & M & ->)|Hr]; [left; exists i; split; [exact M|]; rewrite ?F; reflexivity|right; exact Hr]).
Qed.

Lemma proper_dict b : proper_colouring nodes edges colors b <->
  exists col, b = colour_dict n col /\ (forall i, (i < n)%nat -> In (col i) colors) /\ (forall i j, i <> j -> touching groups i j -> col i <> col j).
Proof.
  split.
  - intros (E & Hc & He). set (col := fun i => dget_or b (str_nat i) ""%string). exists col.
    assert (Eb : b = colour_dict n col).
    { apply dict_of_keys; [exact E|]. rewrite E. apply map_graph. }
    assert (Hin : forall i, (i < n)%nat -> In (str_nat i, col i) b) by (intros i Hi; rewrite Eb; apply colour_dict_In; eauto).
    split; [exact Eb|]. split; [intros i Hi; apply (Hc (str_nat i)), Hin, Hi|].
    assert (Hlt : forall i j, (i < j)%nat -> touching groups i j -> col i <> col j).
    { intros i j Hij Ht. pose proof Ht as (p & q & M1 & M2 & _). apply member_lt in M1, M2. apply (He (str_nat i) (str_nat j)); [|now apply Hin|now apply Hin].
      unfold edges, map_edges. apply in_map_iff. exists (i, j). split; [reflexivity|]. apply group_edges_spec. auto. }
    intros i j Hne Ht. destruct (Nat.lt_ge_cases i j) as [L|L]; [now apply Hlt|]. apply not_eq_sym, Hlt; [lia|].
    destruct Ht as (p & q & M1 & M2 & Hn). exists q, p. split; [exact M2|]. split; [exact M1|now apply near_sym].
  - intros (col & -> & Hc & Hd). split; [unfold colour_dict; rewrite map_map; reflexivity|]. split.
    + intros u l H. apply colour_dict_In in H. destruct H as (i & Hi & -> & ->). now apply Hc.
    + intros u v l l' H H1 H2. apply colour_dict_In in H1, H2. destruct H1 as (i & Hi & -> & ->), H2 as (j & Hj & -> & ->).
      unfold edges, map_edges in H. apply in_map_iff in H. destruct H as ((i' & j') & E & H). injection E as E1 E2. cbn in E1, E2. apply str_nat_inj in E1, E2. subst i' j'.
      apply group_edges_spec in H. destruct H as [Hlt Ht]. apply Hd; [lia|exact Ht].
Qed.

Lemma painted_ok col m : (forall i, (i < n)%nat -> In (col i) colors) -> (forall i j, i <> j -> touching groups i j -> col i <> col j) ->
  paint order (colour_dict n col) 0 groups (blank_map lines) = Ok m -> map_colouring lines groups colors m.
Proof.
  intros Hc Hd E. destruct (painted col) as (m' & E' & L & H). rewrite E in E'. injection E' as <-. exists col.
  split; [exact Hc|]. split; [exact Hd|]. split; [exact L|]. split.
  - intros i p M. apply H. left. eauto.
  - intros p a Ha. apply H in Ha. destruct Ha as [(i & M & _)|(_ & Ha & _)]; [eauto|discriminate].
Qed.

Lemma cells_of_length {A B} (m : list (list A)) (l : list (list B)) p : map (@length A) m = map (@length B) l -> (exists a, at_cell m p a) -> exists b, at_cell l p b.
Proof.
  intros E (a & row & H1 & H2 & E1 & E2). pose proof (f_equal (fun x => nth_error x (Z.to_nat (fst p))) E) as Hi. cbn in Hi. rewrite !nth_error_map, E1 in Hi.
  destruct (nth_error l (Z.to_nat (fst p))) as [r|] eqn:Er; [|discriminate]. cbn in Hi. injection Hi as Hi.
  destruct (nth_error r (Z.to_nat (snd p))) as [b|] eqn:Eb; [exists b, r; auto|]. apply nth_error_None in Eb.
  assert ((Z.to_nat (snd p) < length row)%nat) by (apply nth_error_Some; congruence). lia.
Qed.

Lemma drawing_unique col m m' :
  map (@length mcell) m = map (@length ascii) lines -> (forall i p, member groups i p -> at_cell m p (Some (label_of i, col i))) ->
  (forall p a, at_cell m p (Some a) -> exists i, member groups i p) ->
  paint order (colour_dict n col) 0 groups (blank_map lines) = Ok m' -> m = m'.
Proof.
  intros L H1 H2 E. destruct (painted col) as (m1 & E' & L' & H). rewrite E in E'. injection E' as <-. apply grid_ext; [congruence|].
  intros p a Ha. apply H. destruct (member_dec groups p) as [(i & M)|Hn].
  - left. exists i. split; [exact M|]. exact (at_cell_fun m p a _ Ha (H1 i p M)).
  - right. split; [exact Hn|]. split; [destruct a as [a|]; [exfalso; apply Hn; exact (H2 p a Ha)|reflexivity]|].
    apply (cells_of_length m lines p L). eauto.
Qed.

Lemma map_exact clk shuffle o : groups <> [] -> NoDup colors -> shuffles shuffle ->
  exactly (fun fuel => map_run (fun sol => paint order sol 0 groups (blank_map lines)) (graph_run clk shuffle fuel nodes edges colors o))
    (map_colouring lines groups colors) (o_timeout o) (o_limit o).
Proof.
  intros Hg Hc Hs.
  apply (exactly_map _ (fun fuel => graph_run clk shuffle fuel nodes edges colors o) (proper_colouring nodes edges colors)).
  - intros b Hb. apply proper_dict in Hb. destruct Hb as (col & -> & Hc' & Hd). destruct (painted col) as (m & E & _). exists m.
    split; [exact E|]. exact (painted_ok col m Hc' Hd E).
  - intros b b' m Hb Hb' E E'. apply proper_dict in Hb, Hb'. destruct Hb as (col & -> & _), Hb' as (col' & -> & _).
    destruct (painted col) as (m1 & E1 & _ & H1). rewrite E in E1. injection E1 as <-.
    destruct (painted col') as (m2 & E2 & _ & H2). rewrite E' in E2. injection E2 as <-.
    apply map_ext_in. intros i Hi. apply in_seq in Hi. destruct (region_cell i ltac:(lia)) as (p & M). f_equal.
    assert (Ha : at_cell m p (Some (label_of i, col i))) by (apply H1; left; eauto).
    assert (Hb : at_cell m p (Some (label_of i, col' i))) by (apply H2; left; eauto).
    pose proof (at_cell_fun m p _ _ Ha Hb) as E0. congruence.
  - intros m (col & Hc' & Hd & L & H1 & H2). exists (colour_dict n col). split; [apply proper_dict; eauto|].
    destruct (painted col) as (m' & E & _). rewrite (drawing_unique col m m' L H1 H2 E). exact E.
  - apply (graph_exact nodes edges colors (map_graph groups) clk shuffle o); [|exact Hc|exact Hs].
    unfold nodes, map_nodes. destruct groups; [contradiction|discriminate].
Qed.
End map.

Lemma map_colouring_iff lines g1 g2 colors m : regions lines g1 -> regions lines g2 -> map_colouring lines g1 colors m -> map_colouring lines g2 colors m.
Proof.
  intros R1 R2 (col & Hc & Hd & L & H1 & H2). pose proof (regions_unique lines g1 g2 R1 R2) as Hu. exists col.
  split; [|split; [|split; [exact L|split]]].
  - intros i Hi. destruct R2 as (_ & _ & _ & R4). destruct (R4 i Hi) as (p & M & _). apply Hc. apply Hu in M. exact (member_lt _ _ _ M).
  - intros i j Hne (p & q & M1 & M2 & Hn). apply Hd; [exact Hne|]. exists p, q. rewrite (Hu i), (Hu j). auto.
  - intros i p M. apply H1. now apply Hu.
  - intros p a Ha. destruct (H2 p a Ha) as (i & M). exists i. now apply Hu.
Qed.

Lemma ascii_exact clk shuffle order lines groups colors o gfuel : regions lines groups -> groups <> [] -> NoDup colors ->
  shuffles shuffle -> (forall l, Permutation (order l) l) -> (length (concat lines) < gfuel)%nat ->
  exactly (fun fuel => ascii_run clk shuffle fuel gfuel order lines colors o) (map_colouring lines groups colors)
    (o_timeout o) (match o_limit o with LNone => Solver.LNum 1 | l => l end).
Proof.
  intros Hreg Hne Hc Hs Ho Hf.
  assert (Hl : lines <> []).
  { intros ->. destruct groups as [|g gs]; [contradiction|]. destruct Hreg as (H1 & _ & _ & H4). destruct (H4 O) as (p & M & _); [cbn; lia|].
    destruct (proj2 (H1 p)) as (c & (row & _ & _ & E & _) & _); [eauto|]. destruct (Z.to_nat (fst p)); discriminate. }
  destruct (regions_found lines order gfuel Hl Ho Hf) as (gs & E & Hgs).
  apply (exactly_iff _ (map_colouring lines gs colors)).
  { intros m. split; apply map_colouring_iff; assumption. }
  assert (Hgs' : gs <> []).
  { intros ->. destruct groups as [|g gs0]; [contradiction|]. destruct Hreg as (H1 & _ & _ & H4). destruct (H4 O) as (p & M & _); [cbn; lia|].
    destruct Hgs as (G1 & _). destruct (proj1 (G1 p)) as (i & h & F & _); [apply H1; eauto|]. destruct i; discriminate. }
  pose proof (map_exact lines gs colors order Hgs Ho clk shuffle (ascii_options o) Hgs' Hc Hs) as H.
  unfold ascii_run. rewrite E. exact H.
Qed.

(** ** Maps given as strings *)
Lemma split_lines_of s : lines_of s (split_lines s).
Proof.
  induction s as [|c s IH]; [split; [reflexivity|]; split; [discriminate|]; intros l [<-|[]]; intros []|].
  destruct IH as (E & Hne & Hn). cbn [split_lines]. destruct (Ascii.eqb_spec c newline) as [->|Hc].
  - split; [|split; [discriminate|]].
    + destruct (split_lines s) as [|l ls]; [contradiction|]. cbn [map String.concat string_of_list_ascii]. rewrite E at 1. reflexivity.
    + intros l [<-|Hl]; [intros []|now apply Hn].
  - destruct (split_lines s) as [|l ls]; [contradiction|]. split; [|split; [discriminate|]].
    + rewrite E at 1. cbn [map string_of_list_ascii]. destruct ls; reflexivity.
    + intros l' [<-|Hl]; [|apply Hn; now right]. intros [F|F]; [apply Hc; exact F|exact (Hn l (or_introl eq_refl) F)].
Qed.

Lemma regions_edges lines order gfuel : lines <> [] -> (forall l, Permutation (order l) l) -> (length (concat lines) < gfuel)%nat ->
  exists groups, ascii_groups gfuel order lines = Some (Ok groups) /\ regions lines groups /\ region_edges groups (group_edges groups).
Proof.
  intros H1 H2 H3. destruct (regions_found lines order gfuel H1 H2 H3) as (groups & E & R). exists groups.
  split; [exact E|]. split; [exact R|apply group_edges_spec].
Qed.
