(** The search of the groups finds the regions of the map, in reading order. *)
From Verif Require Import AsciiMap SpecAscii AsciiCells NameFacts.
From Coq Require Import Ascii Relations Permutation Sorting.Sorted Lia.
Open Scope list_scope.
Open Scope Z_scope.

Lemma before_irrefl p : ~ before p p. Proof. unfold before. lia. Qed.
Lemma before_trans p q r : before p q -> before q r -> before p r. Proof. unfold before. lia. Qed.

Lemma product_In r0 n c p : 0 <= r0 -> (In p (product r0 n c) <-> r0 <= fst p < n /\ 0 <= snd p < c).
Proof.
  intros H. unfold product. rewrite in_flat_map. destruct p as [a b]. cbn. split.
  - intros (r & Hr & Hp). apply in_map_iff in Hp. destruct Hp as (x & E & Hx). injection E as -> ->. apply zrange_In in Hr, Hx. lia.
  - intros [H1 H2]. exists a. split; [apply zrange_In; lia|]. apply in_map_iff. exists b. split; [reflexivity|apply zrange_In; lia].
Qed.

Lemma zrange_sorted lo hi : StronglySorted Z.lt (zrange lo hi).
Proof.
  unfold zrange. set (n := Z.to_nat (hi - lo)). assert (H : forall n k, StronglySorted Z.lt (map (fun i => lo + Z.of_nat i) (seq k n))).
  { clear n. induction n as [|n IH]; intros k; cbn; constructor; [apply IH|]. apply Forall_forall. intros x Hx. apply in_map_iff in Hx.
    destruct Hx as (i & <- & Hi). apply in_seq in Hi. lia. }
  apply H.
Qed.
Lemma sorted_app {A} (R : A -> A -> Prop) l l' : StronglySorted R l -> StronglySorted R l' -> (forall x y, In x l -> In y l' -> R x y) -> StronglySorted R (l ++ l').
Proof.
  induction l as [|a l IH]; intros H H' Hx; [exact H'|]. inversion H; subst. cbn. constructor.
  - apply IH; auto. intros x y Hx' Hy. apply Hx; [now right|exact Hy].
  - apply Forall_app. split; [assumption|]. apply Forall_forall. intros y Hy. apply Hx; [now left|exact Hy].
Qed.
Lemma sorted_map_c r l : StronglySorted Z.lt l -> StronglySorted before (map (fun c => (r, c)) l).
Proof.
  induction 1 as [|a l H IH HF]; cbn; constructor; [exact IH|]. rewrite Forall_forall in *. intros y Hy. apply in_map_iff in Hy.
  destruct Hy as (x & <- & Hx). right. cbn. split; [reflexivity|]. now apply HF.
Qed.
Lemma product_sorted r0 n c : StronglySorted before (product r0 n c).
Proof.
  unfold product. assert (H : forall l, StronglySorted Z.lt l -> StronglySorted before (flat_map (fun r => map (fun c => (r, c)) (zrange 0 c)) l)).
  { induction 1 as [|a l H IH HF]; cbn; [constructor|]. apply sorted_app; [apply sorted_map_c, zrange_sorted|exact IH|].
    intros x y Hx Hy. apply in_map_iff in Hx. destruct Hx as (cx & <- & _). apply in_flat_map in Hy. destruct Hy as (r & Hr & Hy).
    apply in_map_iff in Hy. destruct Hy as (cy & <- & _). left. cbn. rewrite Forall_forall in HF. now apply HF. }
  apply H, zrange_sorted.
Qed.
Lemma sorted_split {A} (R : A -> A -> Prop) l1 p l2 : StronglySorted R (l1 ++ p :: l2) -> forall q, In q l2 -> R p q.
Proof.
  induction l1 as [|a l1 IH]; intros H q Hq; inversion H; subst; [|now apply IH]. rewrite Forall_forall in *. auto.
Qed.

Lemma find_spec rows : forall ps, (forall p, In p ps -> exists a, at_cell rows p a) ->
  (find_cell rows ps = Ok None /\ forall p a, In p ps -> at_cell rows p a -> is_land a = false) \/
  exists l1 p l2 v, ps = l1 ++ p :: l2 /\ find_cell rows ps = Ok (Some (p, v)) /\ at_cell rows p v /\ is_land v = true /\
    forall q a, In q l1 -> at_cell rows q a -> is_land a = false.
Proof.
  induction ps as [|p ps IH]; intros H; cbn [find_cell]; [left; split; [reflexivity|intros p a []]|].
  destruct (H p (or_introl eq_refl)) as (v & Hv). rewrite (get_cell_at _ _ _ Hv). cbn [bind].
  destruct (Ascii.eqb v " " || Ascii.eqb v ".")%bool eqn:E.
  - assert (Hn : is_land v = false) by (unfold is_land; rewrite E; reflexivity).
    destruct (IH (fun q Hq => H q (or_intror Hq))) as [[E1 H1]|(l1 & q & l2 & w & -> & E1 & H1 & H2 & H3)].
    + left. split; [exact E1|]. intros q a [<-|Hq] Ha; [rewrite (at_cell_fun _ _ _ _ Ha Hv); exact Hn|]. now apply (H1 q).
    + right. exists (p :: l1), q, l2, w. split; [reflexivity|]. split; [exact E1|]. split; [exact H1|]. split; [exact H2|].
      intros x a [<-|Hx] Ha; [rewrite (at_cell_fun _ _ _ _ Ha Hv); exact Hn|]. now apply (H3 x).
  - right. exists [], p, ps, v. split; [reflexivity|]. split; [reflexivity|]. split; [exact Hv|]. split; [unfold is_land; now rewrite E|]. intros q a [].
Qed.

Lemma member_app groups g i p : member (groups ++ [g]) i p <-> member groups i p \/ (i = length groups /\ In p g).
Proof.
  unfold member. split.
  - intros (h & E & Hp). destruct (Nat.lt_ge_cases i (length groups)) as [L|L].
    + rewrite nth_error_app1 in E by exact L. left. eauto.
    + rewrite nth_error_app2 in E by exact L. destruct (i - length groups)%nat as [|k] eqn:D; [|destruct k; discriminate].
      injection E as <-. right. split; [lia|exact Hp].
  - intros [(h & E & Hp)|[-> Hp]].
    + exists h. split; [|exact Hp]. rewrite nth_error_app1; [exact E|]. apply nth_error_Some. congruence.
    + exists g. rewrite nth_error_app2, Nat.sub_diag by lia. split; [reflexivity|exact Hp].
Qed.
Lemma member_lt groups i p : member groups i p -> (i < length groups)%nat.
Proof. intros (g & E & _). apply nth_error_Some. congruence. Qed.

Section loop.
Variables (R : grid) (limits : Z * Z) (order : list point -> list point).
Hypothesis Hfull : forall p, inb limits p <-> exists a, at_cell R p a.
Hypothesis Horder : forall l, Permutation (order l) l.

Record GInv (r0 : Z) (rows : grid) (groups : list (list (Z * Z))) : Prop := {
  g_rows : forall q b, at_cell rows q b <-> ((exists i, member groups i q) /\ b = "."%char) \/ ((~ exists i, member groups i q) /\ at_cell R q b);
  g_start : 0 <= r0 /\ forall q a, at_cell rows q a -> is_land a = true -> r0 <= fst q;
  g_land : forall i p, member groups i p -> exists c, land R p c;
  g_region : forall i p q, member groups i p -> (member groups i q <-> same_region R p q);
  g_disj : forall i j p, member groups i p -> member groups j p -> i = j;
  g_first : forall i, (i < length groups)%nat -> exists p, member groups i p /\
    (forall j q, (i < j)%nat -> member groups j q -> before p q) /\ (forall q a, at_cell rows q a -> is_land a = true -> before p q)
}.

Lemma land_iff rows p c : at_cell rows p c -> is_land c = true -> land rows p c.
Proof. intros H1 H2. apply is_land_spec in H2. split; assumption. Qed.
Lemma land_char rows p c : land rows p c -> at_cell rows p c /\ is_land c = true.
Proof. intros (H1 & H2 & H3). split; [exact H1|]. now apply is_land_spec. Qed.

Lemma same_region_land p q : same_region R p q -> exists c, land R p c /\ land R q c.
Proof. intros (c & Hp & H). exists c. split; [exact Hp|]. apply clos_rt_rtn1 in H. induction H; tauto. Qed.
Lemma same_region_sym p q : same_region R p q -> same_region R q p.
Proof.
  intros (c & Hp & H). exists c. split.
  - apply clos_rt_rtn1 in H. destruct H; tauto.
  - apply clos_rt_rt1n in H. induction H as [|x y z [Hy Hn] _ IH]; [apply rt_refl|]. apply rt_trans with y; [apply IH; exact Hy|]. apply rt_step. split; [exact Hp|now apply near_sym].
Qed.
Lemma same_region_trans p q r : same_region R p q -> same_region R q r -> same_region R p r.
Proof.
  intros Hpq (c' & Hq & Hr). destruct (same_region_land p q Hpq) as (d & Hd1 & Hd2). destruct Hpq as (c & Hp & H).
  exists c. split; [exact Hp|]. assert (d = c) by (apply (at_cell_fun R p); [apply Hd1|apply Hp]). subst d.
  assert (c' = c) by (apply (at_cell_fun R q); [apply Hq|apply Hd2]). subst c'. now apply rt_trans with q.
Qed.

Lemma member_dec groups p : (exists i, member groups i p) \/ ~ exists i, member groups i p.
Proof.
  induction groups as [|g groups IH] using rev_ind; [right; intros (i & h & E & _); destruct i; discriminate|].
  destruct IH as [(i & H)|H]; [left; exists i; apply member_app; now left|]. destruct (pmem_dec p g) as [Hg|Hg].
  - left. exists (length groups). apply member_app. auto.
  - right. intros (i & Hi). apply member_app in Hi. destruct Hi as [Hi|[_ Hi]]; [apply H; eauto|contradiction].
Qed.

Lemma step_inv r0 rows groups l1 p l2 v fuel : GInv r0 rows groups -> product r0 (fst limits) (snd limits) = l1 ++ p :: l2 ->
  at_cell rows p v -> is_land v = true -> (forall q a, In q l1 -> at_cell rows q a -> is_land a = false) -> (lands rows < fuel)%nat ->
  exists rows' G, search fuel order v limits [p] rows [] = Some (Ok (rows', G)) /\ GInv (fst p) rows' (groups ++ [G]) /\ (lands rows' < lands rows)%nat.
Proof.
  intros [Hrows [H0 Hst] Hla Hreg Hdis Hfi] Hprod Hp Hv Hl1 Hf.
  assert (Hfull' : forall q, inb limits q <-> exists a, at_cell rows q a).
  { intros q. rewrite Hfull. split.
    - intros (a & Ha). destruct (member_dec groups q) as [M|M]; [exists "."%char; apply Hrows; auto|exists a; apply Hrows; auto].
    - intros (a & Ha). apply Hrows in Ha. destruct Ha as [[(i & M) _]|[_ Ha]]; [|eauto]. destruct (Hla i q M) as (c & Hc & _). eauto. }
  destruct (search_spec rows v limits p Hfull' Hv Hp order Horder fuel Hf) as (rows' & G & E & HG & Hr' & Hlen & Hlt).
  exists rows', G. split; [exact E|]. split; [|exact Hlt].
  assert (Hvd : v <> "."%char) by (apply is_land_spec in Hv; tauto).
  assert (Hout : forall q, at_cell rows q v -> (~ exists i, member groups i q) /\ at_cell R q v).
  { intros q Hq. apply Hrows in Hq. destruct Hq as [[_ Hc]|Hq]; [congruence|exact Hq]. }
  assert (HpR : land R p v) by (apply land_iff; [apply (Hout p Hp)|exact Hv]).
  assert (HGr : forall q, In q G <-> same_region R p q).
  { intros q. rewrite HG. split.
    - intros Hq. exists v. split; [exact HpR|]. unfold conn in Hq. apply clos_rt_rtn1 in Hq. apply clos_rtn1_rt.
      induction Hq as [|y z [Hz Hn] _ IH]; [constructor|]. econstructor; [|exact IH]. split; [|exact Hn]. apply land_iff; [apply (Hout z Hz)|exact Hv].
    - intros (c & Hc & Hq). assert (c = v) by (apply (at_cell_fun R p); [apply Hc|apply HpR]). subst c. unfold conn. apply clos_rt_rtn1 in Hq.
      assert (HH : (~ exists i, member groups i q) /\ clos_refl_trans _ (fun x y => at_cell rows y v /\ near x y) p q); [|apply HH].
      induction Hq as [|y z [Hz Hn] Hyz [IH1 IH2]]; [split; [apply (Hout p Hp)|apply rt_refl]|].
      assert (Hzo : ~ exists i, member groups i z).
      { intros (i & M). apply IH1. exists i. apply (Hreg i z y M). exists v. split; [exact Hz|]. apply rt_step. split; [|now apply near_sym].
        destruct Hyz as [|y' z' [Hy' _] _]; [exact HpR|exact Hy']. }
      split; [exact Hzo|]. apply rt_trans with y; [exact IH2|]. apply rt_step. split; [|exact Hn]. apply Hrows. right. split; [exact Hzo|]. apply Hz. }
  assert (HGl : forall q, In q G -> at_cell rows q v).
  { intros q Hq. apply HG in Hq. now apply (conn_value rows v p Hp). }
  assert (Hafter : forall q a, at_cell rows q a -> is_land a = true -> q = p \/ before p q).
  { intros q a Ha Hl. assert (Hq : In q (product r0 (fst limits) (snd limits))).
    { apply product_In; [exact H0|]. assert (inb limits q) by (apply Hfull'; eauto). unfold inb in *. pose proof (Hst q a Ha Hl). lia. }
    pose proof (product_sorted r0 (fst limits) (snd limits)) as Hs. rewrite Hprod in Hq, Hs. apply in_app_iff in Hq. destruct Hq as [Hq|[->|Hq]].
    - rewrite (Hl1 q a Hq Ha) in Hl. discriminate.
    - now left.
    - right. exact (sorted_split _ _ _ _ Hs q Hq). }
  assert (Hland' : forall q a, at_cell rows' q a -> is_land a = true -> at_cell rows q a /\ ~ In q G).
  { intros q a Ha Hl. apply Hr' in Ha. destruct Ha as [[_ ->]|[H1 H2]]; [discriminate|auto]. }
  assert (HpG : In p G) by (apply HG; apply rt_refl).
  split.
  - intros q b. rewrite Hr'. split.
    + intros [[Hq ->]|[Hq Hb]]; [left; split; [exists (length groups); apply member_app; auto|reflexivity]|].
      apply Hrows in Hb. destruct Hb as [[(i & M) ->]|[Hn Hb]]; [left; split; [exists i; apply member_app; auto|reflexivity]|].
      right. split; [|exact Hb]. intros (i & M). apply member_app in M. destruct M as [M|[_ M]]; [apply Hn; eauto|contradiction].
    + intros [[(i & M) ->]|[Hn Hb]].
      * apply member_app in M. destruct M as [M|[_ M]]; [|now left]. destruct (pmem_dec q G) as [Hq|Hq]; [now left|]. right. split; [exact Hq|].
        apply Hrows. left. eauto.
      * right. split; [intros Hq; apply Hn; exists (length groups); apply member_app; auto|]. apply Hrows. right. split; [|exact Hb].
        intros (i & M). apply Hn. exists i. apply member_app. now left.
  - split; [|intros q a Ha Hl; destruct (Hland' q a Ha Hl) as [Hb _]; destruct (Hafter q a Hb Hl) as [->|Hbf]; [lia|unfold before in Hbf; lia]].
    assert (inb limits p) by (apply Hfull'; eauto). unfold inb in *. lia.
  - intros i q M. apply member_app in M. destruct M as [M|[_ M]]; [now apply (Hla i)|]. exists v. apply land_iff; [apply (Hout q (HGl q M))|exact Hv].
  - intros i q q' M. apply member_app in M. destruct M as [M|[-> M]].
    + rewrite <- (Hreg i q q' M), member_app. split; [|tauto]. intros [C|[-> _]]; [exact C|]. apply member_lt in M. lia.
    + rewrite member_app. apply HGr in M. split.
      * intros [C|[_ C]]; [apply member_lt in C; lia|]. apply HGr in C. apply same_region_trans with p; [now apply same_region_sym|exact C].
      * intros C. right. split; [reflexivity|]. apply HGr. now apply same_region_trans with q.
  - intros i j q M1 M2. apply member_app in M1, M2. destruct M1 as [M1|[-> M1]], M2 as [M2|[-> M2]]; [now apply (Hdis i j q)| | |reflexivity].
    + exfalso. apply (proj1 (Hout q (HGl q M2))). eauto.
    + exfalso. apply (proj1 (Hout q (HGl q M1))). eauto.
  - intros i Hi. rewrite app_length in Hi. cbn in Hi. destruct (Nat.eq_dec i (length groups)) as [->|Hne].
    + exists p. split; [apply member_app; auto|]. split.
      * intros j q Hj M. apply member_app in M. destruct M as [M|[-> _]]; [apply member_lt in M; lia|lia].
      * intros q a Ha Hl. destruct (Hland' q a Ha Hl) as [Hb Hq]. destruct (Hafter q a Hb Hl) as [->|Hbf]; [contradiction|exact Hbf].
    + destruct (Hfi i ltac:(lia)) as (x & M & H1 & H2). exists x. split; [apply member_app; now left|]. split.
      * intros j q Hj Mq. apply member_app in Mq. destruct Mq as [Mq|[-> Mq]]; [now apply (H1 j)|]. apply (H2 q v); [exact (HGl q Mq)|exact Hv].
      * intros q a Ha Hl. apply (H2 q a); [apply (Hland' q a Ha Hl)|exact Hl].
Qed.

Lemma loop_spec fuel : forall n r0 rows groups, GInv r0 rows groups -> (lands rows < n)%nat -> (lands rows < fuel)%nat ->
  exists groups', groups_loop n fuel order limits r0 rows groups = Some (Ok groups') /\ regions R groups'.
Proof.
  induction n as [|n IH]; intros r0 rows groups H Hn Hf; [lia|]. cbn [groups_loop].
  assert (Hps : forall p, In p (product r0 (fst limits) (snd limits)) -> exists a, at_cell rows p a).
  { intros p Hp. apply product_In in Hp; [|apply (g_start _ _ _ H)]. pose proof (proj1 (g_start _ _ _ H)).
    destruct (proj1 (Hfull p)) as (a & Ha); [unfold inb; lia|].
    destruct (member_dec groups p) as [M|M]; [exists "."%char|exists a]; apply (g_rows _ _ _ H); auto. }
  destruct (find_spec rows _ Hps) as [[E Hno]|(l1 & p & l2 & v & E1 & E & Hp & Hv & Hl1)]; rewrite E.
  - exists groups. split; [reflexivity|]. destruct H as [Hrows [H0 Hst] Hla Hreg Hdis Hfi]. split; [|split; [exact Hreg|split; [exact Hdis|]]].
    + intros p. split; [|intros (i & M); exact (Hla i p M)]. intros (c & Hc). apply land_char in Hc. destruct Hc as [Hc Hl].
      destruct (member_dec groups p) as [M|M]; [exact M|]. exfalso.
      assert (Ha : at_cell rows p c) by (apply Hrows; auto).
      rewrite (Hno p c) in Hl; [discriminate| |exact Ha]. apply product_In; [exact H0|]. pose proof (Hst p c Ha Hl).
      assert (inb limits p) by (apply Hfull; eauto). unfold inb in *. lia.
    + intros i Hi. destruct (Hfi i Hi) as (x & M & H1 & _). eauto.
  - destruct (step_inv r0 rows groups l1 p l2 v fuel H E1 Hp Hv Hl1 Hf) as (rows' & G & Es & H' & Hlt). rewrite Es.
    apply IH; [exact H'|lia|lia].
Qed.
End loop.

(** ** The padded rows *)
Lemma max_acc l : forall a, (a <= fold_left Nat.max l a)%nat /\ forall x, In x l -> (x <= fold_left Nat.max l a)%nat.
Proof.
  induction l as [|y l IH]; intros a; cbn; [split; [lia|tauto]|]. destruct (IH (Nat.max a y)) as [H1 H2]. split; [lia|].
  intros x [->|Hx]; [lia|now apply H2].
Qed.
Definition pad (n : nat) (row : list ascii) : list ascii := row ++ repeat " "%char (n - length row).
Lemma at_pad n lines p c : at_cell (map (pad n) lines) p c -> at_cell lines p c \/ c = " "%char.
Proof.
  intros (row & H1 & H2 & E1 & E2). rewrite nth_error_map in E1. destruct (nth_error lines (Z.to_nat (fst p))) as [r|] eqn:E; [|discriminate].
  injection E1 as <-. unfold pad in E2. destruct (Nat.lt_ge_cases (Z.to_nat (snd p)) (length r)) as [L|L].
  - rewrite nth_error_app1 in E2 by exact L. left. exists r. auto.
  - rewrite nth_error_app2 in E2 by exact L. right. apply nth_error_In in E2. now apply repeat_spec in E2.
Qed.
Lemma pad_at n lines p c : at_cell lines p c -> at_cell (map (pad n) lines) p c.
Proof.
  intros (row & H1 & H2 & E1 & E2). exists (pad n row). split; [exact H1|]. split; [exact H2|]. split; [rewrite nth_error_map, E1; reflexivity|].
  unfold pad. rewrite nth_error_app1; [exact E2|]. apply nth_error_Some. congruence.
Qed.
Lemma land_pad n lines p c : land (map (pad n) lines) p c <-> land lines p c.
Proof.
  split; intros (H1 & H2 & H3); (split; [|auto]); [|now apply pad_at]. destruct (at_pad n lines p c H1); [assumption|contradiction].
Qed.
Lemma region_pad n lines p q : same_region (map (pad n) lines) p q <-> same_region lines p q.
Proof.
  split; intros (c & Hp & H); exists c; (split; [now apply (land_pad n)|]); apply clos_rt_rtn1 in H; apply clos_rtn1_rt;
    (induction H as [|y z [Hy Hn] _ IH]; [constructor|econstructor; [split; [apply (land_pad n); exact Hy|exact Hn]|exact IH]]).
Qed.
Lemma pad_full n lines : (forall r, In r lines -> (length r <= n)%nat) -> forall p,
  inb (Z.of_nat (length lines), Z.of_nat n) p <-> exists a, at_cell (map (pad n) lines) p a.
Proof.
  intros H p. unfold inb, at_cell. cbn [fst snd]. split.
  - intros [[H1 H2] [H3 H4]]. destruct (nth_error lines (Z.to_nat (fst p))) as [r|] eqn:E; [|apply nth_error_None in E; lia].
    assert (Hr : (length r <= n)%nat) by (apply H; eapply nth_error_In; exact E).
    destruct (nth_error (pad n r) (Z.to_nat (snd p))) as [a|] eqn:E2.
    + exists a, (pad n r). rewrite nth_error_map, E. auto.
    + apply nth_error_None in E2. unfold pad in E2. rewrite app_length, repeat_length in E2. lia.
  - intros (a & row & H1 & H2 & E1 & E2). rewrite nth_error_map in E1. destruct (nth_error lines (Z.to_nat (fst p))) as [r|] eqn:E; [|discriminate].
    injection E1 as <-. assert (L1 : (Z.to_nat (fst p) < length lines)%nat) by (apply nth_error_Some; congruence).
    assert (L2 : (Z.to_nat (snd p) < length (pad n r))%nat) by (apply nth_error_Some; congruence).
    assert (Hr : (length r <= n)%nat) by (apply H; eapply nth_error_In; exact E).
    unfold pad in L2. rewrite app_length, repeat_length in L2. lia.
Qed.
Lemma filter_spaces k : filter is_land (repeat " "%char k) = [].
Proof. induction k; cbn; [reflexivity|exact IHk]. Qed.
Lemma filter_len {A} (f : A -> bool) (l : list A) : (length (filter f l) <= length l)%nat.
Proof. induction l as [|a l IH]; cbn; [lia|]. destruct (f a); cbn; lia. Qed.
Lemma lands_pad n lines : (lands (map (pad n) lines) <= length (concat lines))%nat.
Proof.
  induction lines as [|r lines IH]; [cbn; lia|]. cbn [map concat]. rewrite lands_cons, app_length.
  assert (E : (rlands (pad n r) <= length r)%nat) by (unfold rlands, pad; rewrite filter_app, filter_spaces, app_nil_r; apply filter_len). lia.
Qed.

Lemma regions_found lines order fuel : lines <> [] -> (forall l, Permutation (order l) l) -> (length (concat lines) < fuel)%nat ->
  exists groups, ascii_groups fuel order lines = Some (Ok groups) /\ regions lines groups.
Proof.
  intros Hne Ho Hf. destruct lines as [|l0 ls] eqn:El; [contradiction|]. rewrite <- El in *. unfold ascii_groups.
  replace (match lines with [] => Some (Err ValueError) | _ => _ end) with
    (let n := fold_left Nat.max (map (@length ascii) lines) O in
     groups_loop fuel fuel order (Z.of_nat (length (map (pad n) lines)), Z.of_nat n) 0 (map (pad n) lines) []) by (rewrite El; reflexivity).
  cbv zeta. set (n := fold_left Nat.max (map (@length ascii) lines) O).
  assert (Hn : forall r, In r lines -> (length r <= n)%nat) by (intros r Hr; apply (max_acc (map (@length ascii) lines) O), in_map, Hr).
  rewrite map_length. set (R := map (pad n) lines).
  assert (HI : GInv R 0 R []).
  { split.
    - intros q b. split; [intros H; right; split; [intros (i & h & E & _); destruct i; discriminate|exact H]|].
      intros [[(i & h & E & _) _]|[_ H]]; [destruct i; discriminate|exact H].
    - split; [lia|]. intros q a (row & H & _) _. exact H.
    - intros i p (h & E & _). destruct i; discriminate.
    - intros i p q (h & E & _). destruct i; discriminate.
    - intros i j p (h & E & _). destruct i; discriminate.
    - intros i Hi. cbn in Hi. lia. }
  pose proof (lands_pad n lines) as Hl. fold R in Hl.
  destruct (loop_spec R (Z.of_nat (length lines), Z.of_nat n) order (pad_full n lines Hn) Ho fuel fuel 0 R [] HI ltac:(lia) ltac:(lia)) as (groups & E & Hr).
  exists groups. split; [exact E|]. destruct Hr as (H1 & H2 & H3 & H4). split; [|split; [|split; [exact H3|exact H4]]].
  - intros p. rewrite <- H1. split; intros (c & Hc); exists c; apply (land_pad n); exact Hc.
  - intros i p q M. rewrite (H2 i p q M). apply region_pad.
Qed.

(** ** The regions are determined by the map *)
Lemma regions_unique_at lines g1 g2 : regions lines g1 -> regions lines g2 -> forall i, (i < length g1)%nat ->
  (forall j p, (j < i)%nat -> (member g1 j p <-> member g2 j p)) -> forall p, member g1 i p -> member g2 i p.
Proof.
  intros (A1 & A2 & A3 & A4) (B1 & B2 & B3 & B4) i Hi Hlt.
  destruct (A4 i Hi) as (f & Mf & Hf). destruct (proj1 (B1 f)) as (k & Mk); [apply A1; eauto|].
  assert (Hki : (i <= k)%nat).
  { destruct (Nat.lt_ge_cases k i) as [L|L]; [|exact L]. apply Hlt in Mk; [|exact L]. pose proof (A3 k i f Mk Mf). lia. }
  assert (Hk : k = i).
  { destruct (Nat.eq_dec k i) as [E|E]; [exact E|]. exfalso. pose proof (member_lt _ _ _ Mk) as Lk. destruct (B4 i ltac:(lia)) as (f' & Mf' & Hf').
    destruct (proj1 (A1 f')) as (j & Mj); [apply B1; eauto|]. assert (Hb : before f' f) by (apply (Hf' k f); [lia|exact Mk]).
    assert (Hji : (i <= j)%nat).
    { destruct (Nat.lt_ge_cases j i) as [L|L]; [|exact L]. apply Hlt in Mj; [|exact L]. pose proof (B3 j i f' Mj Mf'). lia. }
    destruct (Nat.eq_dec j i) as [->|Ej].
    - assert (M : member g2 i f) by (apply (B2 i f' f Mf'); apply (A2 i f' f Mj); exact Mf). pose proof (B3 i k f M Mk). lia.
    - assert (before f f') by (apply (Hf j f'); [lia|exact Mj]). exact (before_irrefl f (before_trans _ _ _ H Hb)). }
  subst k. intros p Mp. apply (B2 i f p Mk). now apply (A2 i f p Mf).
Qed.
Lemma regions_unique lines g1 g2 : regions lines g1 -> regions lines g2 -> forall i p, member g1 i p <-> member g2 i p.
Proof.
  intros H1 H2 i. induction i as [i IH] using lt_wf_ind. intros p. split; intros M.
  - apply (regions_unique_at lines g1 g2 H1 H2 i (member_lt _ _ _ M)); [|exact M]. intros j q Hj. now apply IH.
  - apply (regions_unique_at lines g2 g1 H2 H1 i (member_lt _ _ _ M)); [|exact M]. intros j q Hj. symmetry. now apply IH.
Qed.

(** ** The edges *)
Lemma in_combine_seq {A} (l : list A) : forall k n i x, (length l <= n)%nat ->
  (In (i, x) (combine (seq k n) l) <-> (k <= i)%nat /\ nth_error l (i - k) = Some x).
Proof.
  induction l as [|a l IH]; intros k n i x H.
  - destruct (seq k n); cbn; (split; [tauto|]); intros [_ E]; destruct (i - k)%nat; discriminate.
  - destruct n as [|n]; cbn in H; [lia|]. cbn. rewrite IH by lia. split.
    + intros [E|[H1 H2]]; [injection E as -> ->; rewrite Nat.sub_diag; split; [lia|reflexivity]|].
      split; [lia|]. replace (i - k)%nat with (S (i - S k)) by lia. exact H2.
    + intros [H1 H2]. destruct (Nat.eq_dec i k) as [->|Hne]; [left; rewrite Nat.sub_diag in H2; cbn in H2; congruence|].
      right. split; [lia|]. replace (i - k)%nat with (S (i - S k)) in H2 by lia. exact H2.
Qed.
Lemma nth_skipn {A} (l : list A) : forall k i, nth_error (skipn k l) i = nth_error l (k + i).
Proof. induction l as [|a l IH]; intros [|k] i; cbn; try reflexivity; [destruct i; reflexivity|apply IH]. Qed.
Lemma nth_removelast {A} (l : list A) : forall i x, nth_error (removelast l) i = Some x <-> (S i < length l)%nat /\ nth_error l i = Some x.
Proof.
  induction l as [|a l IH]; intros i x; [cbn; destruct i; split; try discriminate; intros [H _]; lia|].
  destruct l as [|b l]; [cbn; destruct i; (split; [discriminate|]); intros [H _]; lia|].
  change (removelast (a :: b :: l)) with (a :: removelast (b :: l)). destruct i as [|i]; [cbn; split; [intros E; split; [lia|exact E]|tauto]|].
  cbn [nth_error]. rewrite IH. cbn. split; (intros [H1 H2]; split; [lia|exact H2]).
Qed.
Lemma removelast_length {A} (l : list A) : (length (removelast l) <= length l)%nat.
Proof. induction l as [|a l IH]; cbn; [lia|]. destruct l; cbn in *; lia. Qed.

Lemma group_edges_spec groups : region_edges groups (group_edges groups).
Proof.
  intros i j. unfold group_edges, point in *. rewrite in_flat_map. split.
  - intros ((k & g) & Hk & H). cbn [fst snd] in H. apply in_combine_seq in Hk; [|apply removelast_length]. destruct Hk as [_ Hk].
    rewrite Nat.sub_0_r in Hk. apply nth_removelast in Hk. destruct Hk as [_ Hk].
    apply in_flat_map in H. destruct H as ((h & g') & Hh & H). cbn [fst snd] in H. apply in_combine_seq in Hh; [|rewrite skipn_length; lia].
    destruct Hh as [_ Hh]. rewrite Nat.sub_0_r, nth_skipn in Hh. destruct (existsb _ g') eqn:Ex; [|contradiction].
    destruct H as [E|[]]. injection E as <- <-. split; [lia|]. apply existsb_exists in Ex. destruct Ex as (q & Hq & Hn). apply pmem_In in Hn.
    apply in_flat_map in Hn. destruct Hn as (p & Hp & Hn). apply in_map_iff in Hn. destruct Hn as (off & E & Ho).
    exists p, q. split; [exists g; auto|]. split; [exists g'; auto|]. apply near_OFFSETS. exists off. auto.
  - intros (Hlt & p & q & (g & Eg & Hp) & (g' & Eg' & Hq) & Hn). assert (Lj : (j < length groups)%nat) by (apply nth_error_Some; congruence).
    exists (i, g). split.
    + apply in_combine_seq; [apply removelast_length|]. split; [lia|]. rewrite Nat.sub_0_r. apply nth_removelast. split; [lia|exact Eg].
    + cbn [fst snd]. apply in_flat_map. exists ((j - (i + 1))%nat, g'). split.
      * apply in_combine_seq; [unfold point; rewrite skipn_length; lia|]. split; [lia|]. rewrite Nat.sub_0_r, nth_skipn.
        replace (i + 1 + (j - (i + 1)))%nat with j by lia. exact Eg'.
      * cbn [fst snd]. match goal with |- context [if ?b then _ else _] => assert (Eb : b = true) end.
        { apply existsb_exists. exists q. split; [exact Hq|]. apply pmem_In. apply in_flat_map. exists p. split; [exact Hp|].
          apply near_OFFSETS in Hn. destruct Hn as (off & Ho & ->). apply in_map. exact Ho. }
        rewrite Eb. left. f_equal. lia.
Qed.
