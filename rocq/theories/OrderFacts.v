(** Lemmas: the selection policies sort the variables as they say. *)
From Coq Require Import Permutation Lia.
From Verif Require Import Solver DictFacts CodeFacts SpecSolve SpecOrder SetupFacts SolveFacts SolverProps MasterFacts.
Open Scope list_scope.
Open Scope Z_scope.

(** ** Sorting *)
Lemma comes_cons x y z l : comes l x y -> comes (z :: l) x y.
Proof. intros (a & b & c & ->). now exists (z :: a), b, c. Qed.
Lemma comes_head x y l : In y l -> comes (x :: l) x y.
Proof. intros H. apply in_split in H. destruct H as (b & c & ->). now exists [], b, c. Qed.
Lemma comes_inv x y z l : comes (z :: l) x y -> (z = x /\ In y l) \/ comes l x y.
Proof.
  intros ([|a l1] & b & c & E); cbn in E; injection E as E1 E2.
  - left. split; [assumption|]. rewrite E2. apply in_or_app. right. now left.
  - right. now exists l1, b, c.
Qed.
Lemma comes_rev l x y : comes l x y -> comes (rev l) y x.
Proof.
  intros (a & b & c & ->). rewrite rev_app_distr. cbn [rev]. rewrite rev_app_distr. cbn [rev]. rewrite <- !app_assoc.
  exists (rev c), (rev b), (rev a). reflexivity.
Qed.
Lemma comes_In l x y : comes l x y -> In x l /\ In y l.
Proof.
  intros (a & b & c & ->). split; apply in_or_app; right; [now left|]. right. apply in_or_app. right. now left.
Qed.

Lemma lex_leb_refl a : lex_leb a a = true.
Proof. induction a as [|x a IH]; cbn; [reflexivity|]. now rewrite Z.eqb_refl, IH, Bool.orb_true_r. Qed.
Lemma lex_leb_antisym a : forall b, lex_leb a b = true -> lex_leb b a = true -> a = b.
Proof.
  induction a as [|x a IH]; intros [|y b]; cbn; try congruence.
  rewrite !Bool.orb_true_iff, !Bool.andb_true_iff, !Z.ltb_lt, !Z.eqb_eq. intros [H|[-> H]] [H'|[H1 H']]; try lia. f_equal. now apply IH.
Qed.
Lemma lex_leb_trans a : forall b c, lex_leb a b = true -> lex_leb b c = true -> lex_leb a c = true.
Proof.
  induction a as [|x a IH]; intros [|y b] [|z c]; cbn; try congruence.
  rewrite !Bool.orb_true_iff, !Bool.andb_true_iff, !Z.ltb_lt, !Z.eqb_eq. intros [H|[-> H]] [H'|[<- H']]; try (left; lia).
  right. split; [reflexivity|]. now apply (IH b).
Qed.
Lemma lex_leb_total a : forall b, lex_leb a b = false -> lex_leb b a = true.
Proof.
  induction a as [|x a IH]; intros [|y b]; cbn; try congruence.
  rewrite !Bool.orb_false_iff, !Bool.andb_false_iff, !Bool.orb_true_iff, !Bool.andb_true_iff, !Z.ltb_lt, !Z.ltb_ge, !Z.eqb_neq, !Z.eqb_eq.
  intros [H [H'|H']]; [left; lia|]. destruct (Z.eq_dec x y) as [->|]; [right; auto|left; lia].
Qed.

Definition le_list (key : name -> list Z) (names : list name) (x y : name) : Prop :=
  lex_leb (key x) (key y) = true /\ (key x = key y -> comes names x y).

Lemma insert_comes key z l : forall x y, comes (insert_by key z l) x y ->
  comes l x y \/ (x = z /\ In y l /\ exists y', In y' l /\ lex_leb (key z) (key y') = true /\ (y = y' \/ comes l y' y)) \/
  (y = z /\ In x l /\ lex_leb (key z) (key x) = false).
Proof.
  induction l as [|u l IH]; intros x y; cbn [insert_by].
  - intros ([|a l1] & b & c & E); cbn in E; [injection E as _ E; destruct b; discriminate|injection E as _ E; destruct l1; discriminate].
  - destruct (lex_leb (key z) (key u)) eqn:E.
    + intros H. apply comes_inv in H. destruct H as [[<- H]|H]; [|now left]. right. left. split; [reflexivity|]. split; [assumption|].
      exists u. split; [now left|]. split; [assumption|]. destruct H as [->|H]; [now left|right; now apply comes_head].
    + intros H. apply comes_inv in H. destruct H as [[<- H]|H].
      * apply (Permutation_in _ (insert_by_perm key z l)) in H. destruct H as [<-|H]; [right; right; split; [reflexivity|]; split; [now left|assumption]|left; now apply comes_head].
      * destruct (IH _ _ H) as [H1|[(-> & H1 & y' & H2 & H3 & H4)|(-> & H1 & H2)]].
        -- left. now apply comes_cons.
        -- right. left. split; [reflexivity|]. split; [now right|]. exists y'. split; [now right|]. split; [assumption|]. destruct H4; [now left|right; now apply comes_cons].
        -- right. right. split; [reflexivity|]. split; [now right|assumption].
Qed.

Lemma sorted_by_le key l : forall x y, comes (sorted_by key l) x y -> le_list key l x y.
Proof.
  induction l as [|z l IH]; intros x y; [intros (a & b & c & E); destruct a; discriminate|]. cbn [sorted_by]. intros H.
  destruct (insert_comes _ _ _ _ _ H) as [H1|[(-> & H1 & y' & H2 & H3 & H4)|(-> & H1 & H2)]].
  - destruct (IH _ _ H1) as [G1 G2]. split; [assumption|]. intros E. apply comes_cons. auto.
  - split.
    + destruct H4 as [->|H4]; [assumption|]. apply (lex_leb_trans _ (key y')); [assumption|]. exact (proj1 (IH _ _ H4)).
    + intros _. apply comes_head. apply (Permutation_in _ (sorted_by_perm key l)). assumption.
  - split; [now apply lex_leb_total|]. intros E. rewrite E, lex_leb_refl in H2. discriminate.
Qed.

Lemma sorted_by_sorts {K} (lt : K -> K -> Prop) (key : name -> list Z) (k : name -> K) names l :
  (forall x y, In x names -> In y names -> lex_leb (key x) (key y) = true -> lt (k x) (k y) \/ k x = k y) ->
  (forall x y, In x names -> In y names -> k x = k y -> key x = key y) ->
  l = sorted_by key names -> sorts lt k names l.
Proof.
  intros H1 H2 ->. split; [apply sorted_by_perm|]. intros x y H. destruct (comes_In _ _ _ H) as [Hx Hy].
  apply (Permutation_in _ (sorted_by_perm key names)) in Hx, Hy. destruct (sorted_by_le _ _ _ _ H) as [G1 G2].
  destruct (H1 x y Hx Hy G1) as [G|G]; [now left|]. right. auto.
Qed.
Lemma sorted_rev_sorts {K} (lt : K -> K -> Prop) (key : name -> list Z) (k : name -> K) names l :
  (forall x y, In x names -> In y names -> lex_leb (key y) (key x) = true -> lt (k x) (k y) \/ k x = k y) ->
  (forall x y, In x names -> In y names -> k x = k y -> key x = key y) ->
  l = sorted_rev key names -> sorts lt k names l.
Proof.
  intros H1 H2 ->. split; [apply sorted_rev_perm|]. intros x y H. destruct (comes_In _ _ _ H) as [Hx Hy].
  apply (Permutation_in _ (sorted_rev_perm key names)) in Hx, Hy. unfold sorted_rev in H. apply comes_rev in H. rewrite rev_involutive in H.
  destruct (sorted_by_le _ _ _ _ H) as [G1 G2]. destruct (H1 x y Hx Hy G1) as [G|G]; [now left|]. right. split; [assumption|].
  rewrite <- (rev_involutive names). apply comes_rev. apply G2. symmetry. now apply H2.
Qed.

(** ** The keys computed by [_setup] *)
Definition has (c : constraint) (x : name) : bool := existsb (String.eqb x) (c_vars c).
Lemma has_In c x : has c x = true <-> In x (c_vars c).
Proof.
  unfold has. rewrite existsb_exists. split.
  - intros (y & Hy & E). apply String.eqb_eq in E. now subst.
  - intros H. exists x. split; [assumption|]. apply String.eqb_refl.
Qed.
Definition counts_for (x : name) (c : constraint) : bool :=
  negb (is_ad c) && negb (Nat.eqb (length (c_vars c)) 1) && has c x.
Fixpoint bound_of (x : name) (cs : list constraint) : Z :=
  match cs with [] => 0 | c :: cs' => (if has c x then Z.of_nat (length (c_vars c)) - 1 else 0) + bound_of x cs' end.
Fixpoint groups_with (x : name) (n : nat) (cs : list constraint) : list nat :=
  match cs with
  | [] => []
  | c :: cs' => if is_ad c then (if has c x then [n] else []) ++ groups_with x (S n) cs' else groups_with x n cs'
  end.

Record kinv (cs : list constraint) (u : setup) : Prop := KInv {
  ki_cons : forall x, dget_or (u_cons u) x [] = filter (counts_for x) cs;
  ki_bounds : forall x, In x (dkeys (u_doms u)) -> dget_or (u_bounds u) x 0 = bound_of x cs;
  ki_ngroups : length (u_groups u) = length (filter is_ad cs);
  ki_groups : forall x, dget_or (u_vgroups u) x [] = groups_with x 0 cs }.

Lemma fold_dappend_eq {A} (a : A) vs : NoDup vs -> forall (d : dict (list A)) x,
  dget_or (fold_left (fun d x => dappend d x a) vs d) x [] = dget_or d x [] ++ (if existsb (String.eqb x) vs then [a] else []).
Proof.
  induction 1 as [|y vs Hy Hnd IH]; intros d x; [now rewrite app_nil_r|]. cbn [fold_left existsb]. rewrite IH.
  unfold dappend at 1. unfold dget_or at 1. rewrite dget_dset. destruct (String.eqb_spec x y) as [->|E].
  - cbn [orb]. destruct (existsb (String.eqb y) vs) eqn:Ex; [|now rewrite app_nil_r].
    apply existsb_exists in Ex. destruct Ex as (z & Hz & E). apply String.eqb_eq in E. subst z. contradiction.
  - reflexivity.
Qed.
Lemma fold_bounds_eq (doms : dict (list Z)) k vs : NoDup vs -> forall (b : dict Z) x, In x (dkeys doms) ->
  dget_or (fold_left (fun b x => if dmem doms x then dset b x (dget_or b x 0 + k) else b) vs b) x 0 =
  dget_or b x 0 + (if existsb (String.eqb x) vs then k else 0).
Proof.
  induction 1 as [|y vs Hy Hnd IH]; intros b x Hx; [cbn; lia|]. cbn [fold_left existsb]. rewrite IH by assumption.
  destruct (String.eqb_spec x y) as [->|E].
  - rewrite (proj2 (dmem_In doms y) Hx). cbn [orb]. unfold dget_or at 1. rewrite dget_dset, String.eqb_refl.
    destruct (existsb (String.eqb y) vs) eqn:Ex; [|lia].
    apply existsb_exists in Ex. destruct Ex as (z & Hz & E). apply String.eqb_eq in E. subst z. contradiction.
  - cbn [orb]. destruct (dmem doms y); [|reflexivity]. unfold dget_or at 1. rewrite dget_dset. destruct (String.eqb_spec x y); [contradiction|reflexivity].
Qed.

Lemma groups_with_app x cs c n : groups_with x n (cs ++ [c]) =
  groups_with x n cs ++ (if is_ad c && has c x then [(n + length (filter is_ad cs))%nat] else []).
Proof.
  revert n. induction cs as [|d cs IH]; intros n; cbn [app groups_with filter].
  - destruct (is_ad c), (has c x); cbn; try reflexivity. now rewrite Nat.add_0_r.
  - destruct (is_ad d); rewrite IH; [|reflexivity]. rewrite <- app_assoc. cbn [length]. now rewrite Nat.add_succ_comm.
Qed.
Lemma bound_of_app x cs c : bound_of x (cs ++ [c]) = bound_of x cs + (if has c x then Z.of_nat (length (c_vars c)) - 1 else 0).
Proof. induction cs as [|d cs IH]; cbn [app bound_of]; lia. Qed.

Lemma kinv_step cmp w u c cs w' u' : kinv cs u -> setup_step cmp w u c = (w', Ok u') -> kinv (cs ++ [c]) u' /\ dkeys (u_doms u') = dkeys (u_doms u).
Proof.
  intros [K1 K2 K3 K4] H. unfold setup_step in H. set (b' := fold_left _ (c_vars c) (u_bounds u)) in H.
  assert (Hb : forall x, In x (dkeys (u_doms u)) -> dget_or b' x 0 = bound_of x (cs ++ [c])).
  { intros x Hx. unfold b'. rewrite fold_bounds_eq by (assumption || apply c_vars_NoDup). rewrite bound_of_app, K2 by assumption. reflexivity. }
  assert (Hg : is_ad c = false -> forall x, dget_or (u_vgroups u) x [] = groups_with x 0 (cs ++ [c])).
  { intros E x. rewrite groups_with_app, E, app_nil_r. apply K4. }
  assert (Hn : is_ad c = false -> length (u_groups u) = length (filter is_ad (cs ++ [c]))).
  { intros E. rewrite filter_app. cbn [filter]. rewrite E, app_nil_r. exact K3. }
  destruct (is_ad c) eqn:Had.
  - unfold is_ad in Had. destruct (c_body c) as [| |xs] eqn:Eb; try discriminate. assert (Ha : is_ad c = true) by (unfold is_ad; now rewrite Eb).
    injection H as <- <-. split; [|reflexivity]. constructor; cbn.
    + intros x. rewrite filter_app. cbn [filter]. unfold counts_for at 2. rewrite Ha. cbn. rewrite app_nil_r. apply K1.
    + exact Hb.
    + rewrite app_length, filter_app, app_length. cbn [filter]. rewrite Ha, K3. reflexivity.
    + intros x. rewrite fold_dappend_eq by apply c_vars_NoDup. rewrite groups_with_app, Ha, K4, K3. reflexivity.
  - destruct (Nat.eqb_spec (length (c_vars c)) 1) as [El|El].
    + assert (H1 : forall x, dget_or (u_cons u) x [] = filter (counts_for x) (cs ++ [c])).
      { intros x. rewrite filter_app. cbn [filter]. unfold counts_for at 2. rewrite El. cbn. rewrite Bool.andb_false_r, app_nil_r. apply K1. }
      assert (H' : exists x, match dget (u_doms u) x with
        | Some dom => exists dom', u' = Setup (dset (u_doms u) x dom') (u_cons u) (u_ad u) b' (u_groups u) (u_vgroups u)
        | None => u' = Setup (u_doms u) (u_cons u) (u_ad u) b' (u_groups u) (u_vgroups u) end).
      { unfold is_ad in Had. destruct (c_vars c) as [|x [|y l]] eqn:Ecv; try discriminate El. exists x.
        destruct (c_body c); try discriminate; (destruct (dget (u_doms u) x); [destruct (filterM _ _); [|discriminate]|]); injection H as <- <-; eauto. }
      destruct H' as (x & H'). destruct (dget (u_doms u) x) as [dom|] eqn:Ed; [destruct H' as (dom' & H')|]; subst u'.
      * assert (Ek : dkeys (dset (u_doms u) x dom') = dkeys (u_doms u)) by (rewrite dkeys_dset, (proj2 (dmem_In (u_doms u) x)); [reflexivity|apply dget_Some; eauto]).
        split; [|exact Ek]. constructor; cbn; auto. intros z Hz. apply Hb. rewrite <- Ek. exact Hz.
      * split; [|reflexivity]. constructor; cbn; auto.
    + assert (H' : u' = Setup (u_doms u) (fold_left (fun d x => dappend d x c) (c_vars c) (u_cons u)) (u_ad u) b' (u_groups u) (u_vgroups u)).
      { unfold is_ad in Had. destruct (c_vars c) as [|x [|y l]]; [|exfalso; apply El; reflexivity|]; destruct (c_body c); try discriminate; injection H as <- <-; reflexivity. }
      subst u'. split; [|reflexivity]. constructor; cbn; auto.
      intros x. rewrite fold_dappend_eq by apply c_vars_NoDup. rewrite filter_app. cbn [filter]. unfold counts_for at 2. rewrite Had, (proj2 (Nat.eqb_neq _ _) El). cbn [negb andb]. rewrite K1. reflexivity.
Qed.

Lemma kinv_loop cmp cs : forall pre w u w' u', kinv pre u -> setup_loop cmp w u cs = (w', Ok u') -> kinv (pre ++ cs) u' /\ dkeys (u_doms u') = dkeys (u_doms u).
Proof.
  induction cs as [|c cs IH]; intros pre w u w' u' Hk H; cbn [setup_loop] in H.
  - injection H as <- <-. rewrite app_nil_r. auto.
  - destruct (setup_step cmp w u c) as [w2 [u2|ex]] eqn:E; [|discriminate]. destruct (kinv_step _ _ _ _ _ _ _ Hk E) as [Hk2 Ek].
    destruct (IH _ _ _ _ _ Hk2 H) as [H1 H2]. rewrite <- app_assoc in H1. split; [exact H1|congruence].
Qed.

Lemma zero_bounds (l : dict (list Z)) x : match dget (map (fun p : name * list Z => (fst p, 0)) l) x with Some a => a | None => 0 end = 0.
Proof. induction l as [|[y d] l IH]; cbn; [reflexivity|]. now destruct (String.eqb x y). Qed.
Lemma do_setup_keys cmp w add w' u : do_setup cmp w add = (w', Ok u) ->
  kinv (m_cons (w_model w) ++ add) u /\ dkeys (u_doms u) = variables_of (w_model w).
Proof.
  unfold do_setup. intros H. destruct (setup_loop cmp w _ _) as [w2 [u2|]] eqn:E; [|discriminate]. destruct (check_groups _ _); [|discriminate]. injection H as <- <-.
  apply (kinv_loop _ _ []) in E.
  - destruct E as [E1 E2]. split; [exact E1|]. rewrite E2. apply variables_of_pure.
  - constructor; cbn; auto. intros x _. unfold dget_or. now rewrite zero_bounds.
Qed.

(** ** The keys are those of the specification *)
Lemma tally_filter {A} (P : A -> Prop) f l : (forall a, In a l -> (f a = true <-> P a)) -> tally P l (Z.of_nat (length (filter f l))).
Proof.
  induction l as [|a l IH]; intros H; [constructor|]. cbn [filter]. assert (IHl := IH (fun b Hb => H b (or_intror Hb))).
  destruct (f a) eqn:E.
  - cbn [length]. rewrite Nat2Z.inj_succ, <- Z.add_1_l. constructor; [now apply (H a (or_introl eq_refl))|assumption].
  - constructor; [|assumption]. intros C. apply (H a (or_introl eq_refl)) in C. congruence.
Qed.
Lemma is_ad_iff c : is_ad c = true <-> all_different c.
Proof.
  unfold is_ad, all_different. destruct (c_body c) as [| |xs]; split; try discriminate; try (intros (ys & E); discriminate); [eauto|reflexivity].
Qed.
Lemma has_mentions c x : has c x = true <-> mentions c x.
Proof. rewrite has_In. symmetry. apply mentions_vars. Qed.
Lemma counts_for_iff x c : counts_for x c = true <-> ~ all_different c /\ several c /\ mentions c x.
Proof.
  unfold counts_for. rewrite !Bool.andb_true_iff, !Bool.negb_true_iff, Nat.eqb_neq, has_mentions, <- is_ad_iff, Bool.not_true_iff_false.
  split.
  - intros [[H1 H2] H3]. split; [assumption|]. split; [|assumption]. apply mentions_vars in H3. pose proof (c_vars_NoDup c) as Hnd.
    destruct (c_vars c) as [|y [|z l]] eqn:E; [contradiction|cbn in H2; congruence|]. exists y, z. inversion Hnd; subst.
    split; [intros ->; apply H4; now left|]. split; apply mentions_vars; rewrite E; [now left|right; now left].
  - intros (H1 & (y & z & Hne & Hy & Hz) & H3). split; [split; [assumption|]|assumption]. apply mentions_vars in Hy, Hz.
    destruct (c_vars c) as [|a [|b l]]; cbn; try discriminate. destruct Hy as [<-|[]], Hz as [<-|[]]. contradiction.
Qed.

Lemma bound_summed x cs : summed (others x) cs (bound_of x cs).
Proof.
  induction cs as [|c cs IH]; cbn [bound_of]; constructor; [|assumption]. destruct (has c x) eqn:E.
  - left. split; [now apply has_mentions|]. apply has_In in E. pose proof (c_vars_NoDup c) as Hnd. destruct (in_split _ _ E) as (l1 & l2 & E').
    exists (l1 ++ l2). rewrite E' in Hnd. split; [now apply NoDup_remove_1 in Hnd|]. split.
    + intros y. rewrite mentions_vars, E', !in_app_iff. cbn. apply NoDup_remove_2 in Hnd. rewrite in_app_iff in Hnd. split.
      * intros H. split; [tauto|]. intros ->. tauto.
      * intros [[H|[H|H]] Hne]; auto. congruence.
    + rewrite E'. unfold len. rewrite !app_length. cbn. lia.
  - right. split; [|reflexivity]. intros C. apply has_mentions in C. congruence.
Qed.

Lemma groups_with_ge x cs : forall n k, In k (groups_with x n cs) -> (n <= k)%nat.
Proof.
  induction cs as [|c cs IH]; intros n k H; [contradiction|]. cbn in H. destruct (is_ad c); [|now apply IH].
  apply in_app_or in H. destruct H as [H|H]; [destruct (has c x); [destruct H as [<-|[]]; lia|contradiction]|]. apply IH in H. lia.
Qed.
Lemma fold_min_ge l : forall a, (forall k, In k l -> (a <= k)%nat) -> fold_left Nat.min l a = a.
Proof.
  induction l as [|b l IH]; intros a H; [reflexivity|]. cbn. rewrite Nat.min_l by (apply H; now left). apply IH. intros k Hk. apply H. now right.
Qed.
Lemma groups_first x cs : forall n, match groups_with x n cs with
  | [] => forall c, In c cs -> all_different c -> ~ mentions c x
  | g :: gs => fold_left Nat.min gs g = g /\ exists cs1 c cs2, cs = cs1 ++ c :: cs2 /\ all_different c /\ mentions c x /\
      (forall c', In c' cs1 -> all_different c' -> ~ mentions c' x) /\ g = (n + length (filter is_ad cs1))%nat
  end.
Proof.
  induction cs as [|c cs IH]; intros n; cbn [groups_with]; [intros c []|]. destruct (is_ad c) eqn:Ea.
  - destruct (has c x) eqn:Eh; cbn [app].
    + split; [apply fold_min_ge; intros k Hk; apply groups_with_ge in Hk; lia|]. exists [], c, cs. split; [reflexivity|]. split; [now apply is_ad_iff|]. split; [now apply has_mentions|]. split; [intros c' []|]. cbn. lia.
    + assert (Hc : ~ mentions c x) by (rewrite <- has_mentions; congruence). specialize (IH (S n)). destruct (groups_with x (S n) cs) as [|g gs].
      * intros c' [<-|H]; [auto|now apply IH].
      * destruct IH as (H1 & cs1 & c0 & cs2 & -> & H2 & H3 & H4 & H5). split; [assumption|]. exists (c :: cs1), c0, cs2. split; [reflexivity|]. split; [assumption|]. split; [assumption|].
        split; [intros c' [<-|H]; [auto|now apply H4]|]. cbn [filter]. rewrite Ea. cbn [length]. lia.
  - assert (Hc : ~ all_different c) by (rewrite <- is_ad_iff; congruence). specialize (IH n). destruct (groups_with x n cs) as [|g gs].
    * intros c' [<-|H]; [contradiction|now apply IH].
    * destruct IH as (H1 & cs1 & c0 & cs2 & -> & H2 & H3 & H4 & H5). split; [assumption|]. exists (c :: cs1), c0, cs2. split; [reflexivity|]. split; [assumption|]. split; [assumption|].
      split; [intros c' [<-|H]; [contradiction|now apply H4]|]. cbn [filter]. now rewrite Ea.
Qed.

Lemma domain_size_eq m x : dom_size m x = domain_size m x.
Proof. unfold dom_size, domain_size, declared, len. destruct (dget (m_vars m) x) as [[d|p]|]; reflexivity. Qed.

Lemma lex1 a b : lex_leb [a] [b] = true -> a < b \/ a = b.
Proof. cbn. rewrite Bool.orb_true_iff, Bool.andb_true_iff, Z.ltb_lt, Z.eqb_eq. intuition. Qed.

Lemma select_visits shuffle p m cs u : kinv cs u -> dkeys (u_doms u) = variables_of m -> visits shuffle p m cs (select_order shuffle p m u).
Proof.
  intros [K1 K2 K3 K4] Hk. unfold select_order, visits. rewrite Hk. destruct p; try reflexivity.
  - exists (fun x => (group_prio u x, dget_or (u_bounds u) x 0, dom_size m x)). split.
    2:{ apply (sorted_by_sorts lex3 (fun x => [group_prio u x; dget_or (u_bounds u) x 0; dom_size m x]) (fun x => (group_prio u x, dget_or (u_bounds u) x 0, dom_size m x))).
        - intros x y Hx Hy. cbn [lex_leb]. repeat rewrite ?Bool.orb_true_iff, ?Bool.andb_true_iff. rewrite !Z.ltb_lt, !Z.eqb_eq. intros H. unfold lex3.
          destruct H as [H|[E1 [H|[E2 [H|[E3 _]]]]]]; [left; left; exact H|left; right; auto|left; right; auto 6|right; congruence].
        - intros x y Hx Hy E. injection E as E1 E2 E3. congruence.
        - unfold sorted_rev. now rewrite rev_involutive. }
    intros x Hx. cbn. split; [|split; [rewrite K2 by congruence; apply bound_summed|apply domain_size_eq]].
    unfold group_prio. rewrite K4. pose proof (groups_first x cs 0) as G. destruct (groups_with x 0 cs) as [|g gs]; [left; auto|]. right.
    destruct G as (-> & cs1 & c & cs2 & E & H1 & H2 & H3 & ->). exists cs1, c, cs2. repeat (split; [assumption|]). cbn [Nat.add]. apply tally_filter. intros c' _. apply is_ad_iff.
  - apply (sorted_by_sorts _ (fun x => [dom_size m x])); [|intros x y _ _ E; now rewrite !domain_size_eq, E|reflexivity].
    intros x y _ _ H. apply lex1 in H. now rewrite !domain_size_eq in H.
  - apply (sorted_rev_sorts _ (fun x => [dom_size m x])); [|intros x y _ _ E; now rewrite !domain_size_eq, E|reflexivity].
    intros x y _ _ H. apply lex1 in H. rewrite !domain_size_eq in H. lia.
  - exists (n_cons u). split; [intros x; unfold n_cons; rewrite K1; apply tally_filter; intros c _; apply counts_for_iff|].
    apply (sorted_by_sorts _ (fun x => [n_cons u x])); [|intros x y _ _ E; now rewrite E|reflexivity]. intros x y _ _ H. now apply lex1 in H.
  - exists (n_cons u). split; [intros x; unfold n_cons; rewrite K1; apply tally_filter; intros c _; apply counts_for_iff|].
    apply (sorted_rev_sorts _ (fun x => [n_cons u x])); [|intros x y _ _ E; now rewrite E|reflexivity]. intros x y _ _ H. apply lex1 in H. lia.
Qed.

Lemma visited clk shuffle f e sv a ys e' r s :
  valid shuffle e a -> solve_all clk shuffle f e sv a = Some (ys, e', r) -> In s ys ->
  visits shuffle (policy_of sv a) (w_model (e_world e)) (all_cons (w_model (e_world e)) a) (map fst s).
Proof.
  intros Hv H Hin. destruct Hv as (Hs & Hn & Hd & Ho) eqn:Ev. clear Ev.
  destruct (run_cases clk shuffle f e sv a ys e' r (conj Hs (conj Hn (conj Hd Ho))) H) as [(-> & _)|(Hsol & Hhv & Hg & u & order & ys0 & r0 & Es & Eo & Hw & Hp & Hp0 & _)]; [contradiction|].
  apply (prefix_In _ _ _ Hp) in Hin. apply (prefix_In _ _ _ Hp0) in Hin. subst order.
  apply (loop_enum shuffle e sv a _ u Hs Hn Ho Es) in Hin. destruct Hin as [-> _]. destruct (do_setup_keys _ _ _ _ _ Es) as [K1 K2].
  apply select_visits; assumption.
Qed.

(** ** The specification determines the order *)
Lemma comes_asym l x y : NoDup l -> comes l x y -> comes l y x -> False.
Proof.
  intros Hnd. induction Hnd as [|z l Hz Hnd IH]; intros H1 H2; [destruct H1 as ([|] & b & c & E); discriminate|].
  apply comes_inv in H1, H2. destruct H1 as [[<- H1]|H1], H2 as [[<- H2]|H2]; auto; apply comes_In in H1 || apply comes_In in H2; tauto.
Qed.
Lemma sorts_unique {K} (lt : K -> K -> Prop) key names :
  (forall a, ~ lt a a) -> (forall a b, lt a b -> ~ lt b a) -> NoDup names ->
  forall o1 o2, sorts lt key names o1 -> sorts lt key names o2 -> o1 = o2.
Proof.
  intros Hirr Hasym Hnd o1 o2 [P1 S1] [P2 S2]. assert (P : Permutation o1 o2) by (transitivity names; [assumption|now symmetry]).
  assert (C : forall x y, comes o1 x y -> comes o2 y x -> False).
  { intros x y C1 C2. destruct (S1 _ _ C1) as [A|[A A']], (S2 _ _ C2) as [B|[B B']].
    - now apply (Hasym _ _ A).
    - rewrite B in A. now apply (Hirr _ A).
    - rewrite A in B. now apply (Hirr _ B).
    - now apply (comes_asym names x y). }
  assert (N1 : NoDup o1) by (apply (Permutation_NoDup (l := names)); [now symmetry|assumption]). clear S1 S2 P1 P2 Hnd. revert o2 P C.
  induction o1 as [|x o1 IH]; intros o2 P C; [now apply Permutation_nil in P|]. destruct o2 as [|y o2]; [symmetry in P; now apply Permutation_nil in P|].
  destruct (String.eqb_spec x y) as [->|Hne].
  - f_equal. inversion N1; subst. apply IH; [assumption|now apply Permutation_cons_inv in P|]. intros u v Cu Cv. apply (C u v); now apply comes_cons.
  - exfalso. apply (C x y).
    + apply comes_head. assert (H : In y (x :: o1)) by (apply (Permutation_in (l := y :: o2)); [now symmetry|now left]). destruct H as [H|H]; [contradiction|exact H].
    + apply comes_head. assert (H : In x (y :: o2)) by (apply (Permutation_in (l := x :: o1)); [assumption|now left]). destruct H as [H|H]; [congruence|exact H].
Qed.

Lemma tally_fun {A} (P : A -> Prop) l n : tally P l n -> forall n', tally P l n' -> n = n'.
Proof.
  induction 1 as [|a l n H1 H2 IH|a l n H1 H2 IH]; intros n' H; inversion H; subst; try contradiction; [reflexivity|f_equal; auto|auto].
Qed.
Lemma others_fun x c n n' : others x c n -> others x c n' -> n = n'.
Proof.
  intros [[H (l & N & L & ->)]|[H ->]] [[H' (l' & N' & L' & ->)]|[H' ->]]; try contradiction; [|reflexivity].
  unfold len. f_equal. apply Permutation_length. apply NoDup_Permutation; auto. intros y. now rewrite L, L'.
Qed.
Lemma summed_fun {A} (R : A -> Z -> Prop) l n : (forall a k k', R a k -> R a k' -> k = k') -> summed R l n -> forall n', summed R l n' -> n = n'.
Proof.
  intros HR. induction 1 as [|a l k n H1 H2 IH]; intros n' H; inversion H; subst; [reflexivity|]. f_equal; eauto.
Qed.
Lemma first_group_fun cs x n n' : first_group cs x n -> first_group cs x n' -> n = n'.
Proof.
  intros [[-> H]|(a & c & b & -> & H1 & H2 & H3 & H4)] [[-> H']|(a' & c' & b' & E' & H1' & H2' & H3' & H4')]; [reflexivity| | |].
  - exfalso. apply (H c'); [rewrite E'; apply in_or_app; right; now left|assumption|assumption].
  - exfalso. apply (H' c); [apply in_or_app; right; now left|assumption|assumption].
  - assert (a = a') as ->; [|now apply (tally_fun all_different a')]. clear H4 H4'. revert a' E' H3'.
    induction a as [|d a IH]; intros [|d' a'] E H3'; cbn in E.
    + reflexivity.
    + injection E as <- E. exfalso. apply (H3' c); auto. now left.
    + injection E as -> E. exfalso. apply (H3 c'); auto. now left.
    + injection E as <- E. f_equal. apply IH; [intros c0 Hc0; apply H3; now right|assumption|intros c0 Hc0; apply H3'; now right].
Qed.
Lemma lex3_irr a : ~ lex3 a a.
Proof. destruct a as [[a b] c]. cbn. lia. Qed.
Lemma lex3_asym a b : lex3 a b -> ~ lex3 b a.
Proof. destruct a as [[a1 a2] a3], b as [[b1 b2] b3]. cbn. lia. Qed.
Lemma sorts_ext {K} (lt : K -> K -> Prop) k k' names order : (forall x, In x names -> k x = k' x) -> sorts lt k names order -> sorts lt k' names order.
Proof.
  intros E [P S]. split; [assumption|]. intros x y C. destruct (comes_In _ _ _ C) as [Hx Hy]. apply (Permutation_in _ P) in Hx, Hy.
  rewrite <- (E x Hx), <- (E y Hy). now apply S.
Qed.
Lemma visits_unique shuffle p m cs o1 o2 : NoDup (map fst (m_vars m)) -> visits shuffle p m cs o1 -> visits shuffle p m cs o2 -> o1 = o2.
Proof.
  intros Hnd0. assert (Hnd : NoDup (variables_of m)) by (rewrite <- variables_of_pure; now apply pure_NoDup).
  destruct p; cbn; try congruence.
  - intros (k & Hk & H1) (k' & Hk' & H2). apply (sorts_unique lex3 k (rev (variables_of m))); [apply lex3_irr|apply lex3_asym|now apply NoDup_rev|assumption|].
    apply (sorts_ext _ k'); [|assumption]. intros x Hx. apply in_rev in Hx. specialize (Hk x Hx). specialize (Hk' x Hx). destruct (k x) as [[g b] d], (k' x) as [[g' b'] d'].
    destruct Hk as (A & B & C), Hk' as (A' & B' & C'). f_equal; [f_equal|congruence]; [now apply (first_group_fun cs x)|]. eapply summed_fun; [apply others_fun|eassumption|eassumption].
  - intros H1 H2. apply (sorts_unique Z.lt (domain_size m) (variables_of m)); auto; lia.
  - intros H1 H2. apply (sorts_unique Z.gt (domain_size m) (variables_of m)); auto; lia.
  - intros (k & Hk & H1) (k' & Hk' & H2). apply (sorts_unique Z.lt k (variables_of m)); auto; try lia. apply (sorts_ext _ k'); [|assumption]. intros x _. exact (tally_fun _ _ _ (Hk' x) _ (Hk x)).
  - intros (k & Hk & H1) (k' & Hk' & H2). apply (sorts_unique Z.gt k (variables_of m)); auto; try lia. apply (sorts_ext _ k'); [|assumption]. intros x _. exact (tally_fun _ _ _ (Hk' x) _ (Hk x)).
Qed.
