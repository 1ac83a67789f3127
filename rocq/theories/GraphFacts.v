(** Facts about the model of GraphLabelingSolver. *)
From Verif Require Import Graph SpecPuzzle SpecGraph SpecSafe SpecSolve NameFacts DictFacts PuzzleFacts PuzzleUserFacts.
Open Scope list_scope.
Open Scope Z_scope.

Definition n_ (i : nat) : name := name1 "n_" i.
Definition vdict (nodes : list string) (k : nat) : dict name := combine nodes (map n_ (seq k (length nodes))).

Lemma nodes_adds P d : NoDup d -> forall nodes vars vs, NoDup nodes -> (forall u, In u nodes -> ~ In u (dkeys vars)) ->
  (forall x, In x (names_of vs) -> exists j, (j < length vars)%nat /\ x = n_ j) ->
  adds P vs (graph_nodes d nodes vars) (vars ++ vdict nodes (length vars))
    (map (fun i => (n_ i, d)) (seq (length vars) (length nodes))) [].
Proof.
  intros Hd. induction nodes as [|u nodes IH]; intros vars vs Hn Hk Hv.
  - cbn. rewrite app_nil_r. apply adds_ret.
  - inversion Hn; subst. cbn [graph_nodes length seq map].
    change ((n_ (length vars), d) :: map (fun i => (n_ i, d)) (seq (S (length vars)) (length nodes)))
      with ([(n_ (length vars), d)] ++ map (fun i => (n_ i, d)) (seq (S (length vars)) (length nodes))).
    change (@nil pbody) with (@nil pbody ++ []).
    eapply adds_bind.
    + apply adds_intvar; [now apply name1_good| |exact Hd]. intros Hin. apply Hv in Hin. destruct Hin as (j & Hj & E). apply name1_inj in E. lia.
    + fold (n_ (length vars)). assert (Hnew : ~ In u (dkeys vars)) by (apply Hk; now left).
      rewrite dset_new by exact Hnew.
      assert (Hl : length (vars ++ [(u, n_ (length vars))]) = S (length vars)) by (rewrite app_length; cbn; lia).
      replace (vars ++ vdict (u :: nodes) (length vars))
        with ((vars ++ [(u, n_ (length vars))]) ++ vdict nodes (length (vars ++ [(u, n_ (length vars))]))).
      2:{ rewrite Hl, <- app_assoc. reflexivity. }
      rewrite <- Hl. apply IH; [assumption| |].
      * intros w Hw Hin. unfold dkeys in Hin. rewrite map_app, in_app_iff in Hin. destruct Hin as [Hin|[<-|[]]]; [|contradiction].
        apply (Hk w); [now right|exact Hin].
      * intros x Hx. rewrite names_app, in_app_iff in Hx. rewrite Hl. destruct Hx as [Hx|[<-|[]]].
        -- destruct (Hv x Hx) as (j & Hj & E). exists j. split; [lia|exact E].
        -- exists (length vars). split; [lia|reflexivity].
Qed.

Section G.
Variables (nodes : list string) (edges : list (string * string)) (labels : list string).
Hypothesis Hg : is_graph nodes edges.
Let P0 := fun _ : nat => 0.
Let n := length nodes.
Let K := Z.of_nat (length labels).

(** Position of a string in a list. *)
Fixpoint pos (x : string) (l : list string) : nat :=
  match l with [] => 0 | y :: l' => if String.eqb x y then 0%nat else S (pos x l') end.
Lemma pos_spec x l : In x l -> (pos x l < length l)%nat /\ nth_error l (pos x l) = Some x.
Proof.
  induction l as [|y l IH]; [contradiction|]. cbn. destruct (String.eqb_spec x y) as [->|Hne]; [intros _; split; [lia|reflexivity]|].
  intros [E|H]; [congruence|]. destruct (IH H) as [H1 H2]. split; [lia|exact H2].
Qed.
Lemma pos_nth x l i : NoDup l -> nth_error l i = Some x -> pos x l = i.
Proof.
  intros Hn. revert i. induction Hn as [|y l Hy Hn IH]; intros [|i] E; cbn in *; try discriminate.
  - injection E as ->. now rewrite String.eqb_refl.
  - destruct (String.eqb_spec x y) as [->|]; [exfalso; apply Hy; eapply nth_error_In; eauto|]. f_equal. auto.
Qed.

Definition x_ (u : string) : name := n_ (pos u nodes).
Definition Vg : dict (list Z) := map (fun i => (n_ i, zrange 0 K)) (seq 0 n).
Definition Cg : list pbody := flat_map (fun p => [PForm (FBin UNe (FVar (x_ (fst p))) (FVar (x_ (snd p))))]) edges.

Lemma vdict_get k : forall l, NoDup l -> forall u, In u l -> dget (vdict l k) u = Some (n_ (k + pos u l)).
Proof.
  intros l. revert k. induction l as [|y l IH]; intros k Hn u Hu; [contradiction|]. inversion Hn; subst. unfold vdict. cbn.
  destruct (String.eqb_spec u y) as [->|Hne]; [now rewrite Nat.add_0_r|]. destruct Hu as [E|Hu]; [congruence|].
  fold (vdict l (S k)). rewrite (IH (S k)) by assumption. now rewrite <- plus_n_Sm.
Qed.

Lemma names_Vg x : In x (names_of Vg) <-> exists i, (i < n)%nat /\ x = n_ i.
Proof.
  unfold Vg, names_of. rewrite map_map, in_map_iff. cbn. split.
  - intros (i & <- & Hi). apply in_seq in Hi. exists i. split; [lia|reflexivity].
  - intros (i & Hi & ->). exists i. split; [reflexivity|apply in_seq; lia].
Qed.

Lemma graph_adds : adds P0 [] (graph_init nodes edges labels) (vdict nodes 0) Vg Cg.
Proof.
  destruct Hg as [Hn He]. unfold graph_init.
  replace Vg with (Vg ++ [] ++ []) by apply app_nil_r. replace Cg with ([] ++ Cg ++ []) by apply app_nil_r.
  eapply adds_bind; [apply (nodes_adds P0 (zrange 0 K) (zrange_NoDup _ _) nodes [] [] Hn); cbn; intros; try contradiction; auto|].
  cbn [length]. change (([] : dict name) ++ vdict nodes 0) with (vdict nodes 0). fold n. fold Vg.
  eapply adds_bind; [|apply adds_ret].
  replace (@nil (name * list Z)) with (flat_map (fun _ : string * string => @nil (name * list Z)) edges) at 2 by (clear; induction edges; auto).
  apply (adds_for P0 _ (fun _ => tt)). intros l1 [u v] l2 E.
  assert (Huv : In u nodes /\ In v nodes) by (apply He; rewrite E; apply in_or_app; right; now left). destruct Huv as [Hu Hv].
  cbn [fst snd]. set (q := [PForm (FBin UNe (FVar (x_ u)) (FVar (x_ v)))]).
  apply (adds_bind P0 _ _ _ (x_ u) tt [] [] [] q); [unfold op_item; rewrite (vdict_get 0) by assumption; apply adds_ret|].
  apply (adds_bind P0 _ _ _ (x_ v) tt [] [] [] q); [unfold op_item; rewrite (vdict_get 0) by assumption; apply adds_ret|].
  apply adds_form; [apply not_consts_l| |intros a; cbn; eexists; reflexivity|reflexivity|reflexivity].
  intros x Hx. rewrite !names_app, !in_app_iff. left. left. left. right. apply names_Vg.
  destruct Hx as [<-|[<-|[]]]; [exists (pos u nodes)|exists (pos v nodes)]; split; auto; now apply pos_spec.
Qed.

Definition labelling (f : nat -> nat) : list (string * string) :=
  map (fun u => (u, nth (f (pos u nodes)) labels ""%string)) nodes.

Lemma vdict_eq : vdict nodes 0 = map (fun u => (u, x_ u)) nodes.
Proof.
  unfold vdict, x_. destruct Hg as [Hn _]. clear Hg P0 n K. 
  assert (H : forall l k, NoDup l -> combine l (map n_ (seq k (length l))) = map (fun u => (u, n_ (k + pos u l))) l).
  { clear. induction l as [|y l IH]; intros k Hn; [reflexivity|]. inversion Hn; subst. cbn. rewrite String.eqb_refl, Nat.add_0_r. f_equal.
    rewrite IH by assumption. apply map_ext_in. intros u Hu. destruct (String.eqb_spec u y) as [->|]; [contradiction|]. now rewrite <- plus_n_Sm. }
  rewrite H by exact Hn. reflexivity.
Qed.

Lemma decode_labels s : (forall i, (i < n)%nat -> dget s (n_ i) = Some (val s (n_ i)) /\ 0 <= val s (n_ i) < K) ->
  graph_decode labels (vdict nodes 0) s = Ok (labelling (fun i => Z.to_nat (val s (n_ i)))).
Proof.
  intros H. rewrite vdict_eq. unfold graph_decode, labelling.
  set (g := fun p : string * name => let! v := get_item s (snd p) in let! l := get_label labels v in Ok (fst p, l)).
  assert (Hl : forall l, (forall u, In u l -> In u nodes) ->
    mapM g (map (fun u => (u, x_ u)) l) =
    Ok (map (fun u => (u, nth (Z.to_nat (val s (n_ (pos u nodes)))) labels ""%string)) l)).
  { induction l as [|u l IH]; intros Hl; [reflexivity|]. cbn [map mapM]. unfold g at 1. cbn [fst snd].
    destruct (H (pos u nodes)) as [H1 H2]; [apply pos_spec; apply Hl; now left|]. fold (x_ u) in *.
    unfold get_item. rewrite H1. cbn [bind]. unfold get_label. destruct (Z.ltb_spec (val s (x_ u)) 0); [lia|].
    rewrite (nth_error_nth' labels ""%string) by (unfold K in H2; lia). cbn [bind]. rewrite IH by (intros w Hw; apply Hl; now right). reflexivity. }
  apply Hl. auto.
Qed.

Lemma sat_edges a : (forall p, In p Cg -> sat P0 a p) <-> forall u v, In (u, v) edges -> a (x_ u) <> a (x_ v).
Proof.
  unfold Cg. split.
  - intros H u v Huv. destruct (H (PForm (FBin UNe (FVar (x_ u)) (FVar (x_ v))))) as (w & Hw & Hne).
    + apply in_flat_map. exists (u, v). split; [exact Huv|now left].
    + cbn [meaning arith] in Hw. destruct (Z.eqb_spec (a (x_ u)) (a (x_ v))); congruence.
  - intros H p Hp. apply in_flat_map in Hp. destruct Hp as ([u v] & Huv & [<-|[]]). exists 1. cbn [meaning arith fst snd]. specialize (H u v Huv).
    destruct (Z.eqb_spec (a (x_ u)) (a (x_ v))); [contradiction|]. split; [reflexivity|lia].
Qed.

Lemma In_labelling f u l : In (u, l) (labelling f) <-> In u nodes /\ l = nth (f (pos u nodes)) labels ""%string.
Proof.
  unfold labelling. rewrite in_map_iff. split; [intros (w & E & Hw); injection E as <- <-; auto|intros [H ->]; exists u; auto].
Qed.

Lemma Vg_In i : (i < n)%nat -> In (n_ i, zrange 0 K) Vg.
Proof. intros H. unfold Vg. apply in_map_iff. exists i. split; [reflexivity|apply in_seq; lia]. Qed.

Lemma graph_describes : nodes <> [] -> NoDup labels ->
  describes (graph_init nodes edges labels) (vdict nodes 0) Vg Cg (graph_decode labels) (proper_colouring nodes edges labels).
Proof.
  intros Hne Hl. pose proof (adds_NoDup _ _ _ _ graph_adds) as HND.
  assert (Hnn : (1 <= n)%nat).
  { assert (H : forall l : list string, l <> [] -> (1 <= length l)%nat) by (intros [|? ?] ?; [contradiction|cbn; lia]). exact (H nodes Hne). }
  assert (Hq : forall s, good_solution P0 Vg Cg s -> forall i, (i < n)%nat -> dget s (n_ i) = Some (val s (n_ i)) /\ 0 <= val s (n_ i) < K).
  { intros s [H _] i Hi. destruct (H _ _ (Vg_In i Hi)) as [H1 H2]. split; [exact H1|]. now apply zrange_In. }
  destruct Hg as [Hnd He].
  assert (Hpos : forall u, In u nodes -> (pos u nodes < n)%nat) by (intros u Hu; now apply pos_spec).
  assert (Hat : forall i, (i < n)%nat -> exists u, In u nodes /\ pos u nodes = i).
  { intros i Hi. destruct (nth_error nodes i) as [u|] eqn:E; [|apply nth_error_None in E; unfold n in Hi; lia]. exists u. split; [eapply nth_error_In; eauto|now apply pos_nth]. }
  assert (Hinj : forall a b, (a < length labels)%nat -> (b < length labels)%nat -> nth a labels ""%string = nth b labels ""%string -> a = b).
  { intros a b Ha Hb E. apply (proj1 (NoDup_nth labels ""%string) Hl a b Ha Hb E). }
  constructor.
  - exact graph_adds.
  - intros E. pose proof (Vg_In 0 ltac:(lia)) as H. rewrite E in H. contradiction.
  - intros p Hp. unfold Cg in Hp. apply in_flat_map in Hp. destruct Hp as ([u v] & _ & [<-|[]]). cbn [p_safe f_safe f_arith fst snd].
    unfold x_, n_. rewrite !name1_ok by reflexivity. reflexivity.
  - intros s Hgs. pose proof (Hq s Hgs) as Hq'. eexists. split; [now apply decode_labels|].
    destruct Hgs as [_ Hc]. pose proof (proj1 (sat_edges (val s)) Hc) as Hcc. split; [|split].
    + unfold labelling. rewrite map_map. apply map_id.
    + intros u l Hul. apply In_labelling in Hul. destruct Hul as [Hu ->]. apply nth_In. destruct (Hq' (pos u nodes) (Hpos u Hu)). unfold K in *. lia.
    + intros u v l l' Huv Hu Hv E. apply In_labelling in Hu, Hv. destruct Hu as [Hu ->], Hv as [Hv ->]. apply (Hcc u v Huv).
      destruct (Hq' (pos u nodes) (Hpos u Hu)), (Hq' (pos v nodes) (Hpos v Hv)). apply Hinj in E; unfold K in *; [|lia|lia].
      unfold x_. lia.
  - intros s s' b Hgs Hgs' Hd Hd' x Hx. pose proof (Hq s Hgs) as Hq1. pose proof (Hq s' Hgs') as Hq2.
    rewrite decode_labels in Hd, Hd' by assumption. rewrite <- Hd in Hd'. injection Hd' as E.
    apply names_Vg in Hx. destruct Hx as (i & Hi & ->). destruct (Hat i Hi) as (u & Hu & Ei).
    assert (H1 : In (u, nth (Z.to_nat (val s (n_ (pos u nodes)))) labels ""%string) (labelling (fun i => Z.to_nat (val s (n_ i))))) by (apply In_labelling; auto).
    rewrite <- E in H1. apply In_labelling in H1. destruct H1 as [_ H1]. rewrite Ei in H1.
    destruct (Hq1 i Hi), (Hq2 i Hi). apply Hinj in H1; unfold K in *; lia.
  - intros b (Hb1 & Hb2 & Hb3).
    assert (HbND : NoDup (names_of b)) by exact (eq_ind_r (@NoDup string) Hnd Hb1).
    set (lab := fun u => match dget b u with Some l => l | None => ""%string end).
    assert (Hlab : forall u, In u nodes -> In (u, lab u) b).
    { intros u Hu. rewrite <- Hb1 in Hu. apply in_map_iff in Hu. destruct Hu as ([w l] & E & Hin). cbn in E. subst w.
      unfold lab. now rewrite (dget_NoDup b u l HbND Hin). }
    set (L := map (fun u => (x_ u, Z.of_nat (pos (lab u) labels))) nodes).
    assert (HLn : names_of L = names_of Vg).
    { unfold L, Vg, names_of. rewrite !map_map. cbn [fst].
      assert (H : forall l k, NoDup l -> map (fun u => n_ (k + pos u l)) l = map n_ (seq k (length l))).
      { clear. induction l as [|y l IH]; intros k Hn; [reflexivity|]. inversion Hn; subst. cbn. rewrite String.eqb_refl, Nat.add_0_r. f_equal.
        rewrite <- IH by assumption. apply map_ext_in. intros u Hu. destruct (String.eqb_spec u y) as [->|]; [contradiction|]. now rewrite <- plus_n_Sm. }
      exact (H nodes 0%nat Hnd). }
    assert (Hval : forall u, In u nodes -> val L (x_ u) = Z.of_nat (pos (lab u) labels)).
    { intros u Hu. apply val_In; [rewrite HLn; exact HND|]. unfold L. apply in_map_iff. exists u. auto. }
    assert (Hll : forall u, In u nodes -> (pos (lab u) labels < length labels)%nat /\ nth (pos (lab u) labels) labels ""%string = lab u).
    { intros u Hu. destruct (pos_spec (lab u) labels) as [P1 P2]; [apply (Hb2 u), Hlab, Hu|]. split; [exact P1|]. apply nth_error_nth. exact P2. }
    exists (val L). split; [|split].
    + intros x d Hin. unfold Vg in Hin. apply in_map_iff in Hin. destruct Hin as (i & E & Hi). apply pair_equal_spec in E. destruct E as [<- <-]. apply in_seq in Hi.
      destruct (Hat i) as (u & Hu & <-); [lia|]. fold (x_ u). rewrite Hval by exact Hu. apply zrange_In. destruct (Hll u Hu). unfold K. lia.
    + apply sat_edges. intros u v Huv. destruct (He u v Huv) as [Hu Hv]. rewrite !Hval by assumption. intros E.
      apply (Hb3 u v (lab u) (lab v) Huv (Hlab u Hu) (Hlab v Hv)). rewrite <- (proj2 (Hll u Hu)), <- (proj2 (Hll v Hv)). f_equal. lia.
    + intros s Hs'.
      assert (Hsv : forall u, In u nodes -> dget s (x_ u) = Some (Z.of_nat (pos (lab u) labels))).
      { intros u Hu. rewrite Hs', Hval; [reflexivity|exact Hu|]. apply names_Vg. exists (pos u nodes). split; [now apply Hpos|reflexivity]. }
      assert (Hvv : forall u, In u nodes -> val s (x_ u) = Z.of_nat (pos (lab u) labels)).
      { intros u Hu. unfold val, dget_or. now rewrite Hsv. }
      rewrite decode_labels.
      * f_equal. unfold labelling. transitivity (map (fun u => (u, lab u)) nodes).
        -- apply map_ext_in. intros u Hu. fold (x_ u). rewrite Hvv, Nat2Z.id by exact Hu. f_equal. now apply Hll.
        -- rewrite <- Hb1. clear - HbND lab. unfold lab in *. rewrite map_map. transitivity (map (fun p => p) b); [|apply map_id].
           apply map_ext_in. intros [u l] Hin. cbn. now rewrite (dget_NoDup b u l HbND Hin).
      * intros i Hi. destruct (Hat i Hi) as (u & Hu & <-). fold (x_ u). rewrite Hvv by exact Hu. split; [now apply Hsv|]. destruct (Hll u Hu). unfold K. lia.
Qed.

Lemma graph_exact clk shuffle o : nodes <> [] -> NoDup labels -> shuffles shuffle ->
  exactly (fun fuel => graph_run clk shuffle fuel nodes edges labels o) (proper_colouring nodes edges labels) (o_timeout o) (o_limit o).
Proof. intros Hne Hl Hs. exact (describes_exactly clk shuffle _ _ _ _ _ _ _ _ _ _ (graph_describes Hne Hl) Hs). Qed.
End G.
