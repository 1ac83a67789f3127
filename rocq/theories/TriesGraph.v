(** The partial colourings tried by GraphLabelingSolver. *)
From Coq Require Import Permutation.
From Verif Require Import PuzzleWatch SpecPuzzle SpecGraph SpecSafe SpecSolve SpecOrder SpecWatch SpecTries NameFacts DictFacts
  ExprFacts ExprProps PuzzleFacts PuzzleUserFacts GraphFacts TriesFacts.
Open Scope list_scope.
Open Scope Z_scope.

Local Arguments x_ : simpl never.
Local Arguments n_ : simpl never.

Lemma ne_vars x y ex : build (FBin UNe (FVar x) (FVar y)) = Ok (OExpr ex) -> incl (fvars (FBin UNe (FVar x) (FVar y))) (vars ex).
Proof.
  intros E z Hz. apply vars_occurs. cbn in E. injection E as <-. cbn in *. destruct Hz as [<-|[<-|[]]]; [apply occ_binl|apply occ_binr]; constructor.
Qed.

(** Unpacking a run. *)
Lemma puzzle_watched_inv {A} clk shuffle f (init : op A) obj V C sv ts ys r i :
  adds (fun _ => 0) [] init obj V C -> puzzle_watched clk shuffle f init sv = Some (ts, ys, r, i) ->
  exists e e', construct init = Ok (obj, e) /\ built (fun _ => 0) (e_world e) V C /\
    solve_watched clk shuffle f e sv no_args = Some (ts, ys, e', r) /\ i = e_interrupt e'.
Proof.
  intros Ha H. destruct (adds_construct init obj V C Ha) as (e & Ec & Hb). unfold puzzle_watched in H. rewrite Ec in H.
  destruct (solve_watched clk shuffle f e sv no_args) as [[[[ts' ys'] e'] r']|] eqn:E; [|discriminate]. injection H as <- <- <- <-.
  exists e, e'. auto.
Qed.

Lemma Forall2_map_fst {A B C} (R : (A * C) -> B -> Prop) t b : Forall2 R t b -> length t = length b.
Proof. induction 1; cbn; congruence. Qed.

Lemma map_inj {A B} (f : A -> B) : (forall a b, f a = f b -> a = b) -> forall l q, map f l = map f q -> l = q.
Proof.
  intros Hf. induction l as [|a l IH]; intros [|b q] E; try discriminate; [reflexivity|]. cbn in E. injection E as E1 E2. f_equal; auto.
Qed.

Section G.
Variables (nodes : list string) (edges : list (string * string)) (labels : list string).
Hypothesis Hg : is_graph nodes edges.
Hypothesis Hloop : forall u, ~ In (u, u) edges.
Hypothesis Hne : nodes <> [].
Hypothesis Hl : NoDup labels.
Let P0 := fun _ : nat => 0.
Let K := Z.of_nat (length labels).
Let V := Vg nodes labels.
Let C := Cg nodes edges.
Let node (i : nat) : string := nth i nodes ""%string.
Let Hnd : NoDup nodes := proj1 Hg.

Lemma node_pos i : (i < length nodes)%nat -> pos (node i) nodes = i.
Proof. intros Hi. apply pos_nth; [exact Hnd|]. now apply nth_error_nth'. Qed.

Lemma node_x i : (i < length nodes)%nat -> x_ nodes (node i) = n_ i.
Proof. intros Hi. unfold x_. now rewrite node_pos. Qed.

Lemma n_inj i j : n_ i = n_ j -> i = j.
Proof. apply name1_inj. Qed.

Lemma edge_sat a u v : In (u, v) edges -> (sat P0 a (PForm (FBin UNe (FVar (x_ nodes u)) (FVar (x_ nodes v)))) <-> a (x_ nodes u) <> a (x_ nodes v)).
Proof.
  intros _. cbn [sat meaning arith]. split.
  - intros (w & Hw & Hn). destruct (Z.eqb_spec (a (x_ nodes u)) (a (x_ nodes v))); congruence.
  - intros H. exists 1. destruct (Z.eqb_spec (a (x_ nodes u)) (a (x_ nodes v))); [contradiction|]. split; [reflexivity|lia].
Qed.

Lemma C_form g : In (PForm g) C -> exists u v, In (u, v) edges /\ g = FBin UNe (FVar (x_ nodes u)) (FVar (x_ nodes v)).
Proof. intros H. unfold C, Cg in H. apply in_flat_map in H. destruct H as ([u v] & Huv & [E|[]]). injection E as <-. eauto. Qed.
Lemma C_diff xs : ~ In (PDiff xs) C.
Proof. intros H. unfold C, Cg in H. apply in_flat_map in H. destruct H as ([u v] & _ & [E|[]]). discriminate. Qed.

Lemma graph_keeps : keeps_names C.
Proof. intros g ex Hg' E. destruct (C_form g Hg') as (u & v & _ & ->). now apply ne_vars. Qed.

Lemma graph_solvable w : built P0 w V C -> m_solvable (w_model w) = true.
Proof.
  intros Hb. destruct (m_solvable (w_model w)) eqn:E; [reflexivity|exfalso].
  destruct (b_solv _ _ _ _ Hb E) as ([g|xs] & Hp & Hn); [|now apply C_diff in Hp].
  destruct (C_form g Hp) as (u & v & Huv & ->). destruct (proj2 Hg u v Huv) as [Hu Hv].
  assert (Hx : x_ nodes u <> x_ nodes v).
  { intros Ex. apply n_inj in Ex. destruct (pos_spec nodes labels u nodes Hu) as [_ E1], (pos_spec nodes labels v nodes Hv) as [_ E2]. rewrite Ex, E2 in E1. injection E1 as ->.
    now apply (Hloop u). }
  apply (Hn (fun x => if String.eqb x (x_ nodes u) then 0 else 1)). apply edge_sat; [exact Huv|]. rewrite String.eqb_refl.
  destruct (String.eqb_spec (x_ nodes v) (x_ nodes u)); congruence.
Qed.

Lemma graph_names : names_of V = map n_ (seq 0 (length nodes)).
Proof. unfold V, Vg, names_of. rewrite map_map. reflexivity. Qed.

(** An assignment of values in range stands for a colouring of the nodes. *)
Lemma stands_exists : forall li t, map fst t = map n_ li -> (forall i, In i li -> (i < length nodes)%nat) ->
  (forall x v, In (x, v) t -> 0 <= v < K) -> exists b, stands_for nodes labels t b /\ map fst b = map node li.
Proof.
  induction li as [|i li IH]; intros [|[x v] t] E Hi Hv; try discriminate; [exists []; split; [constructor|reflexivity]|].
  cbn in E. injection E as -> E. destruct (IH t E) as (b & Hb & Eb); [intros j Hj; apply Hi; now right|intros y w Hy; apply (Hv y w); now right|].
  assert (Hvv : 0 <= v < K) by (apply (Hv (n_ i) v); now left). unfold K in Hvv.
  exists ((node i, nth (Z.to_nat v) labels ""%string) :: b). split; [|cbn; now rewrite Eb].
  constructor; [|exact Hb]. exists i, (Z.to_nat v). cbn. split; [apply nth_error_nth'; apply Hi; now left|].
  split; [apply nth_error_nth'; lia|]. now rewrite Z2Nat.id by lia.
Qed.

Lemma stands_In t b u l : stands_for nodes labels t b -> In (u, l) b -> exists i j,
  nth_error nodes i = Some u /\ nth_error labels j = Some l /\ In (n_ i, Z.of_nat j) t.
Proof.
  intros H Hin. destruct (Forall2_In_r _ _ _ _ H Hin) as (p & Hp & i & j & E1 & E2 & ->). exists i, j. auto.
Qed.

Lemma map_split {A B} (f : A -> B) : forall l a b c, map f l = a ++ b :: c -> exists la x lc, l = la ++ x :: lc /\ map f la = a /\ f x = b /\ map f lc = c.
Proof.
  induction l as [|x l IH]; intros [|a0 a] b c E; cbn in E; try discriminate.
  - injection E as <- <-. exists [], x, l. auto.
  - injection E as <- E. destruct (IH a b c E) as (la & y & lc & -> & <- & <- & <-). exists (x :: la), y, lc. auto.
Qed.

Section Order.
Variable l : list nat.
Hypothesis Hperm : Permutation (seq 0 (length nodes)) l.

Lemma l_lt i : In i l -> (i < length nodes)%nat.
Proof. intros H. apply (Permutation_in _ (Permutation_sym Hperm)) in H. apply in_seq in H. lia. Qed.

Lemma order_NoDup : NoDup (map n_ l).
Proof.
  apply FinFun.Injective_map_NoDup; [intros i j; apply n_inj|]. apply (Permutation_NoDup Hperm). apply seq_NoDup.
Qed.

Lemma tried_colouring t : starts (map n_ l) t -> tried P0 V C t ->
  exists b, stands_for nodes labels t b /\ partial_colouring (map node l) edges labels b.
Proof.
  intros (x & q & E) (H1 & H2 & _). destruct (map_split n_ l _ _ _ E) as (li & i & lq & El & Et & _ & _).
  assert (Hnt : NoDup (names_of t)).
  { pose proof order_NoDup as HN. rewrite E in HN. apply NoDup_app_inv in HN. apply HN. }
  destruct (stands_exists li t (eq_sym Et)) as (b & Hb & Eb).
  - intros j Hj. apply l_lt. rewrite El. apply in_or_app. now left.
  - intros y v Hy. destruct (H1 y v Hy) as (d & Hd & Hin). unfold V, Vg in Hd. apply in_map_iff in Hd. destruct Hd as (j & Ed & _). injection Ed as <- <-.
    apply zrange_In in Hin. unfold K. lia.
  - exists b. split; [exact Hb|]. split; [|split].
    + exists (node i), (map node lq). rewrite Eb, El, map_app. reflexivity.
    + intros u lab Hu. destruct (stands_In t b u lab Hb Hu) as (j & k & _ & Ek & _). exact (nth_error_In _ _ Ek).
    + intros u v lab lab' Huv Hu Hv <-. destruct (stands_In t b u lab Hb Hu) as (j & k & Ej & Ek & Hj).
      destruct (stands_In t b v lab Hb Hv) as (j' & k' & Ej' & Ek' & Hj').
      assert (Ex : x_ nodes u = n_ j) by (unfold x_; now rewrite (pos_nth u nodes j Hnd Ej)).
      assert (Ex' : x_ nodes v = n_ j') by (unfold x_; now rewrite (pos_nth v nodes j' Hnd Ej')).
      assert (Ekk : k = k').
      { apply (proj1 (NoDup_nth_error labels) Hl); [apply nth_error_Some; congruence|congruence]. }
      assert (Hsat : sat P0 (val t) (PForm (FBin UNe (FVar (x_ nodes u)) (FVar (x_ nodes v))))).
      { apply H2.
        - unfold C, Cg. apply in_flat_map. exists (u, v). split; [exact Huv|now left].
        - rewrite Ex, Ex'. intros z [<-|[<-|[]]]; [exact (in_map fst _ _ Hj)|exact (in_map fst _ _ Hj')]. }
      apply (edge_sat (val t) u v Huv) in Hsat. apply Hsat. rewrite Ex, Ex', (val_In t _ _ Hnt Hj), (val_In t _ _ Hnt Hj'). now rewrite Ekk.
Qed.

Lemma colouring_tried b : partial_colouring (map node l) edges labels b ->
  exists t, stands_for nodes labels t b /\ starts (map n_ l) t /\ tried P0 V C t.
Proof.
  intros ((u & rest & E) & Hlab & Hedge). destruct (map_split node l _ _ _ E) as (li & i & lq & El & Eb & _ & _).
  set (g := fun p : string * string => (x_ nodes (fst p), Z.of_nat (pos (snd p) labels))).
  assert (Hin : forall v lab, In (v, lab) b -> exists j, In j li /\ v = node j).
  { intros v lab Hv. apply (in_map fst) in Hv. cbn in Hv. rewrite <- Eb in Hv. apply in_map_iff in Hv. destruct Hv as (j & <- & Hj). eauto. }
  assert (Hlt : forall j, In j li -> (j < length nodes)%nat).
  { intros j Hj. apply l_lt. rewrite El. apply in_or_app. now left. }
  assert (Hk : map fst (map g b) = map n_ li).
  { rewrite map_map. transitivity (map (x_ nodes) (map fst b)); [now rewrite map_map|]. rewrite <- Eb, map_map. apply map_ext_in. intros j Hj. apply node_x. now apply Hlt. }
  assert (Hnt : NoDup (names_of (map g b))).
  { pose proof order_NoDup as HN. rewrite El, map_app, <- Hk in HN. apply NoDup_app_inv in HN. apply HN. }
  exists (map g b). split; [|split; [|split; [|split]]].
  - assert (Hgen : forall b', incl b' b -> stands_for nodes labels (map g b') b').
    { induction b' as [|[v lab] b' IH]; intros Hi; [constructor|]. constructor; [|apply IH; intros p Hp; apply Hi; now right].
      assert (Hv : In (v, lab) b) by (apply Hi; now left). destruct (Hin v lab Hv) as (j & Hj & ->).
      exists j, (pos lab labels). cbn. split; [apply nth_error_nth'; now apply Hlt|]. split; [apply (pos_spec nodes labels); now apply (Hlab (node j))|].
      unfold g. cbn. now rewrite node_x by now apply Hlt. }
    apply Hgen. intros p Hp. exact Hp.
  - exists (n_ i), (map n_ lq). rewrite El, map_app, Hk. reflexivity.
  - intros x v Hx. apply in_map_iff in Hx. destruct Hx as ([w lab] & Ew & Hw). unfold g in Ew. cbn in Ew. injection Ew as <- <-.
    destruct (Hin w lab Hw) as (j & Hj & ->). rewrite node_x by now apply Hlt. exists (zrange 0 K). split; [apply Vg_In; now apply Hlt|].
    apply zrange_In. destruct (pos_spec nodes labels lab labels (Hlab _ _ Hw)) as [Hp _]. unfold K. lia.
  - intros f Hf Hb. destruct (C_form f Hf) as (v & w & Hvw & ->). apply edge_sat; [exact Hvw|]. intros Ev.
    destruct (proj2 Hg v w Hvw) as [Hvn Hwn].
    assert (Hget : forall z, In z nodes -> In (x_ nodes z) (map fst (map g b)) -> exists lab, In (z, lab) b).
    { intros z Hz Hx. rewrite map_map in Hx. apply in_map_iff in Hx. destruct Hx as ([z' lab] & Ez & Hz'). cbn in Ez.
      destruct (Hin z' lab Hz') as (j & Hj & ->). rewrite node_x in Ez by now apply Hlt. apply n_inj in Ez.
      destruct (pos_spec nodes labels z nodes Hz) as [_ Hz2]. rewrite <- Ez in Hz2. exists lab.
      replace z with (node j); [exact Hz'|]. unfold node. now apply nth_error_nth. }
    destruct (Hget v Hvn) as (lab & Hv); [apply Hb; now left|]. destruct (Hget w Hwn) as (lab' & Hw); [apply Hb; right; now left|].
    apply (in_map g) in Hv as Hv'. apply (in_map g) in Hw as Hw'. unfold g at 1 in Hv'. unfold g at 1 in Hw'. cbn [fst snd] in Hv', Hw'.
    rewrite (val_In _ _ _ Hnt Hv'), (val_In _ _ _ Hnt Hw') in Ev. apply Nat2Z.inj in Ev.
    destruct (pos_spec nodes labels lab labels (Hlab _ _ Hv)) as [_ E1], (pos_spec nodes labels lab' labels (Hlab _ _ Hw)) as [_ E2].
    apply (Hedge v w lab lab' Hvw Hv Hw). congruence.
  - intros xs x y v Hp. now apply C_diff in Hp.
Qed.
End Order.

Lemma graph_tries clk shuffle f o ts ys r i : shuffles shuffle ->
  graph_watched clk shuffle f nodes edges labels o = Some (ts, ys, r, i) ->
  exists order, Permutation order nodes /\ (o_policy o = None \/ o_policy o = Some ORDERED -> order = nodes) /\ NoDup ts /\
    (forall t, In t ts -> exists b, stands_for nodes labels t b /\ partial_colouring order edges labels b) /\
    (i = None -> forall b, partial_colouring order edges labels b -> exists t, In t ts /\ stands_for nodes labels t b).
Proof.
  intros Hs H. pose proof (graph_adds nodes edges labels Hg) as Ha. fold V C in Ha.
  destruct (puzzle_watched_inv clk shuffle f _ _ V C _ ts ys r i Ha H) as (e & e' & _ & Hb & Hrun & ->).
  destruct (graph_describes nodes edges labels Hg Hne Hl) as [_ HV Hsafe _ _ _]. fold V C in HV, Hsafe.
  set (sv := options_solver ORDERED o) in *.
  destruct (new_solver_lims (arg_or (o_policy o) ORDERED) (o_timeout o) (o_limit o) (o_compile o)) as [Hto Hli].
  destruct (t_tries P0 clk shuffle f e sv V C ts ys e' r Hb Hs HV (fun _ => Hsafe) Hto Hli graph_keeps Hrun (graph_solvable _ Hb))
    as (order & Hp & Ho & _ & Ht & Hn & Hall).
  rewrite graph_names in Hp, Ho.
  destruct (Permutation_map_inv _ _ Hp) as (l & -> & Hpl).
  assert (Hnodes : map node (seq 0 (length nodes)) = nodes).
  { unfold node. clear. induction nodes as [|u ns IH]; [reflexivity|]. cbn [length seq map nth]. f_equal. rewrite <- seq_shift, map_map. exact IH. }
  exists (map node l). split; [|split; [|split; [exact Hn|split]]].
  - apply (Permutation_trans (l' := map node (seq 0 (length nodes)))); [apply Permutation_map; now symmetry|rewrite Hnodes; apply Permutation_refl].
  - intros Hpo. assert (E : map n_ l = map n_ (seq 0 (length nodes))).
    { apply Ho. unfold sv, policy_of. cbn. destruct Hpo as [->| ->]; reflexivity. }
    assert (El : l = seq 0 (length nodes)).
    { apply (map_inj n_); [apply n_inj|exact E]. }
    rewrite El. exact Hnodes.
  - intros t Hin. destruct (Ht t Hin) as [H1 H2]. now apply tried_colouring.
  - intros Hi b Hb'. destruct (colouring_tried l Hpl b Hb') as (t & Hst & H1 & H2). exists t. split; [|exact Hst]. now apply Hall.
Qed.

End G.
