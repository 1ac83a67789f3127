(** The order in which puzzles with the policy ORDERED yield their results. *)
From Verif Require Import Graph SpecPuzzle SpecGraph SpecSafe SpecSolve NameFacts DictFacts PuzzleFacts SolverProps GraphFacts.
Open Scope list_scope.
Open Scope Z_scope.

Definition dom_of (V : dict (list Z)) (x : name) : list Z := match dget V x with Some d => d | None => [] end.

Lemma built_variables P w V C : built P w V C -> variables_of (w_model w) = names_of V.
Proof.
  intros Hb. unfold variables_of. rewrite (b_vars _ _ _ _ Hb). clear. unfold names_of. induction V as [|[x d] V IH]; [reflexivity|]. cbn. now f_equal.
Qed.
Lemma built_declared P w V C x : built P w V C -> declared (w_model w) x = dom_of V x.
Proof.
  intros Hb. unfold declared, dom_of. rewrite (b_vars _ _ _ _ Hb). clear. induction V as [|[y d] V IH]; [reflexivity|]. cbn. destruct (String.eqb x y); [reflexivity|exact IH].
Qed.

Lemma puzzle_ordered {A B} clk shuffle (init : op A) (obj : A) V C (decode : A -> subst -> res B) t l cmp fuel bs r i :
  let P := fun _ : nat => 0 in
  adds P [] init obj V C -> shuffles shuffle -> (forall p, In p C -> p_safe p) ->
  (forall s, good_solution P V C s -> exists b, decode obj s = Ok b) ->
  puzzle_run clk shuffle fuel init decode (new_solver ORDERED t l cmp) = Some (bs, r, i) ->
  exists ys, Forall2 (fun s b => decode obj s = Ok b) ys bs /\ (forall s, In s ys -> good_solution P V C s) /\
    ForallOrdPairs (lex_before (names_of V) (dom_of V)) ys.
Proof.
  intros P Hadds Hs Hsafe Hdec H. destruct (adds_construct init obj V C Hadds) as (e & Ec & Hb).
  set (sv := new_solver ORDERED t l cmp) in *. unfold puzzle_run in H. rewrite Ec in H.
  destruct (solve_all clk shuffle fuel e sv no_args) as [[[ys e'] r']|] eqn:Hrun; [|discriminate].
  assert (Hg : forall s, In s ys -> good_solution P V C s).
  { intros s Hin. destruct (b_sound P clk shuffle fuel e sv V C ys e' r' Hb Hs (fun _ => Hsafe) Hrun s Hin) as (_ & _ & H1 & H2). split; assumption. }
  assert (Hmap : exists bs, mapM (decode obj) ys = Ok bs /\ Forall2 (fun s b => decode obj s = Ok b) ys bs).
  { apply mapM_Forall2. intros s Hin. apply Hdec. now apply Hg. }
  destruct Hmap as (bs' & E & Hf). rewrite E in H. injection H as <- <- <-. exists ys. split; [exact Hf|]. split; [exact Hg|].
  destruct (ordered clk shuffle fuel e sv no_args ys e' r' (built_valid P e V C shuffle Hb Hs) Hrun) as (order & _ & Ho & _ & _ & _ & Hlex).
  rewrite (Ho eq_refl), (built_variables P _ V C Hb) in Hlex.
  clear - Hlex Hb. induction Hlex as [|s ys Hx Hl IH]; constructor; [|exact IH].
  eapply Forall_impl; [|exact Hx]. intros s' (p & x & q & a & b & H1 & H2 & H3 & H4 & H5). exists p, x, q, a, b. rewrite <- (built_declared _ _ V C x Hb). auto.
Qed.

Lemma zrange_before k a b : before (zrange 0 k) a b -> a < b.
Proof.
  intros (l1 & l2 & l3 & E). unfold zrange in E.
  assert (H : forall m n l1 l2 l3 a b, map Z.of_nat (seq m n) = l1 ++ a :: l2 ++ b :: l3 -> Z.of_nat m <= a < b).
  { clear. intros m n. revert m. induction n as [|n IH]; intros m l1 l2 l3 a b E; [destruct l1; discriminate|]. cbn [seq map] in E. destruct l1 as [|c l1]; cbn [app] in E.
    - injection E as Ea E. assert (Hb : In b (map Z.of_nat (seq (S m) n))) by (rewrite E; apply in_or_app; right; now left).
      apply in_map_iff in Hb. destruct Hb as (i & <- & Hi). apply in_seq in Hi. lia.
    - injection E as _ E. apply IH in E. lia. }
  eapply (H 0%nat). exact E.
Qed.

Lemma ord_map {A B} (R : A -> A -> Prop) (S : B -> B -> Prop) (D : A -> B -> Prop) (G : A -> Prop) ys bs :
  Forall2 D ys bs -> (forall s, In s ys -> G s) -> (forall s s' b b', G s -> G s' -> D s b -> D s' b' -> R s s' -> S b b') -> ForallOrdPairs R ys -> ForallOrdPairs S bs.
Proof.
  intros Hf Hg HR. induction Hf as [|s b ys bs Hd Hf IH]; intros H; [constructor|]. inversion H as [|? ? H1 H2]; subst. constructor.
  - apply Forall_forall. intros b' Hb'. destruct (Forall2_In_r _ _ _ b' Hf Hb') as (s' & Hs' & Hd'). rewrite Forall_forall in H1.
    apply (HR s s' b b'); auto; [apply Hg; now left|apply Hg; now right].
  - apply IH; [intros; apply Hg; now right|exact H2].
Qed.

Section G.
Variables (nodes : list string) (edges : list (string * string)) (labels : list string).
Hypothesis Hg : is_graph nodes edges.
Let P0 := fun _ : nat => 0.
Let n := length nodes.
Let K := Z.of_nat (length labels).

Lemma graph_ordered clk shuffle o fuel bs r i : o_policy o = None \/ o_policy o = Some ORDERED -> shuffles shuffle ->
  graph_run clk shuffle fuel nodes edges labels o = Some (bs, r, i) -> ForallOrdPairs (earlier_colouring labels) bs.
Proof.
  intros Hpol Hs H. unfold graph_run, options_solver in H.
  assert (Ep : arg_or (o_policy o) ORDERED = ORDERED) by (destruct Hpol as [-> | ->]; reflexivity). rewrite Ep in H.
  assert (Hq : forall s, good_solution P0 (Vg nodes labels) (Cg nodes edges) s -> forall i, (i < n)%nat -> dget s (n_ i) = Some (val s (n_ i)) /\ 0 <= val s (n_ i) < K).
  { intros s [H1 _] j Hj. destruct (H1 _ _ (Vg_In nodes labels j Hj)) as [H2 H3]. split; [exact H2|]. now apply zrange_In. }
  destruct (puzzle_ordered clk shuffle (graph_init nodes edges labels) (vdict nodes 0) (Vg nodes labels) (Cg nodes edges) (graph_decode labels)
    (o_timeout o) (o_limit o) (o_compile o) fuel bs r i (graph_adds nodes edges labels Hg) Hs) as (ys & Hf & Hgs & Hlex).
  - intros p Hp. unfold Cg in Hp. apply in_flat_map in Hp. destruct Hp as ([u v] & _ & [<-|[]]). cbn [p_safe f_safe f_arith fst snd].
    unfold x_, n_. rewrite !name1_ok by reflexivity. reflexivity.
  - intros s Hsol. eexists. apply (decode_labels nodes edges labels Hg). exact (Hq s Hsol).
  - exact H.
  - refine (ord_map _ _ _ _ ys bs Hf Hgs _ Hlex). clear H Hf Hgs Hlex ys.
    intros s s' b b' G1 G2 D1 D2 (p & x & q & a & c & E1 & E2 & E3 & E4 & E5). pose proof (Hq s G1) as Q1. pose proof (Hq s' G2) as Q2.
    rewrite (decode_labels nodes edges labels Hg s Q1) in D1. rewrite (decode_labels nodes edges labels Hg s' Q2) in D2. injection D1 as <-. injection D2 as <-.
    assert (En : names_of (Vg nodes labels) = map n_ (seq 0 n)) by (unfold Vg, names_of; rewrite map_map; reflexivity).
    rewrite En in E1. assert (Hk : exists k, (k < n)%nat /\ x = n_ k /\ p = map n_ (seq 0 k)).
    { clear - E1. assert (Hgen : forall m k p x q, map n_ (seq k m) = p ++ x :: q -> exists j, (j < m)%nat /\ x = n_ (k + j) /\ p = map n_ (seq k j)).
      { induction m as [|m IH]; intros k p' x' q' E; [destruct p'; discriminate|]. cbn [seq map] in E. destruct p' as [|y p']; cbn [app] in E.
        - injection E as <- _. exists 0%nat. rewrite Nat.add_0_r. split; [lia|]. now split.
        - injection E as <- E. destruct (IH (S k) p' x' q' E) as (j & Hj & -> & ->). exists (S j). split; [lia|]. split; [f_equal; lia|reflexivity]. }
      exact (Hgen n 0%nat p x q E1). }
    destruct Hk as (k & Hk & -> & ->). destruct (nth_error nodes k) as [u|] eqn:Eu; [|apply nth_error_None in Eu; unfold n in Hk; lia].
    destruct (nth_error_split nodes k Eu) as (n1 & n2 & Esplit & Elen).
    destruct Hg as [Hnd _].
    assert (Hpos : pos u nodes = k) by (now apply pos_nth).
    destruct (Q1 k Hk) as [A1 A2]. destruct (Q2 k Hk) as [B1 B2]. rewrite A1 in E3. rewrite B1 in E4. injection E3 as <-. injection E4 as <-.
    assert (Ed : dom_of (Vg nodes labels) (n_ k) = zrange 0 K).
    { unfold dom_of. rewrite (dget_NoDup _ _ _ (adds_NoDup _ _ _ _ (graph_adds nodes edges labels Hg)) (Vg_In nodes labels k Hk)). reflexivity. }
    rewrite Ed in E5. apply zrange_before in E5.
    set (f := fun w => (w, nth (Z.to_nat (val s (n_ (pos w nodes)))) labels ""%string)). set (f' := fun w => (w, nth (Z.to_nat (val s' (n_ (pos w nodes)))) labels ""%string)).
    exists (map f n1), u, (snd (f u)), (snd (f' u)), (map f n2), (map f' n2), (Z.to_nat (val s (n_ k))), (Z.to_nat (val s' (n_ k))).
    split; [|split; [|split; [|split]]].
    + unfold labelling. fold f. assert (Em : map f nodes = map f (n1 ++ u :: n2)) by (now rewrite <- Esplit). rewrite Em, map_app. reflexivity.
    + unfold labelling. fold f'. assert (Em : map f' nodes = map f' (n1 ++ u :: n2)) by (now rewrite <- Esplit). rewrite Em, map_app.
      f_equal. apply map_ext_in. intros w Hw. unfold f', f. f_equal. f_equal. f_equal.
      assert (Hp : (pos w nodes < k)%nat).
      { destruct (In_nth_error n1 w Hw) as (j & Ej). assert (Hj : (j < length n1)%nat) by (apply nth_error_Some; congruence).
        assert (pos w nodes = j) by (apply pos_nth; [exact Hnd|]; rewrite Esplit, nth_error_app1 by exact Hj; exact Ej). lia. }
      assert (Hin : In (n_ (pos w nodes)) (map n_ (seq 0 k))) by (apply in_map, in_seq; lia). apply E2 in Hin. unfold val, dget_or. now rewrite Hin.
    + unfold f. cbn [snd]. rewrite Hpos. apply nth_error_nth'. unfold K in A2. lia.
    + unfold f'. cbn [snd]. rewrite Hpos. apply nth_error_nth'. unfold K in B2. lia.
    + lia.
Qed.
End G.
