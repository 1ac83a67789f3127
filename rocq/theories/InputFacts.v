(** Proofs about the input of the programs. *)
From Verif Require Import DemoInput SpecJson JsonFacts SpecInput SpecGraph DictFacts NameFacts PuzzleFacts QueensFacts.
From Coq Require Import Lia FinFun.
Open Scope list_scope.
Open Scope Z_scope.

(** ** Documents *)
Lemma dict_of_NoDup {A} : forall kvs (d : dict A), NoDup (dkeys d) -> NoDup (dkeys (dict_of kvs d)).
Proof. induction kvs as [|[k v] kvs IH]; intros d H; [exact H|]. cbn. apply IH. now apply dset_NoDup. Qed.
Lemma object_NoDup : forall l v, value_text l v -> forall d, v = JObj d -> NoDup (dkeys d).
Proof. intros l v H d E. destruct H; try discriminate E; injection E as <-; [constructor|]. apply dict_of_NoDup. constructor. Qed.
(** The objects inside of a document have distinct keys too. *)
Fixpoint distinct (v : json) : Prop :=
  match v with
  | JList l => fold_right (fun w P => distinct w /\ P) True l
  | JObj d => NoDup (dkeys d) /\ fold_right (fun p P => distinct (snd p) /\ P) True d
  | _ => True
  end.
Lemma dset_fold {A} (P : A -> Prop) : forall (d : dict A) k v, fold_right (fun p Q => P (snd p) /\ Q) True d -> P v ->
  fold_right (fun p Q => P (snd p) /\ Q) True (dset d k v).
Proof. induction d as [|[y b] d IH]; intros k v H Hv; cbn in *; [tauto|]. destruct (String.eqb k y); cbn; intuition. Qed.
Lemma dict_of_fold {A} (P : A -> Prop) : forall kvs (d : dict A), fold_right (fun p Q => P (snd p) /\ Q) True d -> (forall k v, In (k, v) kvs -> P v) ->
  fold_right (fun p Q => P (snd p) /\ Q) True (dict_of kvs d).
Proof.
  induction kvs as [|[k v] kvs IH]; intros d H Hk; [exact H|]. cbn. apply IH; [apply dset_fold; [exact H|]|].
  - apply (Hk k). now left.
  - intros k' v' H'. apply (Hk k'). now right.
Qed.
Lemma text_distinct : (forall l v, value_text l v -> distinct v) /\
  (forall l vs, items_text l vs -> fold_right (fun w P => distinct w /\ P) True vs) /\
  (forall l kvs, members_text l kvs -> forall k v, In (k, v) kvs -> distinct v).
Proof.
  apply texts_mind; intros; cbn; auto.
  - split; [constructor|exact I].
  - split; [apply dict_of_NoDup; constructor|]. apply dict_of_fold; [exact I|assumption].
  - match goal with H : In _ [_] |- _ => destruct H as [E|[]]; injection E as <- <- end. assumption.
  - match goal with H : In _ (_ :: _) |- _ => destruct H as [E|Hin] end; [injection E as <- <-; assumption|eauto].
Qed.
Lemma document_distinct : forall s v, json_text s v -> distinct v.
Proof. intros s v [w1 [l [w2 [_ [_ [H _]]]]]]. exact (proj1 text_distinct _ _ H). Qed.
Lemma member_get : forall v k w, distinct v -> member v k w -> exists d, v = JObj d /\ dget d k = Some w.
Proof. intros v k w Hd [d [-> H]]. exists d. split; [reflexivity|]. apply dget_NoDup; [apply Hd|exact H]. Qed.
Lemma member_field : forall v k w, distinct v -> member v k w -> field v k = Ok w.
Proof. intros v k w Hd H. destruct (member_get _ _ _ Hd H) as [d [-> E]]. cbn. now rewrite E. Qed.
Lemma no_member_field : forall v k, no_member v k -> field v k = Err KeyError.
Proof.
  intros v k [d [-> H]]. cbn. destruct (dget d k) as [w|] eqn:E; [|reflexivity]. exfalso. apply (H w). now apply dget_In.
Qed.
Lemma list_distinct : forall l v, distinct (JList l) -> In v l -> distinct v.
Proof. induction l as [|w l IH]; intros v Hd Hv; [destruct Hv|]. destruct Hv as [<-|H]; cbn in Hd; [apply Hd|]. apply IH; [apply Hd|exact H]. Qed.
Lemma object_distinct : forall d k v, distinct (JObj d) -> In (k, v) d -> distinct v.
Proof.
  intros d k v [_ Hd] H. induction d as [|[k' v'] d IH]; cbn in *; [contradiction|]. destruct H as [E|H]; [injection E as <- <-; apply Hd|apply IH; [apply Hd|exact H]].
Qed.
Lemma member_distinct : forall v k w, distinct v -> member v k w -> distinct w.
Proof. intros v k w Hd [d [-> H]]. now apply (object_distinct d k). Qed.

Lemma all_of_map {A B} (f : json -> option B) (g : A -> json) (h : A -> B) : (forall a, f (g a) = Some (h a)) -> forall l, all_of f (map g l) = Some (map h l).
Proof. intros H. induction l as [|a l IH]; [reflexivity|]. cbn. now rewrite H, IH. Qed.
Lemma all_of_id {A} (f : json -> option A) (g : A -> json) : (forall a, f (g a) = Some a) -> forall l, all_of f (map g l) = Some l.
Proof. intros H l. rewrite (all_of_map f g (fun a => a) H). now rewrite map_id. Qed.
Lemma schema_read : forall s, list_of (list_of cell_of_json) (schema_json s) = Some s.
Proof. intros s. apply all_of_id. intros row. apply all_of_id. now intros [n|]. Qed.
Lemma rows_read : forall l, list_of (list_of int_of_json) (rows_json l) = Some l.
Proof. intros l. apply all_of_id. intros row. apply all_of_id. reflexivity. Qed.
Lemma numbers_read : forall l, list_of number_of_json (ints_json l) = Some (map Some l).
Proof. intros l. apply (all_of_map _ JInt Some). reflexivity. Qed.
Lemma weights_read : forall l, list_of (list_of number_of_json) (rows_json l) = Some (map (map Some) l).
Proof. intros l. apply (all_of_map _ ints_json (map Some)). exact numbers_read. Qed.

Lemma prints_nil : forall r, prints [] r = r.
Proof. intros [[ls|ex]|]; reflexivity. Qed.

(** ** Programs *)
Section Programs.
Variables (clk : nat -> Z) (shuffle : list name -> list name) (fuel : nat) (seconds : Z -> string).

Lemma sudoku_reads : forall text s t l, json_text text (schema_json s) ->
  sudoku_main clk shuffle fuel seconds (Some text) t l false = sudoku_demo clk shuffle fuel seconds s t l.
Proof.
  intros text s t l H. unfold sudoku_main, sudoku_demo. cbn [source_of]. apply loads_iff in H. rewrite H, schema_read.
  destruct (print_sudoku_schema s) as [first|ex]; [|reflexivity]. cbn [show]. rewrite !prints_nil.
  destruct puzzle_demo as [[ls|ex]|]; reflexivity.
Qed.
Lemma nonogram_reads : forall text v rows cols image t l, json_text text v -> member v "rows" (rows_json rows) -> member v "columns" (rows_json cols) ->
  nonogram_main clk shuffle fuel seconds (Some text) image t l false = nonogram_demo clk shuffle fuel seconds rows cols t l.
Proof.
  intros text v rows cols image t l H Hr Hc. unfold nonogram_main, nonogram_rest. pose proof (document_distinct _ _ H) as Hd. apply loads_iff in H.
  cbn [source_of]. rewrite H. cbn [bind]. rewrite (member_field _ _ _ Hd Hr), (member_field _ _ _ Hd Hc). cbn [bind]. rewrite !rows_read. cbn [show]. now rewrite !prints_nil.
Qed.
Lemma nonogram_image : forall image rows cols t l, image_to_nonogram image ZEROES = Ok (rows, cols) ->
  nonogram_main clk shuffle fuel seconds None (Some image) t l false = nonogram_demo clk shuffle fuel seconds rows cols t l.
Proof. intros image rows cols t l H. unfold nonogram_main, nonogram_rest. rewrite H. cbn [show]. now rewrite !prints_nil. Qed.
Lemma knapsack_reads : forall text v values capacities weights t l, json_text text v ->
  member v "values" (ints_json values) -> member v "capacities" (ints_json capacities) -> member v "weights" (rows_json weights) ->
  knapsack_main clk shuffle fuel seconds (Some text) t l false =
  knapsack_demo clk shuffle fuel seconds (map Some values) (map Some capacities) (map (map Some) weights) t l.
Proof.
  intros text v values capacities weights t l H Hv Hc Hw. unfold knapsack_main. pose proof (document_distinct _ _ H) as Hd. apply loads_iff in H.
  cbn [source_of]. rewrite H. cbn [bind]. rewrite (member_field _ _ _ Hd Hv), (member_field _ _ _ Hd Hc), (member_field _ _ _ Hd Hw). cbn [bind].
  rewrite !numbers_read, weights_read. cbn [show]. now rewrite !prints_nil.
Qed.
End Programs.

(** ** Graphs *)
Lemma firsts_In {A} : forall (l r : list A), firsts l r -> forall x, In x r <-> In x l.
Proof.
  intros l r H. induction H as [|l r y H IH Hy|l r y H IH Hy]; intros x; [tauto| |].
  - rewrite in_app_iff, IH. cbn. split; [tauto|]. intros [Hx|[<-|[]]]; auto.
  - rewrite !in_app_iff, IH. tauto.
Qed.
Lemma firsts_NoDup {A} : forall (l r : list A), firsts l r -> NoDup r.
Proof.
  intros l r H. induction H as [|l r y H IH Hy|l r y H IH Hy]; [constructor|exact IH|].
  rewrite <- (firsts_In _ _ H) in Hy. rewrite <- (rev_involutive (r ++ [y])), rev_app_distr. apply NoDup_rev. cbn. constructor; [|now apply NoDup_rev]. now rewrite <- in_rev.
Qed.
Lemma existsb_str : forall y ns, existsb (String.eqb y) ns = true <-> In y ns.
Proof.
  intros y ns. rewrite existsb_exists. split; [intros [z [Hz E]]; apply String.eqb_eq in E; now subst|]. intros H. exists y. split; [exact H|apply String.eqb_refl].
Qed.
Definition adj (g : dict (list string)) (x : string) : list string := match dget g x with Some ns => ns | None => [] end.
Lemma add_node_keys : forall g x l, firsts l (dkeys g) -> firsts (l ++ [x]) (dkeys (add_node g x)).
Proof.
  intros g x l H. unfold add_node. destruct (dget g x) as [ns|] eqn:E.
  - apply fi_old; [exact H|]. apply (firsts_In _ _ H). apply dget_Some. eauto.
  - assert (Hn : ~ In x (dkeys g)) by now apply dget_None. rewrite dkeys_dset. destruct (dmem g x) eqn:Em; [apply dmem_In in Em; contradiction|].
    apply fi_new; [exact H|]. now rewrite <- (firsts_In _ _ H).
Qed.
Lemma add_node_adj : forall g x y, adj (add_node g x) y = adj g y.
Proof.
  intros g x y. unfold add_node. destruct (dget g x) as [ns|] eqn:E; [reflexivity|]. unfold adj. rewrite dget_dset. destruct (String.eqb_spec y x); [subst; now rewrite E|reflexivity].
Qed.
Lemma neighbor_keys : forall g x y, dkeys (neighbor g x y) = dkeys g.
Proof.
  intros g x y. unfold neighbor. destruct (dget g x) as [ns|] eqn:E; [|reflexivity]. rewrite dkeys_dset. assert (H : In x (dkeys g)) by (apply dget_Some; eauto).
  apply dmem_In in H. now rewrite H.
Qed.
Lemma neighbor_adj : forall g x y z, In x (dkeys g) -> (forall w, In w (adj (neighbor g x y) z) <-> In w (adj g z) \/ z = x /\ w = y) /\ (NoDup (adj g z) -> NoDup (adj (neighbor g x y) z)).
Proof.
  intros g x y z Hx. apply dget_Some in Hx. destruct Hx as [ns E]. unfold neighbor. rewrite E. unfold adj. rewrite dget_dset. destruct (String.eqb_spec z x) as [->|Hne].
  - rewrite E. destruct (existsb (String.eqb y) ns) eqn:Ey.
    + apply existsb_str in Ey. split; [|auto]. intros w. split; [auto|]. intros [H|[_ ->]]; assumption.
    + assert (Hn : ~ In y ns) by (rewrite <- existsb_str, Ey; discriminate). split.
      * intros w. rewrite in_app_iff. cbn. intuition.
      * intros H. rewrite <- (rev_involutive (ns ++ [y])), rev_app_distr. apply NoDup_rev. cbn. constructor; [now rewrite <- in_rev|now apply NoDup_rev].
  - split; [|auto]. intros w. intuition congruence.
Qed.
Definition endpoints (links : list (string * string)) : list string := flat_map (fun p => [fst p; snd p]) links.
Record graph_of (mentioned : list string) (links : list (string * string)) (g : dict (list string)) : Prop := GraphOf {
  go_keys : firsts mentioned (dkeys g);
  go_adj : forall x y, In y (adj g x) <-> adjacent links x y;
  go_nodup : forall x, NoDup (adj g x) }.
Lemma nodes_graph : forall ids g l, graph_of l [] g -> graph_of (l ++ ids) [] (fold_left add_node ids g).
Proof.
  induction ids as [|x ids IH]; intros g l H; [now rewrite app_nil_r|]. cbn. replace (l ++ x :: ids) with ((l ++ [x]) ++ ids) by now rewrite <- app_assoc.
  apply IH. destruct H as [H1 H2 H3]. constructor; [now apply add_node_keys| |]; intros; rewrite add_node_adj; auto.
Qed.
Lemma edge_graph : forall g l links e, graph_of l links g -> graph_of (l ++ [fst e; snd e]) (links ++ [e]) (add_edge g e).
Proof.
  intros g l links [x y] [H1 H2 H3]. cbn [fst snd]. unfold add_edge. cbn [fst snd]. set (g1 := add_node (add_node g x) y).
  assert (K : firsts (l ++ [x; y]) (dkeys g1)).
  { unfold g1. replace (l ++ [x; y]) with ((l ++ [x]) ++ [y]) by now rewrite <- app_assoc. now apply add_node_keys, add_node_keys. }
  assert (Hx : In x (dkeys g1)) by (apply (firsts_In _ _ K), in_app_iff; right; now left).
  assert (Hy : In y (dkeys g1)) by (apply (firsts_In _ _ K), in_app_iff; right; right; now left).
  assert (Ha : forall z, adj g1 z = adj g z) by (intros z; unfold g1; now rewrite !add_node_adj).
  assert (Hy' : In y (dkeys (neighbor g1 x y))) by now rewrite neighbor_keys.
  constructor.
  - now rewrite !neighbor_keys.
  - intros a b. destruct (neighbor_adj (neighbor g1 x y) y x a Hy') as [N1 _]. destruct (neighbor_adj g1 x y a Hx) as [N2 _]. rewrite N1, N2, Ha, H2.
    unfold adjacent. rewrite !in_app_iff. cbn. split.
    + intros [[[H|H]|[-> ->]]|[-> ->]]; auto.
    + intros [[H|[E|[]]]|[H|[E|[]]]]; try injection E as -> ->; auto.
  - intros a. apply (neighbor_adj (neighbor g1 x y) y x a Hy'), (neighbor_adj g1 x y a Hx). rewrite Ha. apply H3.
Qed.
Lemma links_graph : forall more g l links, graph_of l links g -> graph_of (l ++ endpoints more) (links ++ more) (fold_left add_edge more g).
Proof.
  induction more as [|e more IH]; intros g l links H; [cbn; now rewrite !app_nil_r|]. cbn [fold_left endpoints flat_map].
  replace (l ++ ([fst e; snd e] ++ flat_map (fun p => [fst p; snd p]) more)) with ((l ++ [fst e; snd e]) ++ endpoints more) by now rewrite <- app_assoc.
  replace (links ++ e :: more) with ((links ++ [e]) ++ more) by now rewrite <- app_assoc. apply IH. now apply edge_graph.
Qed.

Lemma edges_In : forall g seen x y, In (x, y) (edges_of seen g) <-> exists a ns b, g = a ++ (x, ns) :: b /\ In y ns /\ ~ In y seen /\ ~ In y (dkeys a).
Proof.
  induction g as [|[z ns] g IH]; intros seen x y; cbn [edges_of].
  - split; [intros []|]. intros [a [ns [b [E _]]]]. now destruct a.
  - rewrite in_app_iff, IH. rewrite in_map_iff. split.
    + intros [[w [E H]]|[a [ns' [b [-> [H1 [H2 H3]]]]]]].
      * injection E as -> ->. apply filter_In in H. destruct H as [H1 H2]. exists [], ns, g. split; [reflexivity|]. split; [exact H1|]. split; [|intros []].
        intros Hs. apply existsb_str in Hs. rewrite Hs in H2. discriminate.
      * exists ((z, ns) :: a), ns', b. split; [reflexivity|]. split; [exact H1|]. split; [intros H; apply H2; now right|]. cbn. intros [->|H]; [apply H2; now left|now apply H3].
    + intros [a [ns' [b [E [H1 [H2 H3]]]]]]. destruct a as [|[z' ns0] a]; cbn in E.
      * injection E as -> -> ->. left. exists y. split; [reflexivity|]. apply filter_In. split; [exact H1|]. destruct (existsb (String.eqb y) seen) eqn:Es; [apply existsb_str in Es; contradiction|reflexivity].
      * injection E as -> -> ->. right. exists a, ns', b. split; [reflexivity|]. split; [exact H1|]. cbn in H3. split; [|tauto]. intros [->|H]; tauto.
Qed.
Lemma edges_NoDup : forall g seen, NoDup (dkeys g) -> (forall x ns, In (x, ns) g -> NoDup ns) -> NoDup (edges_of seen g).
Proof.
  induction g as [|[z ns] g IH]; intros seen Hk Hn; [constructor|]. cbn [edges_of]. inversion Hk as [|? ? Hz Hk']; subst.
  assert (Ha : NoDup (map (pair z) (filter (fun y => negb (existsb (String.eqb y) seen)) ns))).
  { apply FinFun.Injective_map_NoDup; [intros a b E; congruence|]. apply NoDup_filter. apply (Hn z). now left. }
  assert (Hb : NoDup (edges_of (z :: seen) g)) by (apply IH; [exact Hk'|]; intros x ns' H; apply (Hn x); now right).
  assert (Hd : forall p, In p (map (pair z) (filter (fun y => negb (existsb (String.eqb y) seen)) ns)) -> ~ In p (edges_of (z :: seen) g)).
  { intros [u v] Hp Hq. apply in_map_iff in Hp. destruct Hp as [w [E _]]. injection E as <- <-. apply edges_In in Hq. destruct Hq as [a [ns' [b [-> _]]]].
    apply Hz. unfold dkeys. rewrite map_app, in_app_iff. right. now left. }
  clear - Ha Hb Hd. induction Ha as [|p l Hp Hl IHl]; cbn; [exact Hb|]. constructor.
  - rewrite in_app_iff. intros [H|H]; [contradiction|]. apply (Hd p); [now left|exact H].
  - apply IHl. intros q Hq. apply Hd. now right.
Qed.
Lemma split_key {A} : forall (g : dict A) x, In x (dkeys g) -> NoDup (dkeys g) -> exists a ns b, g = a ++ (x, ns) :: b /\ dget g x = Some ns /\ ~ In x (dkeys a).
Proof.
  intros g x Hx Hn. apply dget_Some in Hx. destruct Hx as [ns E]. pose proof (dget_In _ _ _ E) as H. apply in_split in H. destruct H as [a [b ->]]. exists a, ns, b. split; [reflexivity|]. split; [exact E|].
  unfold dkeys in Hn. rewrite map_app in Hn. cbn in Hn. apply NoDup_remove_2 in Hn. intros Ha. apply Hn, in_app_iff. now left.
Qed.
Lemma graph_edges : forall m links g, graph_of m links g -> (forall x y, In (x, y) links -> In x m /\ In y m) ->
  forall x y, adjacent (edges_of [] g) x y <-> adjacent links x y.
Proof.
  intros m links g [H1 H2 H3] Hm x y. pose proof (firsts_NoDup _ _ H1) as Hk.
  assert (F : forall u v, In (u, v) (edges_of [] g) -> adjacent links u v).
  { intros u v H. apply edges_In in H. destruct H as [a [ns [b [E [Hv _]]]]]. apply H2. unfold adj.
    assert (Eg : dget g u = Some ns) by (apply dget_NoDup; [exact Hk|]; rewrite E; apply in_app_iff; right; now left). now rewrite Eg. }
  split.
  - intros [H|H]; apply F in H; unfold adjacent in *; tauto.
  - intros H. assert (Hx : In x (dkeys g) /\ In y (dkeys g)).
    { rewrite !(firsts_In _ _ H1). destruct H as [H|H]; apply Hm in H; tauto. }
    assert (Hxy : In y (adj g x)) by now apply H2. assert (Hyx : In x (adj g y)) by (apply H2; unfold adjacent in *; tauto).
    destruct (split_key g x (proj1 Hx) Hk) as [a [ns [b [E [Eg Ha]]]]]. unfold adj in Hxy. rewrite Eg in Hxy.
    destruct (in_dec string_dec y (dkeys a)) as [Hya|Hya].
    + right. apply edges_In. assert (Hna : NoDup (dkeys a)).
      { clear - Hk E. rewrite E in Hk. unfold dkeys in *. rewrite map_app in Hk. clear E. induction (map fst a) as [|h t IHt]; [constructor|]. cbn in Hk. inversion Hk as [|? ? Hh Ht]; subst. constructor; [intros Hi; apply Hh, in_app_iff; now left|now apply IHt]. }
      destruct (split_key a y Hya Hna) as [a1 [ns1 [b1 [E1 [Eg1 Ha1]]]]]. exists a1, ns1, (b1 ++ (x, ns) :: b). split; [rewrite E, E1, <- app_assoc; reflexivity|]. split.
      * unfold adj in Hyx. rewrite E, dget_app, Eg1 in Hyx. exact Hyx.
      * split; [intros []|]. intros Hi. apply Ha. rewrite E1. unfold dkeys. rewrite map_app, in_app_iff. now left.
    + left. apply edges_In. exists a, ns, b. split; [exact E|]. split; [exact Hxy|]. split; [intros []|exact Hya].
Qed.

Lemma all_of_Forall2 {A} (f : json -> option A) (R : json -> A -> Prop) : forall l r, Forall2 R l r -> (forall v a, In v l -> R v a -> f v = Some a) -> all_of f l = Some r.
Proof.
  intros l r H. induction H as [|v a l r Hv H IH]; intros Hf; [reflexivity|]. cbn. rewrite (Hf v a (or_introl eq_refl) Hv), IH; [reflexivity|]. intros v' a' H'. apply Hf. now right.
Qed.
Lemma node_link_read : forall v ids links, distinct v -> node_link v ids links -> exists nodes edges,
  node_link_graph v = Some (nodes, edges) /\ link_graph ids links nodes edges.
Proof.
  intros v ids links Hd [Hm [Hg [[ns [Hn Hns]] [ls [Hl Hls]]]]].
  destruct (member_get _ _ _ Hd Hm) as [d [-> Em]]. destruct (member_get _ _ _ Hd Hg) as [d' [E' Eg]]. injection E' as <-.
  pose proof (member_distinct _ _ _ Hd Hn) as Dn. pose proof (member_distinct _ _ _ Hd Hl) as Dl.
  destruct (member_get _ _ _ Hd Hn) as [d' [E' En]]. injection E' as <-. destruct (member_get _ _ _ Hd Hl) as [d' [E' El]]. injection E' as <-.
  unfold node_link_graph. rewrite Em, Eg, En, El.
  assert (E1 : list_of node_of_json (JList ns) = Some ids).
  { apply (all_of_Forall2 _ _ _ _ Hns). intros n x Hi Hx. destruct (member_get _ _ _ (list_distinct _ _ Dn Hi) Hx) as [dn [-> E]]. cbn. now rewrite E. }
  assert (E2 : list_of link_of_json (JList ls) = Some links).
  { apply (all_of_Forall2 _ _ _ _ Hls). intros n [x y] Hi [Hx Hy]. pose proof (list_distinct _ _ Dl Hi) as D. destruct (member_get _ _ _ D Hx) as [dn [-> E]].
    destruct (member_get _ _ _ D Hy) as [dn' [E' E3]]. injection E' as <-. cbn in *. now rewrite E, E3. }
  rewrite E1, E2. eexists. eexists. split; [reflexivity|].
  assert (G0 : graph_of [] [] []) by (constructor; [constructor|intros; unfold adjacent; cbn; tauto|intros; constructor]).
  pose proof (links_graph links _ _ _ (nodes_graph ids _ _ G0)) as G. cbn [app] in G. set (g := fold_left add_edge links (fold_left add_node ids [])) in *.
  assert (Hends : forall x y, In (x, y) links -> In x (ids ++ endpoints links) /\ In y (ids ++ endpoints links)).
  { intros x y H. rewrite !in_app_iff. unfold endpoints. rewrite !in_flat_map. split; right; exists (x, y); (split; [exact H|]); cbn; tauto. }
  pose proof (go_keys _ _ _ G) as Gk. pose proof (firsts_NoDup _ _ Gk) as Gn.
  split; [|split; [exact Gk|split]].
  - split; [exact Gn|]. intros u w H. assert (Ha : adjacent links u w) by (apply (graph_edges _ _ _ G Hends); now left).
    rewrite !(firsts_In _ _ Gk). destruct Ha as [Ha|Ha]; apply Hends in Ha; tauto.
  - apply edges_NoDup; [exact Gn|]. intros x nn H. apply (dget_NoDup _ _ _ Gn) in H. pose proof (go_nodup _ _ _ G x) as Hnd. unfold adj in Hnd. now rewrite H in Hnd.
  - apply (graph_edges _ _ _ G Hends).
Qed.
Lemma graph_reads : forall clk shuffle fuel seconds text v ids links labels t l, json_text text v -> node_link v ids links ->
  exists nodes edges, link_graph ids links nodes edges /\
    graph_main clk shuffle fuel seconds (Some text) labels t l false = graph_demo clk shuffle fuel seconds nodes edges labels t l.
Proof.
  intros clk shuffle fuel seconds text v ids links labels t l H Hv. destruct (node_link_read _ _ _ (document_distinct _ _ H) Hv) as [nodes [edges [E Hg]]].
  exists nodes, edges. split; [exact Hg|]. unfold graph_main. cbn [source_of]. apply loads_iff in H. rewrite H, E. cbn [show]. now rewrite !prints_nil.
Qed.

(** ** Documents that are not understood *)
Lemma loads_not : forall text, (forall v, ~ json_text text v) -> json_loads text = Err ValueError.
Proof. intros text. apply loads_bad. Qed.
Definition object (v : json) : Prop := exists d, v = JObj d.
Lemma not_object_field : forall v k, ~ object v -> field v k = Err TypeError.
Proof. intros v k H. destruct v; try reflexivity. exfalso. apply H. now exists d. Qed.
Section Bad.
Variables (clk : nat -> Z) (shuffle : list name -> list name) (fuel : nat) (seconds : Z -> string).
Lemma bad_text : forall text image labels t l b, (forall v, ~ json_text text v) ->
  sudoku_main clk shuffle fuel seconds (Some text) t l b = Some (Err ValueError) /\
  nonogram_main clk shuffle fuel seconds (Some text) image t l b = Some (Err ValueError) /\
  knapsack_main clk shuffle fuel seconds (Some text) t l b = Some (Err ValueError) /\
  graph_main clk shuffle fuel seconds (Some text) labels t l b = Some (Err ValueError).
Proof.
  intros text image labels t l b H. apply loads_not in H. unfold sudoku_main, nonogram_main, knapsack_main, graph_main. cbn [source_of]. rewrite H. cbn [bind]. auto.
Qed.
Lemma no_object : forall text v image t l b, json_text text v -> ~ object v ->
  nonogram_main clk shuffle fuel seconds (Some text) image t l b = Some (Err TypeError) /\
  knapsack_main clk shuffle fuel seconds (Some text) t l b = Some (Err TypeError).
Proof.
  intros text v image t l b H Ho. apply loads_iff in H. unfold nonogram_main, knapsack_main. cbn [source_of]. rewrite H. cbn [bind].
  rewrite !(not_object_field v _ Ho). cbn [bind]. auto.
Qed.
Lemma nonogram_missing : forall text v image t l b key, json_text text v -> object v -> In key ["rows"; "columns"]%string -> no_member v key ->
  nonogram_main clk shuffle fuel seconds (Some text) image t l b = Some (Err KeyError).
Proof.
  intros text v image t l b key H [d ->] Hk Hn. apply loads_iff in H. unfold nonogram_main. cbn [source_of]. rewrite H. cbn [bind].
  destruct Hk as [<-|[<-|[]]].
  - now rewrite (no_member_field _ _ Hn).
  - rewrite (no_member_field _ _ Hn). destruct (field (JObj d) "rows") as [r|ex] eqn:E; cbn [bind]; [reflexivity|]. cbn in E. destruct (dget d "rows"); congruence.
Qed.
Lemma knapsack_missing : forall text v t l b key, json_text text v -> object v -> In key ["values"; "capacities"; "weights"]%string -> no_member v key ->
  knapsack_main clk shuffle fuel seconds (Some text) t l b = Some (Err KeyError).
Proof.
  intros text v t l b key H [d ->] Hk Hn. apply loads_iff in H. unfold knapsack_main. cbn [source_of]. rewrite H. cbn [bind]. apply no_member_field in Hn.
  assert (F : forall k, (exists w, field (JObj d) k = Ok w) \/ field (JObj d) k = Err KeyError) by (intros k; cbn; destruct (dget d k); eauto).
  destruct Hk as [<-|[<-|[<-|[]]]]; rewrite Hn; destruct (F "values"%string) as [[w1 E1]|E1]; rewrite E1 in *; cbn [bind]; try congruence;
    destruct (F "capacities"%string) as [[w2 E2]|E2]; rewrite E2 in *; cbn [bind]; congruence.
Qed.

(** ** Built-in data *)
Lemma sudoku_default : forall t l b,
  sudoku_main clk shuffle fuel seconds None t l b =
  preceded [announced "file - using default schema" default_sudoku_source] (sudoku_main clk shuffle fuel seconds (Some default_sudoku_source) t l b).
Proof.
  intros t l b. unfold sudoku_main. cbn [source_of]. destruct (json_loads default_sudoku_source) as [v|ex]; [|reflexivity].
  destruct (list_of (list_of cell_of_json) v) as [s|]; [|reflexivity]. destruct (print_sudoku_schema s) as [dr|ex]; [|reflexivity]. now rewrite (prints_nil (prints _ _)).
Qed.
Lemma nonogram_default : forall t l b,
  nonogram_main clk shuffle fuel seconds None None t l b =
  preceded [announced "file - using default nonogram" default_nonogram_source] (nonogram_main clk shuffle fuel seconds (Some default_nonogram_source) None t l b).
Proof.
  intros t l b. unfold nonogram_main. cbn [source_of].
  destruct (let! v := json_loads default_nonogram_source in let! r := field v "rows" in let! c := field v "columns" in Ok (r, c)) as [[r c]|ex]; [|reflexivity].
  destruct (list_of (list_of int_of_json) r) as [rows|]; [|reflexivity]. destruct (list_of (list_of int_of_json) c) as [cols|]; [|reflexivity].
  unfold nonogram_rest. now rewrite (prints_nil (prints _ _)).
Qed.
Lemma knapsack_default : forall t l b,
  knapsack_main clk shuffle fuel seconds None t l b =
  preceded [announced "file - using default data" default_knapsack_source] (knapsack_main clk shuffle fuel seconds (Some default_knapsack_source) t l b).
Proof.
  intros t l b. unfold knapsack_main. cbn [source_of].
  destruct (let! data := json_loads default_knapsack_source in let! v := field data "values" in let! c := field data "capacities" in let! w := field data "weights" in Ok (v, c, w)) as [[[v c] w]|ex]; [|reflexivity].
  destruct (list_of number_of_json v); [|reflexivity]. destruct (list_of number_of_json c); [|reflexivity]. destruct (list_of (list_of number_of_json) w); [|reflexivity].
  now rewrite (prints_nil (prints _ _)).
Qed.
Lemma graph_default : forall labels t l b,
  graph_main clk shuffle fuel seconds None labels t l b =
  preceded [announced "file - using default data" default_graph_labeling_source] (graph_main clk shuffle fuel seconds (Some default_graph_labeling_source) labels t l b).
Proof.
  intros labels t l b. unfold graph_main. cbn [source_of]. destruct (json_loads default_graph_labeling_source) as [v|ex]; [|reflexivity].
  destruct (node_link_graph v) as [[ns es]|]; [|reflexivity]. now rewrite (prints_nil (prints _ _)).
Qed.

(** ** Showing the model *)
Lemma show_false {A} kind (init : op A) : show false kind init = [].
Proof. reflexivity. Qed.
Lemma einstein_kind_values : forall x d, dvalues (einstein_kind x d) = d.
Proof. intros x d. unfold einstein_kind. destruct (_ =? _)%nat; reflexivity. Qed.
Lemma insert_0 : forall (ms ls : list string), insert_after 0 ms ls = ms ++ ls.
Proof. reflexivity. Qed.
Lemma insert_app : forall h ms (ls : list string), insert_after (length h) ms (h ++ ls) = h ++ ms ++ ls.
Proof. intros h ms ls. unfold insert_after. now rewrite firstn_app, skipn_app, Nat.sub_diag, firstn_all, skipn_all, firstn_O, skipn_O, app_nil_r. Qed.
Lemma shows {A} (init : op A) kind h rest :
  (forall ls, rest = Some (Ok ls) -> exists obj e, construct init = Ok (obj, e)) ->
  (forall obj e x d, construct init = Ok (obj, e) -> dget (m_vars (w_model (e_world e))) x = Some (VVar d) -> dvalues (kind x d) = d) ->
  shows_model (length h) init (prints h rest) (prints h (prints (show true kind init) rest)).
Proof.
  intros Hc Hk. split.
  - intros ls H. destruct rest as [[ls'|ex]|]; try discriminate H. cbn in H. injection H as <-. destruct (Hc ls' eq_refl) as [obj [e E]].
    exists obj, e, (model_domains kind (w_model (e_world e))). split; [exact E|]. split.
    + intros x d Hx. unfold model_domains. rewrite Hx. exact (Hk _ _ _ _ E Hx).
    + unfold show, shown_model. rewrite E. cbn [prints]. now rewrite insert_app.
  - intros H. destruct rest as [[ls|ex]|]; try reflexivity. exfalso. now apply (H (h ++ ls)).
Qed.
Lemma puzzle_demo_constructs {A B} : forall (init : op A) (decode : A -> subst -> res B) sv sh ls,
  puzzle_demo clk shuffle fuel seconds init decode sv sh = Some (Ok ls) -> exists obj e, construct init = Ok (obj, e).
Proof. intros init decode sv sh ls H. unfold puzzle_demo in H. destruct (construct init) as [[obj e]|ex]; [eauto|discriminate]. Qed.
Lemma sudoku_shows : forall text s first t l, json_text text (schema_json s) -> print_sudoku_schema s = Ok first ->
  shows_model (S (length first)) (sudoku_init s) (sudoku_main clk shuffle fuel seconds (Some text) t l false) (sudoku_main clk shuffle fuel seconds (Some text) t l true).
Proof.
  intros text s first t l H Hf. unfold sudoku_main. cbn [source_of]. apply loads_iff in H. rewrite H, schema_read, Hf. rewrite !prints_nil.
  apply (shows (sudoku_init s) (fun _ d => DSet d) ("=== sudoku schema ===" :: first)%string).
  - intros ls. apply puzzle_demo_constructs.
  - reflexivity.
Qed.
Lemma nonogram_shows : forall text v rows cols image t l, json_text text v -> member v "rows" (rows_json rows) -> member v "columns" (rows_json cols) ->
  shows_model 0 (nonogram_init rows cols) (nonogram_main clk shuffle fuel seconds (Some text) image t l false) (nonogram_main clk shuffle fuel seconds (Some text) image t l true).
Proof.
  intros text v rows cols image t l H Hr Hc. unfold nonogram_main, nonogram_rest. pose proof (document_distinct _ _ H) as Hd. apply loads_iff in H.
  cbn [source_of]. rewrite H. cbn [bind]. rewrite (member_field _ _ _ Hd Hr), (member_field _ _ _ Hd Hc). cbn [bind]. rewrite !rows_read. rewrite show_false, (prints_nil (nonogram_demo _ _ _ _ _ _ _ _)).
  apply (shows (nonogram_init rows cols) (fun _ d => DList d) []); [|reflexivity]. intros ls. apply puzzle_demo_constructs.
Qed.
Lemma knapsack_shows : forall text v values capacities weights t l, json_text text v ->
  member v "values" (ints_json values) -> member v "capacities" (ints_json capacities) -> member v "weights" (rows_json weights) ->
  shows_model 0 (knapsack_init (map Some values) (map Some capacities) (Weights (map (map Some) weights) true))
    (knapsack_main clk shuffle fuel seconds (Some text) t l false) (knapsack_main clk shuffle fuel seconds (Some text) t l true).
Proof.
  intros text v values capacities weights t l H Hv Hc Hw. unfold knapsack_main. pose proof (document_distinct _ _ H) as Hd. apply loads_iff in H.
  cbn [source_of]. rewrite H. cbn [bind]. rewrite (member_field _ _ _ Hd Hv), (member_field _ _ _ Hd Hc), (member_field _ _ _ Hd Hw). cbn [bind].
  rewrite !numbers_read, weights_read. rewrite show_false, (prints_nil (knapsack_demo _ _ _ _ _ _ _ _ _)).
  apply (shows _ (fun _ d => DTuple d) []); [|reflexivity]. intros ls E. unfold knapsack_demo in E. destruct (construct _) as [[obj e]|ex]; [eauto|discriminate].
Qed.
Lemma graph_shows : forall text v ids links labels t l, json_text text v -> node_link v ids links ->
  exists nodes edges, link_graph ids links nodes edges /\
    shows_model 0 (graph_init nodes edges labels) (graph_main clk shuffle fuel seconds (Some text) labels t l false) (graph_main clk shuffle fuel seconds (Some text) labels t l true).
Proof.
  intros text v ids links labels t l H Hv. destruct (node_link_read _ _ _ (document_distinct _ _ H) Hv) as [nodes [edges [E Hg]]].
  exists nodes, edges. split; [exact Hg|]. unfold graph_main. cbn [source_of]. apply loads_iff in H. rewrite H, E. rewrite show_false, (prints_nil (graph_demo _ _ _ _ _ _ _ _ _)).
  apply (shows _ (fun _ d => DTuple d) []); [|reflexivity]. intros ls. apply puzzle_demo_constructs.
Qed.
Lemma cryptarithm_shows : forall order input source avoid t l, source = match input with Some s => s | None => default_cryptarithm_source end ->
  shows_model 1 (cry_init order source avoid)
    (cryptarithm_main clk shuffle fuel seconds order input avoid t l false) (cryptarithm_main clk shuffle fuel seconds order input avoid t l true).
Proof.
  intros order input source avoid t l ->. unfold cryptarithm_main. rewrite show_false, (prints_nil (puzzle_demo _ _ _ _ _ _ _ _)).
  apply (shows _ (fun _ d => DTuple d) [_]); [|reflexivity]. intros ls E. exact (puzzle_demo_constructs _ _ _ _ _ E).
Qed.
Lemma demo_shows {A B} (init : op A) (decode : A -> subst -> res B) sv sh kind h : (forall x d, dvalues (kind x d) = d) ->
  shows_model (length h) init (prints h (prints (show false kind init) (puzzle_demo clk shuffle fuel seconds init decode sv sh)))
    (prints h (prints (show true kind init) (puzzle_demo clk shuffle fuel seconds init decode sv sh))).
Proof.
  intros Hk. rewrite show_false, (prints_nil (puzzle_demo _ _ _ _ _ _ _ _)). apply shows; [|auto]. intros ls E. exact (puzzle_demo_constructs _ _ _ _ _ E).
Qed.
Lemma einstein_shows : forall t l, shows_model 1 einstein_init (einstein_main clk shuffle fuel seconds t l false) (einstein_main clk shuffle fuel seconds t l true).
Proof. intros t l. exact (demo_shows einstein_init einstein_decode _ print_einstein_riddle_solution einstein_kind [riddle] einstein_kind_values). Qed.
Lemma range_values : forall x a b, dvalues (range_of x (zrange a b)) = zrange a b.
Proof.
  intros x a b. unfold range_of, zrange. cbn [dvalues]. set (k := Z.to_nat (b - a)). destruct k as [|k]; [reflexivity|].
  replace (last (map (fun i => a + Z.of_nat i) (seq 0 (S k))) (-1)) with (a + Z.of_nat k) by (rewrite seq_S, map_app; cbn [map plus]; now rewrite last_last).
  replace (hd 0 (map (fun i => a + Z.of_nat i) (seq 0 (S k)))) with a by (cbn; lia). now replace (Z.to_nat (a + Z.of_nat k + 1 - a)) with (S k) by lia.
Qed.
Lemma queens_ranges : forall n x d, In (x, d) (V n) -> exists a b, d = zrange a b.
Proof.
  intros n x d H. unfold V in H. apply in_app_iff in H. destruct H as [H|H].
  - unfold Vq in H. apply in_flat_map in H. destruct H as [r [_ [E|[]]]]. injection E as _ <-. eauto.
  - apply in_flat_map in H. destruct H as [r [_ H]]. unfold Vr in H. apply in_flat_map in H. destruct H as [c [_ [E|[E|[]]]]]; injection E as _ <-; eauto.
Qed.
Lemma queens_shows : forall n t l, shows_model 0 (queens_init n) (queens_main clk shuffle fuel seconds n t l false) (queens_main clk shuffle fuel seconds n t l true).
Proof.
  intros n t l. unfold queens_main. rewrite show_false, (prints_nil (queens_demo _ _ _ _ _ _ _)).
  rewrite <- (prints_nil (queens_demo clk shuffle fuel seconds n t l)) at 1. rewrite <- (prints_nil (prints (show true range_of (queens_init n)) _)).
  apply (shows (queens_init n) range_of [] (queens_demo clk shuffle fuel seconds n t l)).
  - intros ls. apply puzzle_demo_constructs.
  - intros obj e x d E Hx. destruct (adds_construct _ _ _ _ (queens_adds n)) as [e' [E' Hb]]. rewrite E in E'. injection E' as _ <-.
    rewrite (b_vars _ _ _ _ Hb) in Hx. apply dget_In, in_map_iff in Hx. destruct Hx as [[y d'] [E2 Hy]]. cbn in E2. injection E2 as -> ->.
    destruct (queens_ranges _ _ _ Hy) as [a [b ->]]. apply range_values.
Qed.
Lemma ascii_shows : forall gfuel order colored colors groups t l, ascii_groups gfuel order (split_lines default_map_source) = Some (Ok groups) ->
  shows_model 1 (graph_init (map_nodes groups) (map_edges groups) colors)
    (ascii_main clk shuffle fuel gfuel order seconds colored None colors t l false) (ascii_main clk shuffle fuel gfuel order seconds colored None colors t l true).
Proof.
  intros gfuel order colored colors groups t l H. unfold ascii_main, ascii_demo. rewrite H.
  exact (demo_shows (graph_init (map_nodes groups) (map_edges groups) colors)
    (fun variables s => let! sol := graph_decode colors variables s in paint order sol 0 groups (blank_map (split_lines default_map_source))) _
    (fun m => let! text := print_map colored m in Ok [text]) (fun _ d => DTuple d) [announce "file - using default data" default_map_source] (fun _ _ => eq_refl)).
Qed.
Lemma ascii_reads : forall gfuel order colored colors t l,
  ascii_main clk shuffle fuel gfuel order seconds colored None colors t l false =
  preceded [announced "file - using default data" default_map_source] (ascii_demo clk shuffle fuel gfuel order seconds colored false (split_lines default_map_source) colors t l).
Proof.
  intros. unfold ascii_main. generalize (ascii_demo clk shuffle fuel gfuel order seconds colored false (split_lines default_map_source) colors t l). intros r.
  destruct (ascii_groups gfuel order (split_lines default_map_source)) as [[gs|ex]|]; rewrite ?show_false; rewrite (prints_nil r); reflexivity.
Qed.
Lemma ascii_file : forall gfuel order colored colors t l show_model text,
  ascii_main clk shuffle fuel gfuel order seconds colored (Some text) colors t l show_model = Some (Err TypeError).
Proof. reflexivity. Qed.
Lemma cryptarithm_reads : forall order source avoid t l,
  cryptarithm_main clk shuffle fuel seconds order (Some source) avoid t l false = cryptarithm_demo clk shuffle fuel seconds order source avoid t l.
Proof.
  intros order source avoid t l. unfold cryptarithm_main, cryptarithm_demo. rewrite show_false, (prints_nil (puzzle_demo _ _ _ _ _ _ _ _)). destruct puzzle_demo as [[ls|ex]|]; reflexivity.
Qed.
Lemma cryptarithm_default : forall order avoid t l b ls,
  cryptarithm_main clk shuffle fuel seconds order None avoid t l b = Some (Ok (announced "source - using default cryptarithm example" "SEND+MORE==MONEY" :: ls)) <->
  cryptarithm_main clk shuffle fuel seconds order (Some "SEND+MORE==MONEY"%string) avoid t l b = Some (Ok ("SEND+MORE==MONEY"%string :: ls)).
Proof.
  intros order avoid t l b ls. unfold cryptarithm_main. change default_cryptarithm_source with "SEND+MORE==MONEY"%string.
  destruct (prints (show b _ _) _) as [[ls'|ex]|]; cbn [prints]; [|split; discriminate|split; discriminate].
  split; intros H; injection H as <-; reflexivity.
Qed.
Lemma prints_preceded : forall h r, prints h (prints [] r) = preceded h r.
Proof. intros h [[ls|ex]|]; reflexivity. Qed.
Lemma einstein_reads : forall t l, einstein_main clk shuffle fuel seconds t l false = preceded [riddle] (einstein_demo clk shuffle fuel seconds t l).
Proof. intros t l. exact (prints_preceded [riddle] (einstein_demo clk shuffle fuel seconds t l)). Qed.
Lemma queens_reads : forall n t l, queens_main clk shuffle fuel seconds n t l false = queens_demo clk shuffle fuel seconds n t l.
Proof. intros n t l. unfold queens_main. rewrite show_false. apply prints_nil. Qed.
End Bad.
