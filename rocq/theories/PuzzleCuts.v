(** The limits of each puzzle class, and the results they leave when the policy is ORDERED. *)
From Verif Require Import Puzzle Queens Graph Sudoku Nonogram Cryptarithm Einstein AsciiMap.
From Verif Require Import SpecPuzzle SpecFirst SpecSolve SpecQueens SpecGraph SpecSudoku SpecNonogram SpecCryptarithm SpecEinstein SpecAscii.
From Verif Require Import NameFacts DictFacts PuzzleFacts QueensFacts GraphFacts SudokuFacts NonogramFacts CryptarithmFacts CryptarithmChain EinsteinFacts AsciiCells AsciiGroups AsciiFacts.
From Verif Require Import PuzzleTruncate PuzzleOrder.
From Coq Require Import Permutation.
Open Scope list_scope.
Open Scope Z_scope.

Lemma queens_cut clk shuffle n o : (1 <= n)%nat -> shuffles shuffle ->
  cut (fun fuel => queens_run clk shuffle fuel n o) (fun fuel => queens_run clk shuffle fuel n (unbounded o)) (o_timeout o) (o_limit o).
Proof.
  intros Hn Hs. exact (puzzle_cut clk shuffle _ _ _ _ _ _ _ _ _ _ _ _ _ (queens_adds n) Hs (queens_exact n clk shuffle o Hn Hs) (queens_exact n clk shuffle (unbounded o) Hn Hs)).
Qed.
Lemma graph_cut clk shuffle nodes edges labels o : is_graph nodes edges -> nodes <> [] -> NoDup labels -> shuffles shuffle ->
  cut (fun fuel => graph_run clk shuffle fuel nodes edges labels o) (fun fuel => graph_run clk shuffle fuel nodes edges labels (unbounded o)) (o_timeout o) (o_limit o).
Proof.
  intros Hg Hn Hl Hs.
  exact (puzzle_cut clk shuffle _ _ _ _ _ _ _ _ _ _ _ _ _ (graph_adds nodes edges labels Hg) Hs (graph_exact nodes edges labels Hg clk shuffle o Hn Hl Hs)
    (graph_exact nodes edges labels Hg clk shuffle (unbounded o) Hn Hl Hs)).
Qed.
Lemma sudoku_cut clk shuffle s o : well_formed s -> has_blank s -> shuffles shuffle ->
  cut (fun fuel => sudoku_run clk shuffle fuel s o) (fun fuel => sudoku_run clk shuffle fuel s (unbounded o)) (o_timeout o) (sudoku_limit o).
Proof.
  intros Hw Hb Hs. exact (puzzle_cut clk shuffle _ _ _ _ _ _ _ _ _ _ _ _ _ (sudoku_adds s Hw) Hs (sudoku_exact s Hw clk shuffle o Hb Hs) (sudoku_exact s Hw clk shuffle (unbounded o) Hb Hs)).
Qed.
Lemma nonogram_cut clk shuffle rows cols o : positive_clues rows -> positive_clues cols -> (exists l, In l (rows ++ cols) /\ l <> []) -> shuffles shuffle ->
  cut (fun fuel => nonogram_run clk shuffle fuel rows cols o) (fun fuel => nonogram_run clk shuffle fuel rows cols (unbounded o)) (o_timeout o) (o_limit o).
Proof.
  intros H1 H2 H3 Hs. exact (puzzle_cut clk shuffle _ _ _ _ _ _ _ _ _ _ _ _ _ (nonogram_adds rows cols H1 H2) Hs (nonogram_exact rows cols clk shuffle o H1 H2 H3 Hs)
    (nonogram_exact rows cols clk shuffle (unbounded o) H1 H2 H3 Hs)).
Qed.
Lemma options_cut {A B} clk shuffle (init : op A) obj V C (decode : A -> subst -> res B) dflt o ok : adds (fun _ : nat => 0) [] init obj V C -> shuffles shuffle ->
  (forall o, exactly (fun fuel => puzzle_run clk shuffle fuel init decode (options_solver dflt o)) ok (o_timeout o) (o_limit o)) ->
  cut (fun fuel => puzzle_run clk shuffle fuel init decode (options_solver dflt o)) (fun fuel => puzzle_run clk shuffle fuel init decode (options_solver dflt (unbounded o)))
    (o_timeout o) (o_limit o).
Proof. intros Ha Hs He. exact (puzzle_cut clk shuffle init obj V C decode _ _ _ _ _ _ _ _ Ha Hs (He o) (He (unbounded o))). Qed.
Lemma einstein_cut clk shuffle o : shuffles shuffle ->
  cut (fun fuel => einstein_run clk shuffle fuel o) (fun fuel => einstein_run clk shuffle fuel (unbounded o)) (o_timeout o) (o_limit o).
Proof.
  intros Hs. unfold einstein_run.
  exact (options_cut clk shuffle einstein_init variables_ VE CE einstein_decode MIN_BOUND o riddle_answer einstein_adds Hs (fun o => einstein_unfolded clk shuffle o Hs)).
Qed.
(** ** Decoding the results of another run *)
Lemma cut_map {B C} (f : B -> res C) run run0 (ok ok0 : C -> Prop) t l t1 l1 t0 l0 :
  cut run run0 t l -> exactly (fun fuel => map_run f (run fuel)) ok t1 l1 -> exactly (fun fuel => map_run f (run0 fuel)) ok0 t0 l0 ->
  (forall fuel bs r i, run fuel = Some (bs, r, i) -> r = None) -> (forall fuel bs r i, run0 fuel = Some (bs, r, i) -> r = None) ->
  cut (fun fuel => map_run f (run fuel)) (fun fuel => map_run f (run0 fuel)) t l.
Proof.
  intros Hc [_ H1] [_ H2] Hr Hr0 fu fu0 cs r i cs0 r0 i0 E E0.
  pose proof (proj1 (H1 _ _ _ _ E)) as ->. pose proof (proj1 (H2 _ _ _ _ E0)) as ->.
  destruct (run fu) as [[[bs r] i']|] eqn:R; [|discriminate E]. destruct (run0 fu0) as [[[bs0 r0] i0']|] eqn:R0; [|discriminate E0].
  cbn in E, E0. destruct (mapM f bs) as [cs'|] eqn:M; [|discriminate E]. destruct (mapM f bs0) as [cs0'|] eqn:M0; [|discriminate E0].
  injection E as <- -> <-. injection E0 as <- -> <-. destruct (Hc _ _ _ _ _ _ _ _ R R0) as (A1 & (rest & ->) & A3 & A4 & A5).
  destruct (mapM_app _ _ _ _ M0) as (c1 & c2 & E1 & E2 & ->). rewrite M in E1. injection E1 as <-. pose proof (mapM_length _ _ _ M) as L.
  split; [exact A1|]. split; [eauto|]. split; [|split].
  - intros Hi. specialize (A3 Hi). assert (Hrest : rest = []).
    { destruct rest; [reflexivity|]. apply (f_equal (@length B)) in A3. rewrite app_length in A3. cbn in A3. lia. }
    subst rest. injection E2 as <-. now rewrite app_nil_r.
  - rewrite L. exact A4.
  - rewrite L. intros Ht n Hl Hn. destruct (A5 Ht n Hl Hn) as [A6 A7]. split; [|exact A7].
    apply (f_equal (@length B)) in A6. rewrite firstn_length, app_length, <- L in A6. rewrite firstn_app. rewrite <- (mapM_length _ _ _ E2) in A6.
    destruct (Nat.le_gt_cases (length cs') (Z.to_nat n)) as [Lx|Lx]; [|lia]. rewrite firstn_all2 by exact Lx.
    destruct (Nat.eq_dec (length cs') (Z.to_nat n)) as [En|En]; [rewrite En, Nat.sub_diag, firstn_O; now rewrite app_nil_r|].
    destruct c2; [rewrite firstn_nil; now rewrite app_nil_r|cbn [length] in A6; lia].
Qed.

Section Map.
Variables (lines : grid) (groups : list (list point)) (colors : list string) (order : list point -> list point) (o : options) (gfuel : nat).
Variables (clk : nat -> Z) (shuffle : list name -> list name).
Hypothesis Hreg : regions lines groups.
Hypothesis Hne : groups <> [].
Hypothesis Hc : NoDup colors.
Hypothesis Hs : shuffles shuffle.
Hypothesis Ho : forall l, Permutation (order l) l.
Hypothesis Hf : (length (concat lines) < gfuel)%nat.

Lemma land_lines : lines <> [].
Proof.
  intros ->. destruct groups as [|g gs]; [contradiction|]. destruct Hreg as (H1 & _ & _ & H4). destruct (H4 O) as (p & M & _); [cbn; lia|].
  destruct (proj2 (H1 p)) as (c & (row & _ & _ & E & _) & _); [eauto|]. destruct (Z.to_nat (fst p)); discriminate.
Qed.

(** The groups of the program are the regions. *)
Lemma map_groups : exists gs, regions lines gs /\ gs <> [] /\ forall o fuel, ascii_run clk shuffle fuel gfuel order lines colors o =
  map_run (fun sol => paint order sol 0 gs (blank_map lines)) (graph_run clk shuffle fuel (map_nodes gs) (map_edges gs) colors (ascii_options o)).
Proof.
  destruct (regions_found lines order gfuel land_lines Ho Hf) as (gs & E & Hgs). exists gs. split; [exact Hgs|]. split.
  - intros ->. destruct groups as [|g gs0]; [contradiction|]. destruct Hreg as (H1 & _ & _ & H4). destruct (H4 O) as (p & M & _); [cbn; lia|].
    destruct Hgs as (G1 & _). destruct (proj1 (G1 p)) as (i & h & F & _); [apply H1; eauto|]. destruct i; discriminate.
  - intros o' fuel. unfold ascii_run. rewrite E. reflexivity.
Qed.

Lemma cut_ext {B} (run run' run0 run0' : nat -> option (list B * option exn * option interrupt)) t l :
  (forall f, run f = run' f) -> (forall f, run0 f = run0' f) -> cut run' run0' t l -> cut run run0 t l.
Proof. intros H1 H2 H f f0 bs r i bs0 r0 i0 E E0. rewrite H1 in E. rewrite H2 in E0. exact (H _ _ _ _ _ _ _ _ E E0). Qed.

Lemma ascii_cut :
  cut (fun fuel => ascii_run clk shuffle fuel gfuel order lines colors o) (fun fuel => ascii_run clk shuffle fuel gfuel order lines colors (unbounded o))
    (o_timeout o) (match o_limit o with LNone => Solver.LNum 1 | l => l end).
Proof.
  destruct map_groups as (gs & Hgs & Hgne & Hrun).
  assert (Hn : map_nodes gs <> []) by (unfold map_nodes; destruct gs; [contradiction|discriminate]).
  eapply cut_ext; [intros f; apply Hrun|intros f; apply Hrun|].
  refine (cut_map _ (fun fuel => graph_run clk shuffle fuel (map_nodes gs) (map_edges gs) colors (ascii_options o))
    (fun fuel => graph_run clk shuffle fuel (map_nodes gs) (map_edges gs) colors (ascii_options (unbounded o))) (map_colouring lines gs colors) (map_colouring lines gs colors) _ _ _ _ _ _
    (graph_cut clk shuffle _ _ colors (ascii_options o) (map_graph gs) Hn Hc Hs)
    (map_exact lines gs colors order Hgs Ho clk shuffle (ascii_options o) Hgne Hc Hs) (map_exact lines gs colors order Hgs Ho clk shuffle (ascii_options (unbounded o)) Hgne Hc Hs) _ _).
  - intros fuel bs r i E. exact (proj1 (proj2 (graph_exact _ _ colors (map_graph gs) clk shuffle (ascii_options o) Hn Hc Hs) _ _ _ _ E)).
  - intros fuel bs r i E. exact (proj1 (proj2 (graph_exact _ _ colors (map_graph gs) clk shuffle (ascii_options (unbounded o)) Hn Hc Hs) _ _ _ _ E)).
Qed.

Lemma ord_later {A} (R : A -> A -> Prop) l l' : ForallOrdPairs R (l ++ l') -> forall a b, In a l -> In b l' -> R a b.
Proof.
  induction l as [|x l IH]; intros H a b Ha Hb; [contradiction|]. inversion H as [|? ? H1 H2]; subst. destruct Ha as [<-|Ha]; [|now apply IH].
  rewrite Forall_forall in H1. apply H1. apply in_or_app. now right.
Qed.
Lemma first_of {B} (R : B -> B -> Prop) (run run0 : nat -> option (list B * option exn * option interrupt)) ok t l t0 l0 fuel bs r i :
  cut run run0 t l -> exactly run0 ok t0 l0 -> (forall f bs r i, run0 f = Some (bs, r, i) -> ForallOrdPairs R bs) ->
  run fuel = Some (bs, r, i) -> forall b b', In b bs -> ok b' -> In b' bs \/ R b b'.
Proof.
  intros Hcut [(f0 & [[bs0 r0] i0] & E0) H0] HR E b b' Hb Hb'. destruct (Hcut _ _ _ _ _ _ _ _ E E0) as (-> & (rest & ->) & _).
  destruct (H0 _ _ _ _ E0) as (_ & _ & _ & Hall & _). pose proof (Hall eq_refl b' Hb') as Hin. apply in_app_or in Hin. destruct Hin as [Hin|Hin]; [now left|]. right.
  exact (ord_later R bs rest (HR _ _ _ _ E0) b b' Hb Hin).
Qed.
End Map.

Lemma graph_first clk shuffle nodes edges labels o fuel bs r i : is_graph nodes edges -> nodes <> [] -> NoDup labels -> shuffles shuffle ->
  o_policy o = None \/ o_policy o = Some ORDERED -> graph_run clk shuffle fuel nodes edges labels o = Some (bs, r, i) ->
  ForallOrdPairs (earlier_colouring labels) bs /\
  forall b b', In b bs -> proper_colouring nodes edges labels b' -> In b' bs \/ earlier_colouring labels b b'.
Proof.
  intros Hg Hn Hl Hs Hp E. split; [exact (graph_ordered nodes edges labels Hg clk shuffle o fuel bs r i Hp Hs E)|].
  refine (first_of _ _ (fun fuel => graph_run clk shuffle fuel nodes edges labels (unbounded o)) _ _ _ _ _ fuel bs r i
    (graph_cut clk shuffle nodes edges labels o Hg Hn Hl Hs) (graph_exact nodes edges labels Hg clk shuffle (unbounded o) Hn Hl Hs) _ E).
  intros f bs0 r0 i0 E0. exact (graph_ordered nodes edges labels Hg clk shuffle (unbounded o) f bs0 r0 i0 Hp Hs E0).
Qed.

Section Drawing.
Variables (lines : grid) (groups : list (list point)) (colors : list string) (order : list point -> list point) (gfuel : nat).
Variables (clk : nat -> Z) (shuffle : list name -> list name).
Hypothesis Hreg : regions lines groups.
Hypothesis Hne : groups <> [].
Hypothesis Hc : NoDup colors.
Hypothesis Hs : shuffles shuffle.
Hypothesis Ho : forall l, Permutation (order l) l.
Hypothesis Hf : (length (concat lines) < gfuel)%nat.

Lemma app_same {A} : forall (l1 l1' l2 l2' : list A), length l1 = length l1' -> l1 ++ l2 = l1' ++ l2' -> l1 = l1' /\ l2 = l2'.
Proof.
  induction l1 as [|a l1 IH]; intros [|b l1'] l2 l2' L E; try discriminate; [auto|]. cbn in L, E. injection L as L. injection E as -> E.
  destruct (IH l1' l2 l2' L E) as [-> ->]. auto.
Qed.
Lemma map_app_inv {A B} (f : A -> B) : forall l p q, map f l = p ++ q -> exists l1 l2, l = l1 ++ l2 /\ map f l1 = p /\ map f l2 = q.
Proof.
  intros l p. revert l. induction p as [|y p IH]; intros l q E; [exists [], l; auto|]. destruct l as [|x l]; [discriminate|]. injection E as E1 E2.
  destruct (IH l q E2) as (l1 & l2 & -> & E3 & E4). exists (x :: l1), l2. cbn. rewrite E1, E3. auto.
Qed.

Lemma drawn_later gs b b' m m' : regions lines gs -> proper_colouring (map_nodes gs) (map_edges gs) colors b -> proper_colouring (map_nodes gs) (map_edges gs) colors b' ->
  paint order b 0 gs (blank_map lines) = Ok m -> paint order b' 0 gs (blank_map lines) = Ok m' -> earlier_colouring colors b b' -> earlier_drawing gs colors m m'.
Proof.
  intros Hgs Hb Hb' Hm Hm' He. apply (proper_dict gs colors) in Hb, Hb'. destruct Hb as (col & -> & _), Hb' as (col' & -> & _).
  destruct (painted lines gs order Hgs Ho col) as (m1 & E1 & _ & H1). rewrite Hm in E1. injection E1 as <-.
  destruct (painted lines gs order Hgs Ho col') as (m2 & E2 & _ & H2). rewrite Hm' in E2. injection E2 as <-.
  destruct He as (pre & u & l & l' & rest & rest' & i & j & E1 & E2 & Hi & Hj & Hij).
  unfold colour_dict in E1, E2.
  destruct (map_app_inv _ _ _ _ E1) as (s1 & s2 & Es & Ep & Eq). destruct (map_app_inv _ _ _ _ E2) as (s1' & s2' & Es' & Ep' & Eq').
  assert (Hlen : length s1 = length s1') by (apply (f_equal (@length _)) in Ep, Ep'; rewrite map_length in Ep, Ep'; congruence).
  assert (Hss : s1 = s1' /\ s2 = s2') by (apply app_same; [exact Hlen|congruence]).
  destruct Hss as [<- <-]. destruct s2 as [|k s2]; [discriminate|]. injection Eq as Ek1 Ek2 _. injection Eq' as Ek1' Ek2' _.
  assert (Hk : k = length s1 /\ forall x, (x < k)%nat -> In x s1).
  { clear - Es. assert (Hgen : forall n a s1 k s2, seq a n = s1 ++ k :: s2 -> k = (a + length s1)%nat /\ forall x, (a <= x < k)%nat -> In x s1).
    { induction n as [|n IH]; intros a [|y t] k' t2 E; try discriminate; cbn in E; injection E as E E'; subst; cbn [length].
      - split; [lia|]. intros; lia.
      - destruct (IH (S y) t k' t2 E') as [-> Hin]. split; [lia|]. intros x Hx. destruct (Nat.eq_dec x y) as [->|]; [now left|right; apply Hin; lia]. }
    destruct (Hgen _ _ _ _ _ Es) as [-> H]. split; [reflexivity|]. intros x Hx. apply H. lia. }
  destruct Hk as [Hkl Hbefore].
  assert (Hkn : (k < length gs)%nat) by (assert (Hin : In k (s1 ++ k :: s2)) by (apply in_or_app; right; now left); rewrite <- Es in Hin; apply in_seq in Hin; exact (proj2 Hin)).
  exists k, l, l', i, j. split; [exact Hkn|]. split; [|split; [|auto]].
  - intros x p a Hx Hmem Ha. assert (Hcc : col x = col' x).
    { assert (Em : map (fun i => (str_nat i, col i)) s1 = map (fun i => (str_nat i, col' i)) s1) by congruence. pose proof (Hbefore x Hx) as Hin. clear - Em Hin.
      induction s1 as [|y s1 IH]; [contradiction|]. cbn in Em. injection Em as E1 E2. destruct Hin as [<-|Hin]; [exact E1|now apply IH]. }
    apply H2. apply H1 in Ha. destruct Ha as [(z & Hz & ->)|[Hn _]]; [|exfalso; apply Hn; eauto].
    assert (z = x) as -> by (destruct Hgs as (_ & _ & G3 & _); exact (G3 z x p Hz Hmem)). left. exists x. rewrite Hcc. auto.
  - intros p Hmem. split; [apply H1|apply H2]; left; exists k; split; auto; congruence.
Qed.

Lemma drawing_iff g1 g2 m m' : regions lines g1 -> regions lines g2 -> earlier_drawing g1 colors m m' -> earlier_drawing g2 colors m m'.
Proof.
  intros R1 R2 (k & c & c' & i & j & Hk & H1 & H2 & H3). pose proof (regions_unique lines g1 g2 R1 R2) as Hu. exists k, c, c', i, j. split; [|split; [|split]].
  - destruct (region_cell lines g1 R1 k Hk) as (p & M). apply Hu in M. exact (member_lt _ _ _ M).
  - intros l p a Hl M. apply H1 with l; [exact Hl|]. now apply Hu.
  - intros p M. apply H2. now apply Hu.
  - exact H3.
Qed.

Lemma ascii_ordered o fuel ms r i : o_policy o = None \/ o_policy o = Some ORDERED ->
  ascii_run clk shuffle fuel gfuel order lines colors o = Some (ms, r, i) -> ForallOrdPairs (earlier_drawing groups colors) ms.
Proof.
  intros Hp E. destruct (map_groups lines groups colors order gfuel clk shuffle Hreg Hne Ho Hf) as (gs & Hgs & Hgne & Hrun). rewrite Hrun in E.
  assert (Hn : map_nodes gs <> []) by (unfold map_nodes; destruct gs; [contradiction|discriminate]).
  pose proof (proj2 (map_exact lines gs colors order Hgs Ho clk shuffle (ascii_options o) Hgne Hc Hs) fuel ms r i E) as (-> & _).
  destruct (graph_run clk shuffle fuel (map_nodes gs) (map_edges gs) colors (ascii_options o)) as [[[bs r'] i']|] eqn:Eg; [|discriminate].
  cbn in E. destruct (mapM _ bs) as [ms'|] eqn:M; [|discriminate]. injection E as <- -> <-.
  pose proof (graph_ordered _ _ colors (map_graph gs) clk shuffle (ascii_options o) fuel bs None i' Hp Hs Eg) as Hord.
  pose proof (proj2 (graph_exact _ _ colors (map_graph gs) clk shuffle (ascii_options o) Hn Hc Hs) _ _ _ _ Eg) as (_ & Hok & _).
  refine (ord_map _ _ (fun b m => paint order b 0 gs (blank_map lines) = Ok m) (proper_colouring (map_nodes gs) (map_edges gs) colors) bs ms' _ Hok _ Hord).
  - clear - M. revert ms' M. induction bs as [|b bs IH]; intros ms' M; [injection M as <-; constructor|]. cbn [mapM] in M. destruct (paint order b 0 gs (blank_map lines)) eqn:E; [|discriminate].
    cbn [bind] in M. destruct (mapM _ bs) as [m'|]; [|discriminate]. injection M as <-. constructor; auto.
  - intros b b' m m' G1 G2 D1 D2 He. apply (drawing_iff gs groups _ _ Hgs Hreg). exact (drawn_later gs b b' m m' Hgs G1 G2 D1 D2 He).
Qed.

Lemma ascii_first o fuel ms r i : o_policy o = None \/ o_policy o = Some ORDERED ->
  ascii_run clk shuffle fuel gfuel order lines colors o = Some (ms, r, i) ->
  ForallOrdPairs (earlier_drawing groups colors) ms /\
  forall m m', In m ms -> map_colouring lines groups colors m' -> In m' ms \/ earlier_drawing groups colors m m'.
Proof.
  intros Hp E. split; [exact (ascii_ordered o fuel ms r i Hp E)|].
  refine (first_of _ _ (fun fuel => ascii_run clk shuffle fuel gfuel order lines colors (unbounded o)) _ _ _ _ _ fuel ms r i
    (ascii_cut lines groups colors order o gfuel clk shuffle Hreg Hne Hc Hs Ho Hf) (ascii_exact clk shuffle order lines groups colors (unbounded o) gfuel Hreg Hne Hc Hs Ho Hf) _ E).
  intros f bs0 r0 i0 E0. exact (ascii_ordered (unbounded o) f bs0 r0 i0 Hp E0).
Qed.
End Drawing.
