(** The placements tried by QueensSolver. *)
From Coq Require Import Permutation Factorial.
From Verif Require Import PuzzleWatch SpecPuzzle SpecQueens SpecSafe SpecSolve SpecOrder SpecWatch SpecTries NameFacts DictFacts
  ExprFacts ExprProps CodeFacts PuzzleFacts PuzzleUserFacts SolverProps OrderFacts WatchProps WatchCost QueensFacts TriesFacts TriesGraph.
Open Scope list_scope.
Open Scope Z_scope.

Local Arguments q_ : simpl never.
Local Arguments ul_ : simpl never.
Local Arguments ur_ : simpl never.

(** ** The first constraint is the one on the queens *)

Definition same_cons {A} (p : op A) : Prop := forall w, m_cons (w_model (fst (p w))) = m_cons (w_model w).
Definition more_cons {A} (p : op A) : Prop := forall w, exists l, m_cons (w_model (fst (p w))) = m_cons (w_model w) ++ l.

Lemma same_more {A} (p : op A) : same_cons p -> more_cons p.
Proof. intros H w. exists []. now rewrite app_nil_r. Qed.
Lemma same_bind {A B} (p : op A) (k : A -> op B) : same_cons p -> (forall a, same_cons (k a)) -> same_cons (op_bind p k).
Proof. intros H1 H2 w. unfold op_bind. specialize (H1 w). destruct (p w) as [w' [a|ex]]; cbn in *; [rewrite H2|]; exact H1. Qed.
Lemma more_bind {A B} (p : op A) (k : A -> op B) : more_cons p -> (forall a, more_cons (k a)) -> more_cons (op_bind p k).
Proof.
  intros H1 H2 w. unfold op_bind. specialize (H1 w). destruct (p w) as [w' [a|ex]]; cbn in *; [|exact H1].
  destruct H1 as (l & E). destruct (H2 a w') as (l' & E'). exists (l ++ l'). now rewrite E', E, app_assoc.
Qed.
Lemma same_ret {A} (a : A) : same_cons (op_ret a). Proof. intros w. reflexivity. Qed.
Lemma same_nth {A} (l : list A) i : same_cons (op_nth l i).
Proof. unfold op_nth. destruct (nth_error l i); intros w; reflexivity. Qed.
Lemma same_var d x : same_cons (int_variable d x).
Proof.
  apply same_bind; [|intros; apply same_ret]. intros w. unfold add_int_variable. destruct (has_dup d); [reflexivity|].
  destruct (choose_name (w_model w) "_v" (Some x)); reflexivity.
Qed.
Lemma same_for {A B} (f : A -> op B) l : (forall a, same_cons (f a)) -> same_cons (op_for f l).
Proof. intros H. induction l as [|a l IH]; [apply same_ret|]. cbn. apply same_bind; [apply H|]. intros b. apply same_bind; [exact IH|intros; apply same_ret]. Qed.
Lemma more_for {A B} (f : A -> op B) l : (forall a, more_cons (f a)) -> more_cons (op_for f l).
Proof.
  intros H. induction l as [|a l IH]; [apply same_more, same_ret|]. cbn. apply more_bind; [apply H|]. intros b. apply more_bind; [exact IH|intros; apply same_more, same_ret].
Qed.
Lemma more_obj c : more_cons (add_constraint_obj c).
Proof.
  intros w. unfold add_constraint_obj. destruct (c_vars c) as [|x l].
  - destruct (ceval w c []) as [[|]|ex]; [exists []|cbn [forallb]; exists [c]; reflexivity|exists []]; symmetry; apply app_nil_r.
  - destruct (forallb _ (x :: l)); [exists [c]; reflexivity|exists []; symmetry; apply app_nil_r].
Qed.
Lemma more_diff xs : more_cons (add_all_different_constraint xs).
Proof. intros w. exact (more_obj _ (snd (new_constraint w (CAllDiff xs)))). Qed.
Lemma more_form f : more_cons (add_formula f).
Proof.
  intros w. unfold add_formula. destruct (build f) as [[n|e]|ex].
  - destruct (is_comparison f && of_ints f); cbn [add_constraint]; [|exists []; symmetry; apply app_nil_r].
    exact (more_obj _ (snd (new_constraint w (CConst (truthy n))))).
  - exact (more_obj _ (snd (new_constraint w (CExpr e)))).
  - exists []. symmetry. apply app_nil_r.
Qed.

Lemma more_diagonals n r queens c : more_cons (queens_diagonals n r queens c).
Proof.
  unfold queens_diagonals. repeat first [apply more_bind; [first [apply more_form|apply same_more, same_var|apply same_more, same_nth]|intros]|apply same_more, same_ret].
Qed.

Lemma bind_ok {A B} (p : op A) (k : A -> op B) w w2 b : op_bind p k w = (w2, Ok b) ->
  exists w1 a, p w = (w1, Ok a) /\ k a w1 = (w2, Ok b).
Proof. unfold op_bind. destruct (p w) as [w1 [a|ex]]; [eauto|discriminate]. Qed.

Lemma intvars_names d g l : forall w w1 a, op_for (fun r : nat => int_variable d (g r)) l w = (w1, Ok a) -> a = map g l.
Proof.
  induction l as [|r l IH]; intros w w1 a E; [cbn in E; injection E as _ <-; reflexivity|]. cbn [op_for] in E.
  apply bind_ok in E. destruct E as (w2 & b & E2 & E). apply bind_ok in E. destruct E as (w3 & bs & E3 & E). injection E as _ <-.
  apply bind_ok in E2. destruct E2 as (w4 & u & _ & E4). injection E4 as _ <-. cbn. f_equal. exact (IH _ _ _ E3).
Qed.

Lemma diff_cons xs w w1 u : xs <> [] -> add_all_different_constraint xs w = (w1, Ok u) ->
  exists c, c_body c = CAllDiff xs /\ m_cons (w_model w1) = m_cons (w_model w) ++ [c].
Proof.
  intros Hx E. unfold add_all_different_constraint in E. destruct (new_constraint w (CAllDiff xs)) as [c w'] eqn:En. injection En as <- <-.
  cbn [add_constraint] in E. unfold add_constraint_obj in E. cbn [c_vars c_body w_model] in E.
  assert (Hd : dedup xs <> []).
  { destruct xs as [|x xs]; [congruence|]. intros Hd. assert (In x (dedup (x :: xs))) as Hi by (apply dedup_In; now left). rewrite Hd in Hi. destruct Hi. }
  destruct (dedup xs) as [|x l]; [congruence|]. destruct (forallb _ (x :: l)); [|discriminate]. injection E as <- _.
  eexists. split; [|reflexivity]. reflexivity.
Qed.

Lemma queens_head n e : (1 <= n)%nat -> construct (queens_init n) = Ok (qs n, e) ->
  exists c l, m_cons (w_model (e_world e)) = c :: l /\ c_body c = CAllDiff (qs n).
Proof.
  intros Hn H. unfold construct in H. destruct (queens_init n init_world) as [w [a|ex]] eqn:E; [|discriminate]. injection H as -> <-. cbn [e_world new_env].
  unfold queens_init in E. apply bind_ok in E. destruct E as (w1 & a1 & E1 & E).
  pose proof (same_for (fun r => int_variable (zrange 0 (Z.of_nat n)) (name1 "q_" r)) (seq 0 n) (fun r => same_var _ _) init_world) as Hsame.
  rewrite E1 in Hsame. apply intvars_names in E1. change (a1 = qs n) in E1. subst a1. cbn [fst] in Hsame.
  apply bind_ok in E. destruct E as (w2 & u & E2 & E). apply diff_cons in E2; [|unfold qs; destruct n; [lia|discriminate]].
  destruct E2 as (c & Hc & E2). rewrite Hsame in E2. cbn in E2.
  match type of E with ?p w2 = _ => assert (Hm : more_cons p) end.
  { apply more_bind; [|intros; apply same_more, same_ret]. apply more_for. intros r. apply more_bind; [apply more_for; intros; apply more_diagonals|].
    intros ds. apply more_bind; [apply more_diff|intros; apply more_diff]. }
  destruct (Hm w2) as (l & El). rewrite E in El. cbn [fst] in El. rewrite E2 in El. exists c, l. auto.
Qed.

(** ** Arrangements *)

Fixpoint inserts {A} (a : A) (l : list A) : list (list A) :=
  match l with [] => [[a]] | b :: q => (a :: l) :: map (cons b) (inserts a q) end.
Fixpoint arrangements {A} (l : list A) : list (list A) :=
  match l with [] => [[]] | a :: q => flat_map (inserts a) (arrangements q) end.

Lemma inserts_perm {A} (a : A) l : forall q, In q (inserts a l) -> Permutation q (a :: l).
Proof.
  induction l as [|b l IH]; intros q H; cbn in H; [destruct H as [<-|[]]; auto|]. destruct H as [<-|H]; [auto|].
  apply in_map_iff in H. destruct H as (p & <- & Hp). apply IH in Hp. rewrite Hp. apply perm_swap.
Qed.
Lemma inserts_length {A} (a : A) l : length (inserts a l) = S (length l).
Proof. induction l as [|b l IH]; [reflexivity|]. cbn. now rewrite map_length, IH. Qed.
Lemma arrangements_perm {A} (l : list A) : forall q, In q (arrangements l) -> Permutation q l.
Proof.
  induction l as [|a l IH]; intros q H; cbn in H; [destruct H as [<-|[]]; auto|]. apply in_flat_map in H. destruct H as (p & Hp & Hq).
  rewrite (inserts_perm _ _ _ Hq). constructor. now apply IH.
Qed.
Lemma arrangements_length {A} (l : list A) : length (arrangements l) = fact (length l).
Proof.
  induction l as [|a l IH]; [reflexivity|]. cbn [arrangements length fact].
  assert (H : forall L, (forall p, In p L -> length p = length l) -> length (flat_map (inserts a) L) = (length L + length l * length L)%nat).
  { induction L as [|p L IHL]; intros H; [cbn; lia|]. cbn. rewrite app_length, inserts_length, (H p (or_introl eq_refl)), IHL; [lia|]. intros p' Hp'. apply H. now right. }
  rewrite H; [rewrite IH; lia|]. intros p Hp. now apply Permutation_length, arrangements_perm.
Qed.
Lemma inserts_NoDup {A} (a : A) l : ~ In a l -> NoDup (inserts a l).
Proof.
  induction l as [|b l IH]; intros H; [repeat constructor; intros []|]. cbn. constructor.
  - intros Hi. apply in_map_iff in Hi. destruct Hi as (p & E & _). injection E as <- _. apply H. now left.
  - apply FinFun.Injective_map_NoDup; [intros p q E; congruence|]. apply IH. intros Hi. apply H. now right.
Qed.
Lemma inserts_inj {A} (a : A) l : forall l' q, ~ In a l -> ~ In a l' -> In q (inserts a l) -> In q (inserts a l') -> l = l'.
Proof.
  induction l as [|b l IH]; intros [|b' l'] q H H' Hq Hq'; cbn in Hq, Hq'; [reflexivity| | |].
  - destruct Hq as [<-|[]]. destruct Hq' as [E|Hq']; [discriminate|]. apply in_map_iff in Hq'. destruct Hq' as (p & E & _). injection E as -> _. exfalso. apply H'. now left.
  - destruct Hq' as [<-|[]]. destruct Hq as [E|Hq]; [discriminate|]. apply in_map_iff in Hq. destruct Hq as (p & E & _). injection E as -> _. exfalso. apply H. now left.
  - destruct Hq as [<-|Hq], Hq' as [E|Hq'].
    + congruence.
    + apply in_map_iff in Hq'. destruct Hq' as (p & E & _). injection E as -> _. exfalso. apply H'. now left.
    + apply in_map_iff in Hq. destruct Hq as (p & E' & _). rewrite <- E in E'. injection E' as -> _. exfalso. apply H. now left.
    + apply in_map_iff in Hq, Hq'. destruct Hq as (p & <- & Hp), Hq' as (p' & E & Hp'). injection E as -> ->. f_equal.
      apply (IH l' p); auto; intros Hi; [apply H|apply H']; now right.
Qed.
Lemma arrangements_NoDup {A} (l : list A) : NoDup l -> NoDup (arrangements l).
Proof.
  induction l as [|a l IH]; intros H; [repeat constructor; intros []|]. inversion H as [|? ? Ha Hl]; subst. cbn [arrangements].
  assert (Hn : forall L, NoDup L -> (forall p, In p L -> ~ In a p) -> NoDup (flat_map (inserts a) L)).
  { induction L as [|p L IHL]; intros HL Hp; [constructor|]. inversion HL as [|? ? H1 H2]; subst. cbn. apply NoDup_app_intro.
    - apply inserts_NoDup, Hp. now left.
    - apply IHL; [exact H2|]. intros p' Hp'. apply Hp. now right.
    - intros q Hq Hi. apply in_flat_map in Hi. destruct Hi as (p' & Hp' & Hq').
      assert (p = p') as <- by (apply (inserts_inj a p p' q); auto; apply Hp; [now left|now right]). contradiction. }
  apply Hn; [now apply IH|]. intros p Hp Hi. apply Ha. apply (Permutation_in _ (arrangements_perm l p Hp)). exact Hi.
Qed.

(** ** Lists in two parts *)

Lemma two_parts (isq : name -> bool) : forall l, (forall x y, comes l x y -> isq x = false -> isq y = true -> False) ->
  l = filter isq l ++ filter (fun x => negb (isq x)) l.
Proof.
  induction l as [|x l IH]; intros H; [reflexivity|]. cbn. destruct (isq x) eqn:E; cbn.
  - f_equal. apply IH. intros u v Hc. apply H. now apply comes_cons.
  - assert (Hf : filter isq l = []).
    { destruct (filter isq l) as [|y q] eqn:Ef; [reflexivity|]. exfalso. assert (Hy : In y (filter isq l)) by (rewrite Ef; now left). apply filter_In in Hy.
      apply (H x y); [now apply comes_head|exact E|apply Hy]. }
    rewrite Hf. cbn. f_equal. transitivity (filter isq l ++ filter (fun y => negb (isq y)) l); [apply IH; intros u v Hc; apply H; now apply comes_cons|now rewrite Hf].
Qed.

Lemma combine_same {A B} (l : list A) : forall (l' : list B) x y v, NoDup l' -> In (x, v) (combine l l') -> In (y, v) (combine l l') -> x = y.
Proof.
  induction l as [|a l IH]; intros [|b l'] x y v H Hx Hy; try contradiction. inversion H as [|? ? Hb Hl]; subst. cbn in Hx, Hy.
  destruct Hx as [Ex|Hx], Hy as [Ey|Hy].
  - congruence.
  - injection Ex as <- <-. apply in_combine_r in Hy. contradiction.
  - injection Ey as <- <-. apply in_combine_r in Hx. contradiction.
  - now apply (IH l' x y v).
Qed.

Lemma combine_fst {A B} (l : list A) : forall l' : list B, map fst (combine l l') = firstn (length l') l.
Proof. induction l as [|a l IH]; intros [|b l']; try reflexivity. cbn. now rewrite IH. Qed.

Lemma combine_back {A B} (t : list (A * B)) : combine (map fst t) (map snd t) = t.
Proof. induction t as [|[a b] t IH]; [reflexivity|]. cbn. now rewrite IH. Qed.

(** ** The constraints of the queens *)

Section Q.
Variable n : nat.
Hypothesis Hn : (2 <= n)%nat.
Let N := Z.of_nat n.
Let P0 := fun _ : nat => 0.

Lemma q_ul r r' c : q_ r <> ul_ r' c. Proof. unfold q_, ul_, name1, name2. cbn. discriminate. Qed.
Lemma q_ur r r' c : q_ r <> ur_ r' c. Proof. unfold q_, ur_, name1, name2. cbn. discriminate. Qed.

Lemma C_inv p : In p (C n) -> p = PDiff (qs n) \/
  (exists r c, p = PForm (f_ul r c) \/ p = PForm (f_ur r c)) \/
  (exists r, p = PDiff (map (ul_ r) (seq 0 n)) \/ p = PDiff (map (ur_ r) (seq 0 n))).
Proof.
  intros [<-|H]; [now left|]. right. apply in_flat_map in H. destruct H as (r & _ & H). unfold Cr in H. apply in_app_or in H. destruct H as [H|H].
  - left. apply in_flat_map in H. destruct H as (c & _ & [<-|[<-|[]]]); exists r, c; auto.
  - right. exists r. destruct H as [<-|[<-|[]]]; auto.
Qed.

Lemma C_diag r : (r < n)%nat -> In (PDiff (map (ul_ r) (seq 0 n))) (C n) /\ In (PDiff (map (ur_ r) (seq 0 n))) (C n).
Proof.
  intros Hr. split; right; apply in_flat_map; exists r; (split; [apply in_seq; lia|]); unfold Cr; apply in_or_app; right; [now left|right; now left].
Qed.

Lemma in_qs x : In x (qs n) <-> exists r, (r < n)%nat /\ x = q_ r.
Proof.
  unfold qs. rewrite in_map_iff. split; [intros (r & <- & H); apply in_seq in H; exists r; split; [lia|reflexivity]|intros (r & H & ->); exists r; split; [reflexivity|apply in_seq; lia]].
Qed.

Lemma queens_keeps : keeps_names (C n).
Proof.
  intros f ex Hf E z Hz. apply vars_occurs. apply C_inv in Hf. destruct Hf as [Hf|[(r & c & Hf)|(r & Hf)]]; [discriminate| |destruct Hf; discriminate].
  destruct Hf as [Hf|Hf]; injection Hf as ->; cbn [f_ul f_ur fvars app] in Hz; unfold f_ul, f_ur in E; destruct c as [|c].
  all: cbn in E; injection E as <-; destruct Hz as [<-|[<-|[]]]; repeat first [constructor; fail|apply occ_binl; constructor; fail|apply occ_binr].
Qed.

Lemma diff_possible xs : exists a, sat P0 a (PDiff xs).
Proof.
  exists (fun x => Z.of_nat (GraphFacts.pos x xs)). intros x y Hx Hy Hne E. apply Nat2Z.inj in E.
  destruct (GraphFacts.pos_spec [] [] x xs Hx) as [_ E1], (GraphFacts.pos_spec [] [] y xs Hy) as [_ E2]. congruence.
Qed.

Lemma queens_solvable w : built P0 w (V n) (C n) -> m_solvable (w_model w) = true.
Proof.
  intros Hb. destruct (m_solvable (w_model w)) eqn:E; [reflexivity|exfalso]. destruct (b_solv _ _ _ _ Hb E) as (p & Hp & Hno).
  assert (Hd : forall xs, p <> PDiff xs). { intros xs ->. destruct (diff_possible xs) as (a & Ha). exact (Hno a Ha). }
  destruct (C_inv p Hp) as [->|[(r & c & Hf)|(r & Hf)]]; [now apply (Hd (qs n))| |destruct Hf; subst; now eapply Hd].
  destruct Hf as [->| ->].
  - apply (Hno (fun x => if String.eqb x (q_ c) then 0 else Z.of_nat c)). exists 1. cbn [meaning arith f_ul]. rewrite String.eqb_refl.
    destruct (String.eqb_spec (ul_ r c) (q_ c)) as [E'|_]; [symmetry in E'; now apply q_ul in E'|]. rewrite Z.add_0_l, Z.eqb_refl. split; [reflexivity|lia].
  - apply (Hno (fun x => if String.eqb x (q_ c) then 0 else - Z.of_nat c)). exists 1. cbn [meaning arith f_ur]. rewrite String.eqb_refl.
    destruct (String.eqb_spec (ur_ r c) (q_ c)) as [E'|_]; [symmetry in E'; now apply q_ur in E'|].
    replace (- Z.of_nat c =? 0 - Z.of_nat c) with true by (symmetry; apply Z.eqb_eq; lia). split; [reflexivity|lia].
Qed.

Lemma V_names : names_of (V n) = qs n ++ names_of (flat_map (Vr n) (seq 0 n)).
Proof.
  unfold V. rewrite names_app. f_equal. unfold Vq, qs. clear. induction (seq 0 n) as [|r l IH]; [reflexivity|]. cbn. f_equal. exact IH.
Qed.

Lemma not_diag x r : In x (names_of (flat_map (Vr n) (seq 0 n))) -> x <> q_ r.
Proof. intros H ->. apply names_Vr in H. destruct H as (r' & c & _ & _ & [E|E]); [now apply q_ul in E|now apply q_ur in E]. Qed.

(** ** The queens come first *)

Lemma tally_pos {A} (Q : A -> Prop) l k : tally Q l k -> 0 <= k.
Proof. induction 1; lia. Qed.

Lemma diag_group w x k : built P0 w (V n) (C n) -> (exists c l, m_cons (w_model w) = c :: l /\ c_body c = CAllDiff (qs n)) ->
  In x (names_of (flat_map (Vr n) (seq 0 n))) -> first_group (m_cons (w_model w)) x k -> 1 <= k.
Proof.
  intros Hb (c0 & l & Ec & Hc0) Hx Hk.
  assert (Hsome : exists c, In c (m_cons (w_model w)) /\ all_different c /\ mentions c x).
  { apply names_Vr in Hx. destruct Hx as (r & c & Hr & Hc & Hx). apply in_seq in Hr.
    assert (Hg : exists g, In (PDiff (map g (seq 0 n))) (C n) /\ (forall i j, g i = g j -> i = j) /\ x = g c).
    { destruct Hx as [->| ->]; [exists (ul_ r)|exists (ur_ r)]; (split; [apply C_diag; lia|split; [|reflexivity]]); intros i j Hij; apply name2_inj in Hij; tauto. }
    destruct Hg as (g & Hg & Hinj & ->).
    destruct (b_into _ _ _ _ Hb _ Hg) as [(c' & Hc' & Hre)|[Hall|[Hns _]]].
    - exists c'. split; [exact Hc'|]. split; [now exists (map g (seq 0 n))|]. unfold mentions. cbn in Hre. rewrite Hre. apply in_map. apply in_seq. lia.
    - exfalso. apply (Hall (fun _ => 0) (g 0%nat) (g 1%nat)); [apply in_map, in_seq; lia|apply in_map, in_seq; lia|intros E; apply Hinj in E; lia|reflexivity].
    - rewrite (queens_solvable w Hb) in Hns. discriminate. }
  destruct Hk as [[_ Hk]|(cs1 & c' & cs2 & E & Hd & Hm & Hbefore & Ht)].
  - exfalso. destruct Hsome as (c & Hc & Hd & Hm). exact (Hk c Hc Hd Hm).
  - rewrite Ec in E. destruct cs1 as [|c1 cs1].
    + injection E as <- _. unfold mentions in Hm. rewrite Hc0 in Hm. apply in_qs in Hm. destruct Hm as (r & _ & ->). now apply not_diag with (r := r) in Hx.
    + injection E as <- _. inversion Ht as [|? ? ? _ Ht'|? ? ? Hno _]; subst; [apply tally_pos in Ht'; lia|]. exfalso. apply Hno. now exists (qs n).
Qed.

Lemma queen_group w r k : (exists c l, m_cons (w_model w) = c :: l /\ c_body c = CAllDiff (qs n)) -> (r < n)%nat ->
  first_group (m_cons (w_model w)) (q_ r) k -> k = 0.
Proof.
  intros (c0 & l & Ec & Hc0) Hr Hk.
  assert (Hd : all_different c0) by now exists (qs n).
  assert (Hm : mentions c0 (q_ r)) by (unfold mentions; rewrite Hc0; apply in_qs; eauto).
  destruct Hk as [[_ Hk]|(cs1 & c' & cs2 & E & _ & _ & Hbefore & Ht)].
  - exfalso. apply (Hk c0); auto. rewrite Ec. now left.
  - rewrite Ec in E. destruct cs1 as [|c1 cs1]; [now inversion Ht|]. injection E as <- _. exfalso. apply (Hbefore c0); auto. now left.
Qed.

Lemma queens_first shuffle p w order : built P0 w (V n) (C n) -> (exists c l, m_cons (w_model w) = c :: l /\ c_body c = CAllDiff (qs n)) ->
  p = GROUPS \/ p = ORDERED -> Permutation order (names_of (V n)) -> (p = ORDERED -> order = names_of (V n)) -> variables_of (w_model w) = names_of (V n) ->
  visits shuffle p (w_model w) (m_cons (w_model w)) order ->
  exists rows rest, Permutation rows (seq 0 n) /\ rest <> [] /\ order = map q_ rows ++ rest.
Proof.
  intros Hb Hc Hp Hperm Hord Hvars Hvis.
  assert (Hrest : names_of (flat_map (Vr n) (seq 0 n)) <> []).
  { destruct n as [|n']; [lia|]. cbn. discriminate. }
  destruct Hp as [-> | ->].
  2: { exists (seq 0 n), (names_of (flat_map (Vr n) (seq 0 n))). split; [apply Permutation_refl|]. split; [exact Hrest|]. rewrite (Hord eq_refl). apply V_names. }
  destruct Hvis as (key & Hkey & _ & Hcomes). rewrite Hvars in Hkey.
  set (isq := fun x : name => if in_dec string_dec x (qs n) then true else false).
  assert (Hq : forall x, isq x = true <-> In x (qs n)) by (intros x; unfold isq; destruct (in_dec string_dec x (qs n)); split; congruence || auto).
  assert (Hnq : forall x, In x order -> isq x = false -> In x (names_of (flat_map (Vr n) (seq 0 n)))).
  { intros x Hx Hf. apply (Permutation_in _ Hperm) in Hx. rewrite V_names in Hx. apply in_app_or in Hx. destruct Hx as [Hx|Hx]; [apply Hq in Hx; congruence|exact Hx]. }
  assert (Hparts : order = filter isq order ++ filter (fun x => negb (isq x)) order).
  { apply two_parts. intros x y Hxy Hx Hy. destruct (comes_In _ _ _ Hxy) as [Hix Hiy]. pose proof (Hnq x Hix Hx) as Hdx. apply Hq, in_qs in Hy. destruct Hy as (r & Hr & ->).
    apply (Permutation_in _ Hperm) in Hix, Hiy. pose proof (Hkey x Hix) as Kx. pose proof (Hkey _ Hiy) as Ky.
    destruct (key x) as [[g1 b1] d1] eqn:E1, (key (q_ r)) as [[g2 b2] d2] eqn:E2. destruct Kx as [Kx _], Ky as [Ky _].
    apply diag_group in Kx; auto. apply queen_group in Ky; auto. subst g2.
    destruct (Hcomes x (q_ r) Hxy) as [Hl|[He _]]; rewrite E1, E2 in *; [cbn in Hl; lia|injection He as -> _ _; lia]. }
  assert (HN : NoDup order). { apply (Permutation_NoDup (Permutation_sym Hperm)). exact (b_names _ _ _ _ Hb). }
  assert (Hpq : Permutation (filter isq order) (map q_ (seq 0 n))).
  { apply NoDup_Permutation; [now apply NoDup_filter| |].
    - apply FinFun.Injective_map_NoDup; [intros i j; apply q_inj|apply seq_NoDup].
    - intros x. rewrite filter_In, Hq. split; [tauto|]. intros Hx. split; [|exact Hx]. apply (Permutation_in _ (Permutation_sym Hperm)). rewrite V_names. apply in_or_app. now left. }
  destruct (Permutation_map_inv _ _ Hpq) as (rows & Erows & Hrows).
  exists rows, (filter (fun x => negb (isq x)) order). split; [now symmetry|]. rewrite <- Erows. split; [|exact Hparts].
  intros E. rewrite E, app_nil_r in Hparts. apply Permutation_length in Hpq. rewrite <- Hparts in Hpq. apply Permutation_length in Hperm. rewrite V_names, app_length in Hperm.
  unfold qs in Hperm. destruct (names_of (flat_map (Vr n) (seq 0 n))); [congruence|]. cbn in Hperm. lia.
Qed.

(** ** Placements *)

Section Rows.
Variables (rows : list nat) (rest : list name).
Hypothesis Hrows : Permutation rows (seq 0 n).
Hypothesis Hrest : rest <> [].
Let order := map q_ rows ++ rest.

Lemma rows_length : length rows = n.
Proof. rewrite (Permutation_length Hrows). apply seq_length. Qed.
Lemma rows_lt r : In r rows -> (r < n)%nat.
Proof. intros H. apply (Permutation_in _ Hrows), in_seq in H. lia. Qed.
Lemma rooks_length cols : rooks n cols -> (length cols <= n)%nat.
Proof.
  intros [Hnd Hr]. replace n with (length (zrange 0 N)).
  - apply NoDup_incl_length; [exact Hnd|]. intros c Hc. apply zrange_In. now apply Hr.
  - unfold zrange. rewrite map_length, seq_length. unfold N. lia.
Qed.

Lemma placed_names cols : map fst (placed rows cols) = firstn (length cols) (map q_ rows).
Proof. exact (combine_fst (map q_ rows) cols). Qed.

Lemma placed_queen cols x v : In (x, v) (placed rows cols) -> exists r, (r < n)%nat /\ x = q_ r.
Proof. intros H. apply in_combine_l in H. apply in_map_iff in H. destruct H as (r & <- & Hr). exists r. split; [now apply rows_lt|reflexivity]. Qed.

Lemma rooks_tried cols : rooks n cols -> starts order (placed rows cols) /\ tried P0 (V n) (C n) (placed rows cols).
Proof.
  intros Hk. split; [|split; [|split]].
  - assert (Hne : skipn (length cols) (map q_ rows) ++ rest <> []).
    { intros E. apply app_eq_nil in E. tauto. }
    destruct (skipn (length cols) (map q_ rows) ++ rest) as [|x q] eqn:E; [congruence|]. exists x, q.
    rewrite placed_names, <- E, app_assoc, firstn_skipn. reflexivity.
  - intros x v H. destruct (placed_queen cols x v H) as (r & Hr & ->). exists (zrange 0 N). split; [now apply V_q|].
    apply in_combine_r in H. apply zrange_In. now apply Hk.
  - intros f Hf Hb. exfalso.
    assert (Hd : exists r c x, In x (fvars f) /\ (x = ul_ r c \/ x = ur_ r c)).
    { apply C_inv in Hf. destruct Hf as [Hf|[(r & c & Hf)|(r & Hf)]]; [discriminate| |destruct Hf; discriminate].
      destruct Hf as [Hf|Hf]; injection Hf as ->; [exists r, c, (ul_ r c)|exists r, c, (ur_ r c)]; (split; [now left|auto]). }
    destruct Hd as (r & c & x & Hx & Hd). apply Hb, in_map_iff in Hx. destruct Hx as ([x' v] & E & Hx). cbn in E. subst x'.
    apply placed_queen in Hx. destruct Hx as (r' & _ & ->). destruct Hd as [E|E]; [now apply q_ul in E|now apply q_ur in E].
  - intros xs x y v _ _ _ Hne Hx Hy. apply dget_In in Hx, Hy. apply Hne. exact (combine_same (map q_ rows) cols x y v (proj1 Hk) Hx Hy).
Qed.

Lemma tried_rooks t : starts order t -> tried P0 (V n) (C n) t -> (length t <= n)%nat ->
  exists cols, rooks n cols /\ t = placed rows cols.
Proof.
  intros (x & q & E) (Hdom & _ & Hdiff) Hlen.
  assert (Hf : map fst t = firstn (length t) (map q_ rows)).
  { unfold order in E. rewrite <- (map_length fst t). rewrite <- (map_length fst t) in Hlen.
    assert (Ef : firstn (length (map fst t)) (map q_ rows ++ rest) = map fst t) by (rewrite E, firstn_app, Nat.sub_diag, firstn_all; cbn; apply app_nil_r).
    rewrite firstn_app in Ef. replace (length (map fst t) - length (map q_ rows))%nat with 0%nat in Ef by (rewrite (map_length q_ rows), rows_length; lia).
    cbn [firstn] in Ef. rewrite app_nil_r in Ef. now symmetry. }
  assert (Hq : forall z v, In (z, v) t -> In z (qs n)).
  { intros z v Hz. apply (in_map fst) in Hz. cbn in Hz. rewrite Hf in Hz.
    assert (Hi : In z (map q_ rows)) by (rewrite <- (firstn_skipn (length t) (map q_ rows)); apply in_or_app; now left).
    apply in_map_iff in Hi. destruct Hi as (r & <- & Hr). apply in_qs. exists r. split; [now apply rows_lt|reflexivity]. }
  assert (HN : NoDup (names_of t)).
  { unfold names_of. rewrite Hf. assert (NoDup (map q_ rows)) as H.
    { apply FinFun.Injective_map_NoDup; [intros i j; apply q_inj|]. apply (Permutation_NoDup (Permutation_sym Hrows)), seq_NoDup. }
    rewrite <- (firstn_skipn (length t) (map q_ rows)) in H. now apply NoDup_app_inv in H. }
  exists (map snd t). split; [split|].
  - clear Hf Hlen E. induction t as [|[z v] t IH]; [constructor|]. cbn. constructor.
    + intros Hi. apply in_map_iff in Hi. destruct Hi as ([z' v'] & Ev & Hz'). cbn in Ev. subst v'.
      inversion HN as [|? ? Hz HN']; subst.
      assert (Hne : z <> z') by (intros <-; apply Hz; apply (in_map fst) in Hz'; exact Hz').
      apply (Hdiff (qs n) z z' v); [now left| | |exact Hne| |].
      * apply (Hq z v). now left.
      * apply (Hq z' v). now right.
      * cbn. now rewrite String.eqb_refl.
      * apply dget_NoDup; [exact HN|now right].
    + inversion HN as [|? ? Hz HN']; subst. apply IH; [intros; apply Hdom; now right| |intros z' v' Hz'; apply (Hq z' v'); now right|exact HN'].
      intros xs a b u Hp Ha Hb Hab Ga Gb. apply (Hdiff xs a b u Hp Ha Hb Hab).
      * apply dget_In in Ga. apply dget_NoDup; [exact HN|now right].
      * apply dget_In in Gb. apply dget_NoDup; [exact HN|now right].
  - intros c Hc. apply in_map_iff in Hc. destruct Hc as ([z v] & <- & Hz). cbn. destruct (Hdom z v Hz) as (d & Hd & Hv).
    apply Hq in Hz. apply in_qs in Hz. destruct Hz as (r & Hr & ->).
    assert (d = zrange 0 N) as ->.
    { apply in_app_or in Hd. destruct Hd as [Hd|Hd].
      - apply in_flat_map in Hd. destruct Hd as (r' & _ & [Ed|[]]). apply (f_equal snd) in Ed. symmetry. exact Ed.
      - apply (in_map fst) in Hd. cbn in Hd. exfalso. eapply (not_diag (q_ r) r); [exact Hd|reflexivity]. }
    now apply zrange_In in Hv.
  - unfold placed. rewrite <- (combine_back t) at 1. rewrite Hf. change (map (name1 "q_") rows) with (map q_ rows).
    rewrite <- (map_length snd t). generalize (map snd t) (map q_ rows). clear. intros l. induction l as [|b l IH]; intros [|a q]; try reflexivity. cbn. now rewrite IH.
Qed.
End Rows.

Lemma queens_tries clk shuffle f o ts ys r i : shuffles shuffle ->
  o_policy o = None \/ o_policy o = Some GROUPS \/ o_policy o = Some ORDERED ->
  queens_watched clk shuffle f n o = Some (ts, ys, r, i) ->
  exists rows, Permutation rows (seq 0 n) /\ NoDup ts /\
    (forall t, In t ts -> (length t <= n)%nat -> exists cols, rooks n cols /\ t = placed rows cols) /\
    (i = None -> forall cols, rooks n cols -> In (placed rows cols) ts).
Proof.
  intros Hs Hpo H. unfold queens_watched in H. pose proof (queens_adds n) as Ha.
  destruct (puzzle_watched_inv clk shuffle f _ _ (V n) (C n) _ ts ys r i Ha H) as (e & e' & Ec & Hb & Hrun & ->).
  destruct (queens_describes n ltac:(lia)) as [_ HV Hsafe _ _ _].
  set (sv := options_solver GROUPS o) in *.
  destruct (new_solver_lims (arg_or (o_policy o) GROUPS) (o_timeout o) (o_limit o) (o_compile o)) as [Hto Hli].
  pose proof (queens_solvable _ Hb) as Hsol.
  destruct (t_tries P0 clk shuffle f e sv (V n) (C n) ts ys e' r Hb Hs HV (fun _ => Hsafe) Hto Hli queens_keeps Hrun Hsol)
    as (order & Hp & Ho & Hvi & Ht & Hnd & Hall).
  rewrite b_cs in Hvi.
  assert (Hpol : policy_of sv no_args = GROUPS \/ policy_of sv no_args = ORDERED).
  { unfold sv, policy_of. cbn. destruct Hpo as [->|[->| ->]]; auto. }
  assert (Hemp : starts order [] /\ tried P0 (V n) (C n) []).
  { split; [|split; [intros x v []|split]].
    - destruct order as [|x q]; [|now exists x, q]. apply Permutation_nil in Hp. rewrite V_names in Hp. unfold qs in Hp. destruct n; [lia|discriminate].
    - intros g Hg Hbnd. exfalso. apply C_inv in Hg. destruct Hg as [Hg|[(r' & c & Hg)|(r' & Hg)]]; [discriminate| |destruct Hg; discriminate].
      destruct Hg as [Hg|Hg]; injection Hg as ->; [destruct (Hbnd (ul_ r' c))|destruct (Hbnd (ur_ r' c))]; now left.
    - intros xs x y v _ _ _ _ Hx. discriminate. }
  destruct ts as [|t0 ts'].
  - exists (seq 0 n). split; [apply Permutation_refl|]. split; [constructor|]. split; [intros t []|]. intros Hi. destruct (Hall Hi [] (proj1 Hemp) (proj2 Hemp)).
  - destruct (queens_first shuffle _ (e_world e) order Hb (queens_head n e ltac:(lia) Ec) Hpol Hp Ho) as (rows & rest & Hr1 & Hr2 & ->).
    + exact (t_names P0 e (V n) (C n) Hb).
    + apply Hvi. discriminate.
    + exists rows. split; [exact Hr1|]. split; [exact Hnd|]. split.
      * intros t Hin Hlen. destruct (Ht t Hin) as [H1 H2]. now apply (tried_rooks rows rest Hr1).
      * intros Hi cols Hk. destruct (rooks_tried rows rest Hr1 Hr2 cols Hk) as [H1 H2]. now apply Hall.
Qed.

Lemma placed_inj rows cols cols' : length cols = length rows -> length cols' = length rows -> placed rows cols = placed rows cols' -> cols = cols'.
Proof.
  unfold placed. revert cols cols'. induction rows as [|r rows IH]; intros [|c cols] [|c' cols'] E1 E2 E; try discriminate; [reflexivity|].
  cbn [map combine] in E. assert (Hc : c = c') by (apply (f_equal (fun l => match l with p :: _ => snd p | [] => 0 end)) in E; exact E).
  apply (f_equal (@tl _)) in E. cbn [tl] in E. f_equal; [exact Hc|]. apply IH; [now injection E1|now injection E2|exact E].
Qed.

Lemma queens_cost clk shuffle f o ts ys r i : shuffles shuffle ->
  o_policy o = None \/ o_policy o = Some GROUPS \/ o_policy o = Some ORDERED ->
  queens_watched clk shuffle f n o = Some (ts, ys, r, i) -> i = None ->
  (2 * fact n < queens_iterations clk shuffle f n o)%nat.
Proof.
  intros Hs Hpo H Hi. destruct (queens_tries clk shuffle f o ts ys r i Hs Hpo H) as (rows & Hrows & Hnd & _ & Hall). specialize (Hall Hi).
  pose proof (rows_length rows Hrows) as Hrl.
  assert (HA : (S (fact n) <= length ts)%nat).
  { set (L := [] :: map (placed rows) (arrangements (zrange 0 N))).
    assert (Hz : length (zrange 0 N) = n) by (unfold zrange; rewrite map_length, seq_length; unfold N; lia).
    assert (Hlen : length L = S (fact n)) by (unfold L; cbn [length]; now rewrite map_length, arrangements_length, Hz).
    assert (Hal : forall q, In q (arrangements (zrange 0 N)) -> length q = length rows).
    { intros q Hq. rewrite Hrl, <- Hz. now apply Permutation_length, arrangements_perm. }
    rewrite <- Hlen. apply NoDup_incl_length.
    - constructor.
      + intros Hin. apply in_map_iff in Hin. destruct Hin as (q & E & Hq). apply Hal in Hq. rewrite Hrl in Hq.
        destruct rows as [|r0 rows'], q as [|c q]; cbn in Hrl, Hq; try lia. discriminate.
      + assert (HN : NoDup (arrangements (zrange 0 N))) by apply arrangements_NoDup, zrange_NoDup.
        clear Hlen L. induction (arrangements (zrange 0 N)) as [|q A IH]; [constructor|]. inversion HN as [|? ? Hq HA']; subst. cbn. constructor.
        * intros Hin. apply in_map_iff in Hin. destruct Hin as (q' & E & Hq'). apply placed_inj in E; [subst; contradiction| |]; apply Hal; [now right|now left].
        * apply IH; [intros; apply Hal; now right|exact HA'].
    - intros t [<-|Ht].
      + specialize (Hall [] ltac:(split; [constructor|intros c []])). unfold placed in Hall. rewrite combine_nil in Hall. exact Hall.
      + apply in_map_iff in Ht. destruct Ht as (q & <- & Hq). apply Hall. apply arrangements_perm in Hq. split.
        * apply (Permutation_NoDup (Permutation_sym Hq)), zrange_NoDup.
        * intros c Hc. apply (Permutation_in _ Hq), zrange_In in Hc. exact Hc. }
  unfold queens_watched in H. pose proof (queens_adds n) as Ha.
  destruct (puzzle_watched_inv clk shuffle f _ _ (V n) (C n) _ ts ys r i Ha H) as (e & e' & Ec & Hb & Hrun & Ei).
  unfold queens_iterations, puzzle_iterations. rewrite Ec.
  set (sv := options_solver GROUPS o) in *.
  destruct (new_solver_lims (arg_or (o_policy o) GROUPS) (o_timeout o) (o_limit o) (o_compile o)) as [Hto Hli].
  destruct (queens_describes n ltac:(lia)) as [_ HV Hsafe _ _ _].
  pose proof (t_none P0 clk shuffle f e sv (V n) (C n) ts ys e' r Hb Hs HV (fun _ => Hsafe) Hto Hli Hrun) as Hr.
  destruct (cost clk shuffle f e sv no_args ts ys e' r (built_valid P0 e (V n) (C n) shuffle Hb Hs) Hrun) as [_ Hcost].
  cbv zeta in Hcost. specialize (Hcost Hr ltac:(congruence) ltac:(destruct ts; [cbn in HA; lia|discriminate])). unfold len in Hcost. lia.
Qed.

Lemma queens_attacked clk shuffle f o ts ys r i : shuffles shuffle ->
  o_policy o = None \/ o_policy o = Some GROUPS \/ o_policy o = Some ORDERED ->
  queens_watched clk shuffle f n o = Some (ts, ys, r, i) -> i = None ->
  exists t, In t ts /\ attacked t.
Proof.
  intros Hs Hpo H Hi. destruct (queens_tries clk shuffle f o ts ys r i Hs Hpo H) as (rows & Hrows & _ & _ & Hall). specialize (Hall Hi).
  pose proof (rows_length rows Hrows) as Hrl. destruct rows as [|r1 [|r2 rows]]; cbn in Hrl; try lia.
  pose proof (rows_lt _ Hrows r1 ltac:(now left)) as H1. pose proof (rows_lt _ Hrows r2 ltac:(right; now left)) as H2.
  assert (Hne : r1 <> r2).
  { pose proof (Permutation_NoDup (Permutation_sym Hrows) (seq_NoDup n 0)) as HN. inversion HN; subst. intros ->. apply H4. now left. }
  exists (placed (r1 :: r2 :: rows) [0; Z.abs (Z.of_nat r1 - Z.of_nat r2)]). split.
  - apply Hall. split.
    + constructor; [intros [E|[]]; lia|]. constructor; [intros []|constructor].
    + intros c [<-|[<-|[]]]; lia.
  - exists r1, 0, r2, (Z.abs (Z.of_nat r1 - Z.of_nat r2)). unfold placed. cbn [map combine]. split; [now left|]. split; [right; now left|]. split; [exact Hne|]. lia.
Qed.
End Q.
