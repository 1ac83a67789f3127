(** The puzzles with constraints added by the user. *)
From Verif Require Import Queens Graph Sudoku Cryptarithm PuzzleUser SpecPuzzleUser SpecPuzzle SpecQueens SpecGraph SpecSudoku SpecCryptarithm SpecSafe SpecSolve.
From Verif Require Import NameFacts DictFacts PuzzleFacts PuzzleUserFacts PuzzleUserRel QueensFacts GraphFacts SudokuFacts CryptarithmText CryptarithmWord CryptarithmFacts.
Open Scope list_scope.
Open Scope Z_scope.

(** ** Queens *)
Lemma queens_closed n p x : In p (QueensFacts.C n) -> In x (p_names p) -> In x (names_of (QueensFacts.V n)).
Proof.
  intros Hp Hx. unfold QueensFacts.V. rewrite names_app, in_app_iff.
  assert (Hd : forall r c, (r < n)%nat -> (c < n)%nat -> x = ul_ r c \/ x = ur_ r c -> In x (names_of (flat_map (Vr n) (seq 0 n)))).
  { intros r c Hr Hc Hy. apply names_flat. exists r. split; [apply in_seq; lia|]. unfold Vr. apply names_flat. exists c. split; [apply in_seq; lia|].
    cbn. intuition. }
  destruct Hp as [<-|Hp].
  - left. cbn [p_names] in Hx. unfold qs in Hx. apply in_map_iff in Hx. destruct Hx as (r & <- & Hr). apply in_seq in Hr. apply names_Vq. exists r. split; [lia|reflexivity].
  - apply in_flat_map in Hp. destruct Hp as (r & Hr & Hp). apply in_seq in Hr. unfold Cr in Hp. apply in_app_or in Hp. destruct Hp as [Hp|[<-|[<-|[]]]].
    + apply in_flat_map in Hp. destruct Hp as (c & Hc & Hp). apply in_seq in Hc.
      destruct Hp as [<-|[<-|[]]]; cbn in Hx; destruct Hx as [<-|[<-|[]]].
      * right. apply (Hd r c); [lia|lia|now left].
      * left. apply names_Vq. exists c. split; [lia|reflexivity].
      * right. apply (Hd r c); [lia|lia|now right].
      * left. apply names_Vq. exists c. split; [lia|reflexivity].
    + right. cbn [p_names] in Hx. apply in_map_iff in Hx. destruct Hx as (c & <- & Hc). apply in_seq in Hc. apply (Hd r c); [lia|lia|now left].
    + right. cbn [p_names] in Hx. apply in_map_iff in Hx. destruct Hx as (c & <- & Hc). apply in_seq in Hc. apply (Hd r c); [lia|lia|now right].
Qed.

Lemma queens_ready n : (1 <= n)%nat -> is_ready (queens_init n) (queens_decode n) (queens_board n) (queens_values n) (queens_var n).
Proof.
  intros Hn.
  exists (qs n), (QueensFacts.V n), (QueensFacts.C n). constructor.
  - now apply queens_describes.
  - apply queens_closed.
  - intros s b [Hd Hc] Hb k r c Hk Hr Hcn Hcell.
    assert (Hq : forall r, (r < n)%nat -> dget s (q_ r) = Some (val s (q_ r)) /\ 0 <= val s (q_ r) < Z.of_nat n).
    { intros r' Hr'. destruct (Hd _ _ (V_q n r' Hr')) as [H1 H2]. split; [exact H1|]. now apply zrange_In. }
    rewrite decode_spec in Hb by exact Hq. injection Hb as <-.
    rewrite board_cell in Hcell; [|intros r' Hr'; destruct (Hq r' Hr'); lia|exact Hr].
    destruct (Nat.eqb_spec c (Z.to_nat (val s (q_ r)))) as [E|]; [|discriminate]. destruct (Hq r Hr) as [_ Hrange].
    apply sat_constraints in Hc. destruct Hc as [_ Hc]. destruct (Hc k r Hk Hr) as [E1 E2]. unfold q_, ul_, ur_ in *. lia.
  - intros b a a' (_ & _ & Hone & _) Ha Ha' x Hx. unfold QueensFacts.V in Hx. rewrite names_app, in_app_iff in Hx. destruct Hx as [Hx|Hx].
    + apply names_Vq in Hx. destruct Hx as (r & Hr & ->). destruct (Hone r Hr) as (c & Hc & E).
      destruct (Ha 0%nat r c ltac:(lia) Hr Hc E) as [E1 _], (Ha' 0%nat r c ltac:(lia) Hr Hc E) as [E2 _]. unfold q_. congruence.
    + apply names_Vr in Hx. destruct Hx as (k & r & Hk & Hr & Hx). apply in_seq in Hk. destruct (Hone r Hr) as (c & Hc & E).
      destruct (Ha k r c ltac:(lia) Hr Hc E) as (_ & E1 & E2), (Ha' k r c ltac:(lia) Hr Hc E) as (_ & E3 & E4).
      destruct Hx as [->| ->]; unfold ul_, ur_; congruence.
  - intros x d v Hin Hv. unfold QueensFacts.V in Hin. apply in_app_or in Hin. destruct Hin as [Hin|Hin].
    + apply in_flat_map in Hin. destruct Hin as (r & Hr & [E|[]]). injection E as <- <-. apply in_seq in Hr. apply zrange_In in Hv.
      exists 0%nat, r. split; [lia|]. split; [lia|]. left. split; [reflexivity|lia].
    + apply in_flat_map in Hin. destruct Hin as (k & Hk & Hin). apply in_flat_map in Hin. destruct Hin as (r & Hr & Hin). apply in_seq in Hk, Hr.
      exists k, r. split; [lia|]. split; [lia|]. right. destruct Hin as [E|[E|[]]]; injection E as <- <-; apply zrange_In in Hv; [left|right]; (split; [reflexivity|]); [change (0 <= v < 2 * Z.of_nat n + 1) in Hv|]; lia.
  - intros x. unfold QueensFacts.V. rewrite names_app, in_app_iff. split.
    + intros [H|H].
      * apply names_Vq in H. destruct H as (r & Hr & ->). exists 0, 0%nat, r. split; [lia|]. split; [lia|]. left. split; [reflexivity|lia].
      * apply names_Vr in H. destruct H as (k & r & Hk & Hr & Hx). apply in_seq in Hk. exists 0, k, r. split; [lia|]. split; [lia|]. right.
        destruct Hx as [->| ->]; [left|right]; (split; [reflexivity|lia]).
    + intros (v & k & r & Hk & Hr & Hx). destruct Hx as [[-> _]|Hx]; [left; apply names_Vq; exists r; auto|right].
      apply names_flat. exists k. split; [apply in_seq; lia|]. apply names_flat. exists r. split; [apply in_seq; lia|]. cbn. unfold ul_, ur_. intuition.
Qed.

Lemma queens_user clk shuffle n o us : (1 <= n)%nat -> shuffles shuffle -> us_ok (queens_var n) (o_compile o) us ->
  exactly_firsts (fun fuel => user_run clk shuffle fuel (queens_init n) (queens_decode n) GROUPS o us)
    (also_with (queens_board n) (queens_values n) us) (o_timeout o) (o_limit o).
Proof.
  intros Hn Hs Hu. apply (user_exactly _ _ _ _ _ _ _ _ _ _ _ _ (queens_ready n Hn) Hs Hu).
Qed.

(** ** Graph labelling *)
Lemma graph_ready nodes edges labels : is_graph nodes edges -> nodes <> [] -> NoDup labels ->
  is_ready (graph_init nodes edges labels) (graph_decode labels) (proper_colouring nodes edges labels) (graph_values nodes labels) (graph_var nodes labels).
Proof.
  intros Hg Hne Hl.
  exists (vdict nodes 0), (Vg nodes labels), (Cg nodes edges). constructor.
  - now apply graph_describes.
  - intros p x Hp Hx. unfold Cg in Hp. apply in_flat_map in Hp. destruct Hp as ([u v] & Huv & [<-|[]]). destruct (proj2 Hg u v Huv) as [Hu1 Hv1].
    apply names_Vg. destruct Hx as [<-|[<-|[]]]; cbn [fst snd]; [exists (pos u nodes)|exists (pos v nodes)]; (split; [now apply pos_spec|reflexivity]).
  - intros s b [Hd Hc] Hb i u j l Hi Hj Hin.
    assert (Hq : forall i, (i < length nodes)%nat -> dget s (n_ i) = Some (val s (n_ i)) /\ 0 <= val s (n_ i) < Z.of_nat (length labels)).
    { intros i' Hi'. destruct (Hd _ _ (Vg_In nodes labels i' Hi')) as [H1 H2]. split; [exact H1|]. now apply zrange_In. }
    rewrite (decode_labels nodes edges labels Hg) in Hb by exact Hq. injection Hb as <-. apply In_labelling in Hin. destruct Hin as [Hu1 El].
    assert (Ep : pos u nodes = i) by (destruct Hg; now apply pos_nth).
    rewrite Ep in El. assert (Hi' : (i < length nodes)%nat) by (apply nth_error_Some; congruence). destruct (Hq i Hi') as [_ Hr].
    assert (Hj' : (j < length labels)%nat) by (apply nth_error_Some; congruence).
    assert (Ej : j = Z.to_nat (val s (n_ i))).
    { apply (proj1 (NoDup_nth labels ""%string) Hl); [exact Hj'|lia|]. rewrite <- El. now apply nth_error_nth. }
    unfold n_ in *. lia.
  - intros b a a' (Hb1 & Hb2 & _) Ha Ha' x Hx. apply names_Vg in Hx. destruct Hx as (i & Hi & ->).
    destruct (nth_error nodes i) as [u|] eqn:Eu; [|apply nth_error_None in Eu; lia].
    assert (Hu1 : In u (map fst b)) by (rewrite Hb1; eapply nth_error_In; eauto). apply in_map_iff in Hu1. destruct Hu1 as ([u' l] & E & Hin). cbn in E. subst u'.
    destruct (In_nth_error _ _ (Hb2 u l Hin)) as (j & Hj). unfold n_. now rewrite (Ha i u j l Eu Hj Hin), (Ha' i u j l Eu Hj Hin).
  - intros x d v Hin Hv. unfold Vg in Hin. apply in_map_iff in Hin. destruct Hin as (i & E & Hi). injection E as <- <-. apply in_seq in Hi. apply zrange_In in Hv.
    split; [exists i; split; [lia|reflexivity]|]. left. lia.
  - intros x. rewrite names_Vg. split; [intros (i & Hi & ->); exists 0; split; [exists i; auto|now right]|]. intros (v & (i & Hi & ->) & _). exists i. auto.
Qed.

Lemma graph_user clk shuffle nodes edges labels o us : is_graph nodes edges -> nodes <> [] -> NoDup labels -> shuffles shuffle ->
  us_ok (graph_var nodes labels) (o_compile o) us ->
  exactly_firsts (fun fuel => user_run clk shuffle fuel (graph_init nodes edges labels) (graph_decode labels) ORDERED o us)
    (also_with (proper_colouring nodes edges labels) (graph_values nodes labels) us) (o_timeout o) (o_limit o).
Proof.
  intros Hg Hne Hl Hs Hu. apply (user_exactly _ _ _ _ _ _ _ _ _ _ _ _ (graph_ready nodes edges labels Hg Hne Hl) Hs Hu).
Qed.

(** ** Sudoku *)
Lemma sudoku_ready s : well_formed s -> has_blank s ->
  is_ready (sudoku_init s) (sudoku_decode s) (completion s) (sudoku_values s) (sudoku_var s).
Proof.
  intros Hw Hb.
  assert (Hnm : forall x, (exists r c, (r < 9)%nat /\ (c < 9)%nat /\ given s r c = None /\ x = name2 "c_" r c) <-> In x (names_of (SudokuFacts.Vs s))).
  { intros x. rewrite names_Vs. split.
    - intros (r & c & Hr & Hc & Hg & ->). exists (r, c). split; [now apply null_In|reflexivity].
    - intros ([r c] & Hp & ->). apply null_In in Hp. destruct Hp as (Hr & Hc & Hg). exists r, c. auto. }
  exists tt, (SudokuFacts.Vs s), (Cs s). constructor.
  - now apply sudoku_describes.
  - intros p x Hp Hx. apply names_Vs. unfold Cs in Hp. rewrite !in_app_iff in Hp.
    assert (H : forall index, In p (Cgroup s index) -> exists q, In q (null_cells s) /\ x = c_name q).
    { intros index H. unfold Cgroup in H. apply in_flat_map in H. destruct H as (i & _ & H). destruct (Nat.ltb 1 _); [|contradiction]. destruct H as [<-|[]].
      cbn [p_names] in Hx. unfold group in Hx. apply in_map_iff in Hx. destruct Hx as (q & <- & Hq). apply filter_In in Hq. exists q. split; [apply Hq|reflexivity]. }
    destruct Hp as [Hp|[Hp|Hp]]; eapply H; eauto.
  - intros sol b [Hd _] Eb r c Hr Hc Hg.
    assert (Hq : forall r c, In (r, c) (null_cells s) -> dget sol (c_name (r, c)) = Some (val sol (c_name (r, c)))).
    { intros r' c' Hp. apply (Hd _ (cell_domain s (r', c'))). unfold Vs. apply in_flat_map. exists (r', c'). split; [exact Hp|now left]. }
    rewrite decode_grid in Eb by (exact Hw || exact Hq). injection Eb as <-. rewrite grid_at by assumption. unfold filled. now rewrite Hg.
  - intros b a a' _ Ha Ha' x Hx. apply Hnm in Hx. destruct Hx as (r & c & Hr & Hc & Hg & ->). now rewrite (Ha r c), (Ha' r c).
  - intros x d v Hin Hv. unfold Vs in Hin. apply in_flat_map in Hin. destruct Hin as ([r c] & Hp & [E|[]]). injection E as <- <-.
    pose proof Hp as Hp'. apply null_In in Hp'. destruct Hp' as (Hr & Hc & Hg). split; [exists r, c; auto|].
    unfold cell_domain in Hv. apply filter_In in Hv. destruct Hv as [Hv _]. apply zrange_In in Hv. lia.
  - intros x. rewrite <- Hnm. split; [intros H; exists 1; split; [exact H|lia]|intros (v & H & _); exact H].
Qed.

Lemma sudoku_user clk shuffle s o us : well_formed s -> has_blank s -> shuffles shuffle -> us_ok (sudoku_var s) (o_compile o) us ->
  exactly_firsts (fun fuel => puzzle_run clk shuffle fuel (with_user (sudoku_init s) us) (sudoku_decode s)
      (new_solver (arg_or (o_policy o) GROUPS) (o_timeout o) (sudoku_limit o) (o_compile o)))
    (also_with (completion s) (sudoku_values s) us) (o_timeout o) (sudoku_limit o).
Proof.
  intros Hw Hb Hs Hu. apply (user_exactly _ _ _ _ _ _ _ _ _ _ _ _ (sudoku_ready s Hw Hb) Hs Hu).
Qed.

(** ** Cryptarithms *)
Lemma cry_ready s q order avoid : text_equation s q -> depends_in q -> shuffles order ->
  is_ready (cry_init order s avoid) cry_decode (cry_solution q) letter_values (letter_var q).
Proof.
  intros Ht Hd Ho. destruct (equation_text s q Ht) as (_ & Hw & Hok).
  pose proof (c_names s (equation_words q) order Hw Hok Ho) as Hnm. pose proof (c_letters s (equation_words q) order Hw Hok Ho) as Hlt.
  pose proof (c_In s (equation_words q) order Hw Hok Ho) as HIn. pose proof (c_decode s (equation_words q) order Hw Hok Ho) as Hdec.
  pose proof (c_dom s (equation_words q) Hw Hok) as Hdm.
  eexists _, _, _. constructor.
  - eapply over_describes; auto; [intros xs Hx; now apply eval_equation|now apply depends_not_consts|now apply depends_letter].
  - intros p x Hp Hx. apply Hnm. destruct Hp as [<-|[<-|[]]]; cbn [p_names] in Hx; [now apply Hlt|].
    apply letter_of_has; [exact Hok|]. now apply qform_class in Hx.
  - intros sol b [Hdom _] Eb x v Hin. rewrite Hdec in Eb.
    + injection Eb as <-. apply in_map_iff in Hin. destruct Hin as (y & E & _). injection E as <- <-. reflexivity.
    + intros y Hy. eapply Hdom. apply HIn. split; [exact Hy|reflexivity].
  - intros b a a' (Hb & _) Ha Ha' x Hx. apply Hnm in Hx. apply Hb in Hx. apply in_map_iff in Hx.
    destruct Hx as ([y v] & E & Hin). cbn in E. subst y. now rewrite (Ha x v), (Ha' x v).
  - intros x d v Hin Hv. apply HIn in Hin. destruct Hin as [Hx ->]. apply Hdm in Hv. split; [exact Hx|exact Hv].
  - intros x. rewrite Hnm. split; [intros H; exists 1; split; [exact H|lia]|intros (v & H & _); exact H].
Qed.

Lemma cry_user clk shuffle s q order avoid o us : text_equation s q -> depends_in q -> shuffles order -> shuffles shuffle ->
  us_ok (letter_var q) (o_compile o) us ->
  exactly_firsts (fun fuel => user_run clk shuffle fuel (cry_init order s avoid) cry_decode MIN_BOUND o us)
    (also_with (cry_solution q) letter_values us) (o_timeout o) (o_limit o).
Proof.
  intros Ht Hd Ho Hs Hu. apply (user_exactly _ _ _ _ _ _ _ _ _ _ _ _ (cry_ready s q order avoid Ht Hd Ho) Hs Hu).
Qed.

(** ** Constants *)
Lemma queens_constant : exists n f,
  (1 <= n)%nat /\ is_comparison f = true /\ div_ok f = true /\ f_safe f = true /\
  (forall x, In x (fvars f) -> exists v, queens_var n x v) /\
  (forall a, exists v, meaning no_parameters a f = Some v /\ v <> 0) /\
  forall clk shuffle fuel,
    user_run clk shuffle fuel (queens_init n) (queens_decode n) GROUPS default_options [UForm f] = Some ([], Some TypeError, None).
Proof.
  exists 1%nat, (FBin ULe (FBin UMul (FVar "q_0") (FInt 0)) (FBin UMul (FInt 0) (FVar "q_0")))%string.
  split; [repeat constructor|]. split; [reflexivity|]. split; [reflexivity|]. split; [reflexivity|]. split; [|split].
  - assert (H : exists v, queens_var 1 "q_0" v).
    { exists 0, 0%nat, 0%nat. split; [repeat constructor|]. split; [repeat constructor|]. left. split; [reflexivity|]. split; reflexivity || discriminate. }
    intros x [<-|[<-|[]]]; exact H.
  - intros a. exists 1. split; [|discriminate]. cbn [meaning arith]. rewrite Z.mul_0_r, Z.mul_0_l. reflexivity.
  - intros clk shuffle fuel. unfold user_run, puzzle_run.
    assert (E : construct (with_user (queens_init 1) [UForm (FBin ULe (FBin UMul (FVar "q_0") (FInt 0)) (FBin UMul (FInt 0) (FVar "q_0")))])%string = Err TypeError) by (vm_compute; reflexivity).
    now rewrite E.
Qed.
