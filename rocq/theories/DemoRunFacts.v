(** Lemmas behind the properties of the demo programs in Properties_Print.v. *)
From Coq Require Import Lia Permutation.
From Verif Require Import DemoRun SpecPrint SpecPuzzle SpecSolve SpecStats StatsFacts PuzzleFacts DictFacts SpecNonogram SpecImage SpecQueens SpecSudoku SpecCryptarithm SpecEinstein
  QueensFacts SudokuFacts NonogramFacts ImageFacts CryptarithmFacts EinsteinFacts EinsteinUnique PrintFacts PrintCryFacts.
Open Scope list_scope.
Open Scope Z_scope.

Lemma numbered_titled {B} (show : B -> res (list string)) bs ds : Forall2 (fun b d => show b = Ok d) bs ds ->
  forall k, numbered show k bs = Ok (concat (map (fun p => title (fst p) :: snd p) (combine (seq (S k) (List.length ds)) ds))).
Proof.
  induction 1 as [|b d bs ds H Hf IH]; intros k; [reflexivity|]. cbn [numbered]. rewrite H, IH. reflexivity.
Qed.
Lemma says_found t rest : says (String newline "" ++ t ++ rest)%string t.
Proof. exists rest. reflexivity. Qed.
Lemma str_app_assoc (a b c : string) : ((a ++ b) ++ c)%string = (a ++ b ++ c)%string.
Proof. induction a; simpl; congruence. Qed.
Lemma summary_says seconds n el i : let s := print_solve_stats seconds (n, el, i) in
  match i with
  | Some _ => says s ("Found " ++ str_int n ++ " partial solution")%string
  | None => if n =? 1 then says s "Found unique solution in "%string else says s ("Found all " ++ str_int n ++ " solutions in ")%string
  end.
Proof.
  cbn [print_solve_stats]. destruct i as [i|].
  - eexists. rewrite !str_app_assoc. reflexivity.
  - unfold suffix. destruct (n =? 1); eexists; rewrite ?str_app_assoc; reflexivity.
Qed.
Lemma mapM_length {A B} (f : A -> res B) l : forall bs, mapM f l = Ok bs -> List.length bs = List.length l.
Proof.
  induction l as [|a l IH]; intros bs H; simpl in H; [now injection H as <-|].
  destruct (f a); [|discriminate]. simpl in H. destruct (mapM f l); [|discriminate]. injection H as <-. simpl. f_equal. now apply IH.
Qed.

Lemma demo_reports {A B} clk shuffle seconds (init : op A) (decode : A -> subst -> res B) sv show (ok : B -> Prop) t l :
  exactly (fun fuel => puzzle_run clk shuffle fuel init decode sv) ok t l ->
  (forall b, ok b -> exists d, show b = Ok d) ->
  (exists fuel out, puzzle_demo clk shuffle fuel seconds init decode sv show = Some (Ok out)) /\
  forall fuel r, puzzle_demo clk shuffle fuel seconds init decode sv show = Some r ->
    exists out, r = Ok out /\ reports (fun b d => show b = Ok d) ok t l out.
Proof.
  intros [(fuel0 & out0 & H0) He] Hshow.
  assert (Hmain : forall fuel r, puzzle_demo clk shuffle fuel seconds init decode sv show = Some r ->
    exists out, r = Ok out /\ reports (fun b d => show b = Ok d) ok t l out).
  { intros fuel r H. specialize (He fuel). unfold puzzle_demo in H. unfold puzzle_run in He.
    destruct (construct init) as [[obj e]|ex].
    - destruct (solve_all clk shuffle fuel e sv no_args) as [[[ys e'] r']|] eqn:Es; [|discriminate]. injection H as <-.
      pose proof (solve_counted _ _ _ _ _ _ _ _ _ Es) as Hcount.
      destruct (mapM (decode obj) ys) as [bs|ex] eqn:Em; [|destruct (He _ _ _ eq_refl) as [H _]; discriminate].
      destruct (He _ _ _ eq_refl) as (-> & Hok & Hnd & Hall & Hlim & Htime & Hk).
      assert (Hd : exists ds, Forall2 (fun b d => show b = Ok d) bs ds).
      { clear - Hok Hshow. induction bs as [|b bs IH]; [exists []; constructor|]. destruct IH as (ds & IH); [intros b' Hb'; apply Hok; now right|].
        destruct (Hshow b (Hok b (or_introl eq_refl))) as (d & Hd). exists (d :: ds). now constructor. }
      destruct Hd as (ds & Hd). cbn [bind]. rewrite (numbered_titled show bs ds Hd 0). cbn [bind]. eexists. split; [reflexivity|].
      exists bs, ds, (print_solve_stats seconds (get_stats e')). split; [reflexivity|]. split; [exact Hd|]. split; [exact Hnd|]. split; [exact Hok|].
      split; [|exact Hk].
      assert (Eg : exists el, get_stats e' = (Z.of_nat (List.length bs), el, e_interrupt e')).
      { destruct (get_stats e') as [[n el] i] eqn:Eg. cbn [fst] in Hcount. exists el. assert (Ei : i = e_interrupt e') by (unfold get_stats in Eg; congruence).
        rewrite Hcount, Ei. unfold len. now rewrite (mapM_length _ _ _ Em). }
      destruct Eg as (el & Eg). rewrite Eg. pose proof (summary_says seconds (Z.of_nat (List.length bs)) el (e_interrupt e')) as Hs. cbv zeta in Hs |- *.
      destruct (e_interrupt e') as [[|]|] eqn:Ei.
      + right. right. split; [left; now apply Hlim|exact Hs].
      + right. right. split; [right; now apply Htime|exact Hs].
      + destruct (Z.eqb_spec (Z.of_nat (List.length bs)) 1) as [E1|E1].
        * left. destruct bs as [|b [|b2 bs]]; simpl in E1; try lia. exists b. split; [reflexivity|]. split; [|exact Hs].
          intros b' Hb'. destruct (Hall eq_refl b' Hb') as [->|[]]. reflexivity.
        * right. left. split; [lia|]. split; [now apply Hall|exact Hs].
    - destruct (He _ _ _ eq_refl) as [H' _]. discriminate. }
  split; [|exact Hmain]. exists fuel0. assert (Hr : exists r, puzzle_demo clk shuffle fuel0 seconds init decode sv show = Some r).
  { unfold puzzle_run in H0. unfold puzzle_demo. destruct (construct init) as [[obj e]|ex]; [|eauto].
    destruct (solve_all clk shuffle fuel0 e sv no_args) as [[[ys e'] r']|]; [eauto|discriminate]. }
  destruct Hr as (r & Hr). destruct (Hmain _ _ Hr) as (out & -> & _). exists out. exact Hr.
Qed.
Lemma reports_impl {B} (D D' : B -> list string -> Prop) (ok : B -> Prop) t l out : (forall b d, ok b -> D b d -> D' b d) -> reports D ok t l out -> reports D' ok t l out.
Proof.
  intros H (bs & ds & s & H1 & H2 & H3 & H4 & H5). exists bs, ds, s. split; [exact H1|]. split; [|split; [exact H3|split; [exact H4|exact H5]]].
  clear - H H2 H4. induction H2; constructor; auto; [apply H; auto; apply H4; now left|]. apply IHForall2. intros b Hb. apply H4. now right.
Qed.

(** ** The programs *)
Lemma board_rectangular n b : queens_board n b -> rectangular n n b.
Proof. intros (H1 & H2 & _). split; [exact H1|]. intros row Hr. apply (H2 row Hr). Qed.
Lemma queens_program clk shuffle seconds n t l : (1 <= n)%nat -> shuffles shuffle ->
  (exists fuel out, queens_demo clk shuffle fuel seconds n t l = Some (Ok out)) /\
  forall fuel r, queens_demo clk shuffle fuel seconds n t l = Some r ->
    exists out, r = Ok out /\ reports (draws_board n) (queens_board n) t l out.
Proof.
  intros Hn Hs. destruct (demo_reports clk shuffle seconds (queens_init n) (queens_decode n) _ (fun board => Ok (print_queens_board n board)) (queens_board n) t l
    (queens_exact n clk shuffle (Options None t l true) Hn Hs)) as [H1 H2]; [eauto|].
  split; [exact H1|]. intros fuel r H. destruct (H2 fuel r H) as (out & -> & Ho). exists out. split; [reflexivity|].
  revert Ho. apply reports_impl. intros b d Hb [= <-]. exact (queens_drawn n b (board_rectangular n b Hb) Hn).
Qed.

Lemma grid_schema s g : solution_grid s g -> is_schema (map (map Some) g).
Proof.
  intros [[(H1 & H2 & H3) _] _]. split; [now rewrite map_length|]. intros row Hrow. apply in_map_iff in Hrow. destruct Hrow as (row0 & <- & Hin).
  rewrite map_length. split; [now apply H2|]. intros n Hn. apply in_map_iff in Hn. destruct Hn as (m & [= ->] & Hm).
  apply In_nth with (d := []) in Hin. destruct Hin as (r & Hr & Er). apply In_nth with (d := 0) in Hm. destruct Hm as (c & Hc & Ec).
  rewrite H1 in Hr. assert (Hlen : List.length row0 = 9%nat) by (apply H2; rewrite <- Er; apply nth_In; lia).
  specialize (H3 r c Hr ltac:(lia)). unfold SpecSudoku.at_ in H3. rewrite Er, Ec in H3. lia.
Qed.
Lemma sudoku_program clk shuffle seconds s t l : well_formed s -> has_blank s -> consistent s -> shuffles shuffle ->
  (exists fuel out, sudoku_demo clk shuffle fuel seconds s t l = Some (Ok out)) /\
  forall fuel r, sudoku_demo clk shuffle fuel seconds s t l = Some r ->
    exists first out, r = Ok ("=== sudoku schema ===" :: first ++ out)%string /\ draws_schema s first /\
      reports (fun g => draws_schema (map (map Some) g)) (solution_grid s) t (match l with LNone => LNum 1 | _ => l end) out.
Proof.
  intros Hw Hb Hc Hs. destruct (sudoku_drawn s Hw) as (first & Ef & Hf).
  destruct (demo_reports clk shuffle seconds (sudoku_init s) (sudoku_decode s) _ (fun g => print_sudoku_schema (map (map Some) g)) (solution_grid s) t _
    (sudoku_solutions clk shuffle s (Options None t l true) Hw Hb Hc Hs)) as [H1 H2].
  { intros g Hg. destruct (sudoku_drawn _ (grid_schema s g Hg)) as (d & Ed & _). eauto. }
  assert (E : forall fuel, sudoku_demo clk shuffle fuel seconds s t l =
    match puzzle_demo clk shuffle fuel seconds (sudoku_init s) (sudoku_decode s)
        (new_solver GROUPS t (sudoku_limit (Options None t l true)) true) (fun g => print_sudoku_schema (map (map Some) g)) with
    | None => None | Some r => Some (let! ls := r in Ok ("=== sudoku schema ===" :: first ++ ls)%string) end).
  { intros fuel. unfold sudoku_demo. rewrite Ef. reflexivity. }
  split.
  - destruct H1 as (fuel & out & H1). exists fuel. eexists. rewrite E. cbn [o_policy o_timeout o_compile arg_or] in H1. rewrite H1. reflexivity.
  - intros fuel r H. rewrite E in H. cbn [o_policy o_timeout o_compile arg_or] in H2.
    destruct (puzzle_demo _ _ _ _ _ _ _ _) as [r'|] eqn:Ed; [|discriminate]. injection H as <-.
    destruct (H2 fuel r' Ed) as (out & -> & Ho). exists first, out. split; [reflexivity|]. split; [exact Hf|].
    assert (El : sudoku_limit (Options None t l true) = match l with Solver.LNone => Solver.LNum 1 | _ => l end) by (destruct l; reflexivity).
    rewrite El in Ho. revert Ho. apply reports_impl. intros g d Hg Hd. destruct (sudoku_drawn _ (grid_schema s g Hg)) as (d' & Ed' & Hd').
    rewrite Ed' in Hd. injection Hd as <-. exact Hd'.
Qed.

Lemma nonogram_program clk shuffle seconds rows cols t l :
  positive_clues rows -> positive_clues cols -> (exists c, In c (rows ++ cols) /\ c <> []) -> shuffles shuffle ->
  (exists fuel out, nonogram_demo clk shuffle fuel seconds rows cols t l = Some (Ok out)) /\
  forall fuel r, nonogram_demo clk shuffle fuel seconds rows cols t l = Some r ->
    exists out, r = Ok out /\ reports draws_image (matches rows cols) t l out.
Proof.
  intros Hr Hc He Hs.
  destruct (demo_reports clk shuffle seconds (nonogram_init rows cols) (nonogram_decode (List.length cols)) _
    (fun pixmap => let! image := pixmap_to_image pixmap (String ZERO "") (String ONE "") in Ok [image]) (matches rows cols) t l
    (nonogram_exact rows cols clk shuffle (Options None t l true) Hr Hc He Hs)) as [H1 H2].
  { intros b _. destruct (image_drawn b (String ZERO "") (String ONE "")) as (g & _ & E). rewrite E. cbn [bind]. eauto. }
  split; [exact H1|]. intros fuel r H. destruct (H2 fuel r H) as (out & -> & Ho). exists out. split; [reflexivity|].
  revert Ho. apply reports_impl. intros b d Hb Hd. destruct (image_drawn b (String ZERO "") (String ONE "")) as (g & Hg & E). rewrite E in Hd.
  injection Hd as <-. exists g. split; [exact Hg|reflexivity].
Qed.

Lemma cryptarithm_program clk shuffle seconds s e r g order avoid t l :
  text_equation s (Equation e r g) -> depends e \/ depends g -> (forall c, In c (list_ascii_of_string s) -> ~ is_lower c) ->
  shuffles order -> shuffles shuffle ->
  (exists fuel out, cryptarithm_demo clk shuffle fuel seconds order s avoid t l = Some (Ok out)) /\
  forall fuel res, cryptarithm_demo clk shuffle fuel seconds order s avoid t l = Some res ->
    exists out, res = Ok (s :: out) /\ reports (draws_equation s) (cry_solution (Equation e r g)) t l out.
Proof.
  intros Ht Hd Hlow Ho Hs.
  destruct (demo_reports clk shuffle seconds (cry_init order s avoid) cry_decode _ (fun sol => print_cryptarithm_solution sol s)
    (cry_solution (Equation e r g)) t l (cry_exact s (Equation e r g) order avoid Ht Hd Ho clk shuffle (Options None t l true) Hs)) as [H1 H2].
  { intros b Hb. destruct (cryptarithm_printed s _ b b Ht Hlow Hb (Permutation_refl b)) as (t' & q' & E & _). eauto. }
  split.
  - destruct H1 as (fuel & out & H1). exists fuel. eexists. unfold cryptarithm_demo. rewrite H1. reflexivity.
  - intros fuel r' H. unfold cryptarithm_demo in H. destruct (puzzle_demo _ _ _ _ _ _ _ _) as [r0|] eqn:Ed; [|discriminate]. injection H as <-.
    destruct (H2 fuel r0 Ed) as (out & -> & Hout). exists out. split; [reflexivity|].
    revert Hout. apply reports_impl. intros b d Hb Hdr. destruct (cryptarithm_printed s _ b b Ht Hlow Hb (Permutation_refl b)) as (t' & q' & E & Hrest).
    rewrite E in Hdr. injection Hdr as <-. exists t', q'. split; [reflexivity|exact Hrest].
Qed.

Definition riddle_lines : list string :=
  ["    The Norwegian, who lives in the first yellow house, drinks water, smokes Dunhill and has cats.";
   "    The Dane, who lives in the second blue house, drinks tea, smokes Blend and has a horse.";
   "    The English, who lives in the third red house, drinks milk, smokes Pall Mall and has birds.";
   "[*] The German, who lives in the fourth green house, drinks coffee, smokes Prince and has a zebra.";
   "    The Swede, who lives in the fifth white house, drinks beer, smokes Blue Master and has a dog."]%string.
Lemma riddle_drawn : print_einstein_riddle_solution the_answer_text = Ok riddle_lines.
Proof. vm_compute. reflexivity. Qed.
Lemma einstein_program clk shuffle seconds l : shuffles shuffle -> (forall n, l = Solver.LNum n -> 2 <= n) ->
  (exists fuel out, einstein_demo clk shuffle fuel seconds Solver.LNone l = Some (Ok out)) /\
  forall fuel r, einstein_demo clk shuffle fuel seconds Solver.LNone l = Some r ->
    exists summary, r = Ok (title 1 :: riddle_lines ++ [summary]) /\ says summary "Found unique solution in ".
Proof.
  intros Hs Hl.
  pose proof (einstein_unfolded clk shuffle (Options None Solver.LNone l true) Hs) as He. cbn [o_timeout o_limit] in He.
  destruct (demo_reports clk shuffle seconds _ _ _ print_einstein_riddle_solution _ _ _ He) as [H1 H2].
  { intros z Hz. apply riddle_unique in Hz. subst z. rewrite riddle_drawn. eauto. }
  unfold einstein_demo. split; [exact H1|]. intros fuel r H. destruct (H2 fuel r H) as (out & -> & bs & ds & summary & -> & Hd & Hnd & Hok & Hcase & _).
  assert (Hone : forall b, In b bs -> b = the_answer_text) by (intros b Hb; now apply riddle_unique, Hok).
  exists summary. cbv zeta in Hcase. destruct Hcase as [(b & -> & _ & Hsay)|[(Hne & Hall & _)|([(k & -> & Hk)|(k & Hk)] & _)]].
  - split; [|exact Hsay]. inversion Hd as [|? d ? ds' Hd1 Hd2]; subst. inversion Hd2; subst. rewrite (Hone b (or_introl eq_refl)), riddle_drawn in Hd1.
    injection Hd1 as <-. reflexivity.
  - exfalso. assert (Hin : In the_answer_text bs) by (apply Hall; now apply riddle_unique). destruct bs as [|b [|b' bs]]; [contradiction|now apply Hne|].
    rewrite (Hone b) in Hnd by now left. rewrite (Hone b') in Hnd by (right; now left). inversion Hnd as [|? ? Hn _]; subst. apply Hn. now left.
  - exfalso. specialize (Hl k eq_refl). destruct bs as [|b [|b' bs]]; simpl in Hk; try lia.
    rewrite (Hone b) in Hnd by now left. rewrite (Hone b') in Hnd by (right; now left). inversion Hnd as [|? ? Hn _]; subst. apply Hn. now left.
  - discriminate.
Qed.

Lemma sudoku_program_short clk shuffle fuel seconds s t l : (List.length s < 9)%nat ->
  sudoku_demo clk shuffle fuel seconds s t l = Some (Err IndexError).
Proof. intros H. unfold sudoku_demo. now rewrite (sudoku_short s H). Qed.
Lemma cryptarithm_drawn s q sol b :
  text_equation s q -> (forall c, In c (list_ascii_of_string s) -> ~ is_lower c) -> cry_solution q b -> Permutation sol b ->
  exists d, print_cryptarithm_solution sol s = Ok d /\ draws_equation s b d.
Proof.
  intros H1 H2 H3 H4. destruct (cryptarithm_printed s q sol b H1 H2 H3 H4) as (t & q' & E & Hr). eexists. split; [exact E|].
  exists t, q'. split; [reflexivity|exact Hr].
Qed.

Local Lemma word_letter c u : stands_for c u -> is_word [c].
Proof. intros H. split; [discriminate|]. intros c' [<-|[]]. right. eauto. Qed.
Lemma lower_case_kept : exists s q b, text_equation s q /\ cry_solution q b /\
  print_cryptarithm_solution b s = Ok ["A = 1"; "B = 2"; "==> a<2"]%string.
Proof.
  assert (Sa : stands_for "a" "A") by (vm_compute; intuition congruence).
  assert (Sb : stands_for "B" "B") by (vm_compute; intuition congruence).
  assert (B0 : blank "") by (intros c []).
  exists "a<B"%string, (Equation (EWord ["a"%char]) RLt (EWord ["B"%char])), [("A", 1); ("B", 2)]%string. split; [|split].
  - refine (t_equation "a" "B" _ RLt _ _ _).
    + exact (t_product _ _ (t_factor _ _ (t_word "" ["a"%char] "" B0 (word_letter _ _ Sa) B0))).
    + exact (t_product _ _ (t_factor _ _ (t_word "" ["B"%char] "" B0 (word_letter _ _ Sb) B0))).
  - split; [|split; [|split; [|split]]].
    + intros x. split.
      * intros [<-|[<-|[]]]; [exists ["a"%char], "a"%char, "A"%char|exists ["B"%char], "B"%char, "B"%char]; simpl; auto.
      * intros (w & c & u & [<-|[<-|[]]] & [<-|[]] & [Hu [Eu|[Hl Eu]]] & ->).
        -- exfalso. subst u. vm_compute in Hu. intuition congruence.
        -- left. simpl. f_equal. destruct u as [[][][][][][][][]]; try reflexivity; vm_compute in Eu; discriminate.
        -- subst u. right. now left.
        -- exfalso. vm_compute in Hl. intuition congruence.
    + repeat constructor. exists "A"%char, "B"%char. split; [reflexivity|]. split; [reflexivity|]. vm_compute. reflexivity.
    + intros x v [E|[E|[]]]; injection E as <- <-; split; try lia; discriminate.
    + repeat constructor; simpl; intuition congruence.
    + exists 1, 2. split; [|split; [|simpl; lia]]; constructor; eexists; (split; [constructor; [right; eexists; split; [eassumption|reflexivity]|constructor]|reflexivity]).
  - vm_compute. reflexivity.
Qed.
