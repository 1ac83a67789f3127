(** Properties of CryptarithmSolver. *)
From Verif Require Import Cryptarithm SpecPuzzle SpecCryptarithm SpecSolve CryptarithmFacts CryptarithmChain.
Open Scope string_scope.
Open Scope list_scope.
Open Scope Z_scope.

(** C50: the text that is evaluated is the source in upper case, cut into words (maximal runs
    of letters and digits) and other characters, which are left untouched; the replacement of
    each word is a Python expression that evaluates to the decimal number that the word denotes
    once its letters have values. *)
Theorem C50_words : forall s, exists rep u l,
  Forall2 uppercase (list_ascii_of_string s) u /\ segments l u /\
  list_ascii_of_string (mod_source s) =
    flat_map (fun g => match g with SWord w => list_ascii_of_string (rep w) | SChar c => [c] end) l /\
  forall w, In (SWord w) l -> exists ts t, lex (rep w) = Ok ts /\ parse_expr ts = Ok t /\
    forall a sub n, (forall c, In c w -> is_upper c -> dget sub (String c "") = Some (a (String c ""))) ->
      word_value a w n -> aeval sub t = Ok n.
Proof. exact replaced. Qed.
Print Assumptions C50_words.

Example C50_case :
  mod_source "a1Ba?" = "(100 + (A * 1001) + (B * 10))?" /\
  (exists l, segments l (list_ascii_of_string "A1BA?") /\ In (SWord (list_ascii_of_string "A1BA")) l) /\
  exists a, word_value a (list_ascii_of_string "A1BA") 7127 /\ a "A" = 7 /\ a "B" = 2.
Proof.
  split; [vm_compute; reflexivity|]. split.
  - exists [SWord (list_ascii_of_string "A1BA"); SChar "?"%char]. split; [|now left].
    split; [reflexivity|]. split; [|split; [|cbn; auto]].
    + intros w [E|[E|[]]]; [|discriminate]. injection E as <-. split; [discriminate|].
      intros c Hc. cbn in Hc. destruct Hc as [<-|[<-|[<-|[<-|[]]]]]; unfold in_word, is_dig, is_upper; vm_compute; intuition congruence.
    + intros c [E|[E|[]]]; [discriminate|]. injection E as <-. unfold in_word, is_dig, is_upper. vm_compute. intuition congruence.
  - exists (fun x => if String.eqb x "A" then 7 else 2). split; [|split; reflexivity].
    exists [7; 1; 2; 7]. split; [|reflexivity].
    repeat (apply Forall2_cons || apply Forall2_nil).
    + right. exists "A"%char. unfold stands_for, is_upper. vm_compute. intuition congruence.
    + left. unfold is_dig. vm_compute. intuition congruence.
    + right. exists "B"%char. unfold stands_for, is_upper. vm_compute. intuition congruence.
    + right. exists "A"%char. unfold stands_for, is_upper. vm_compute. intuition congruence.
Qed.

(** C51: for every text of an equation, the results are exactly the solutions, whatever the
    order of Python's sets.  Missing: equations none of whose sides depends on the letters;
    see the refutations below. *)
Theorem C51_solutions_partial : forall s e r f order avoid clk shuffle o,
  text_equation s (Equation e r f) -> depends e \/ depends f -> shuffles order -> shuffles shuffle ->
  exactly (fun fuel => cry_run clk shuffle fuel order s avoid o) (cry_solution (Equation e r f)) (o_timeout o) (o_limit o).
Proof. exact (fun s e r f order avoid clk shuffle o Ht Hd Ho Hs => cry_exact s (Equation e r f) order avoid Ht Hd Ho clk shuffle o Hs). Qed.
Print Assumptions C51_solutions_partial.

Local Definition w_to := list_ascii_of_string "TO".
Local Definition w_go := list_ascii_of_string "go".
Local Definition w_out := list_ascii_of_string "OUT".

Example C51_case :
  text_equation "TO+go == (OUT)" (Equation (EAdd (EWord w_to) (EWord w_go)) REq (EWord w_out)) /\
  depends (EWord w_out) /\
  cry_run (fun _ => 0) (fun l => l) (Z.to_nat 40000) (fun l => rev l) "TO+go == (OUT)" true default_options =
    Some ([[("G", 8); ("O", 1); ("T", 2); ("U", 0)]], None, None) /\
  cry_solution (Equation (EAdd (EWord w_to) (EWord w_go)) REq (EWord w_out)) [("G", 8); ("O", 1); ("T", 2); ("U", 0)].
Proof.
  assert (Hw : is_word w_to /\ is_word w_go /\ is_word w_out).
  { repeat split; try discriminate; intros c Hc; right; cbn in Hc.
    - destruct Hc as [<-|[<-|[]]]; [exists "T"%char|exists "O"%char]; unfold stands_for, is_upper; vm_compute; intuition congruence.
    - destruct Hc as [<-|[<-|[]]]; [exists "G"%char|exists "O"%char]; unfold stands_for, is_upper, is_lower; vm_compute; intuition congruence.
    - destruct Hc as [<-|[<-|[<-|[]]]]; [exists "O"%char|exists "U"%char|exists "T"%char]; unfold stands_for, is_upper; vm_compute; intuition congruence. }
  destruct Hw as (Hto & Hgo & Hout).
  assert (B0 : blank "") by (intros c []). assert (B1 : blank " ") by (intros c [<-|[]]; reflexivity).
  assert (Ht : text_equation "TO+go == (OUT)" (Equation (EAdd (EWord w_to) (EWord w_go)) REq (EWord w_out))).
  { refine (t_equation "TO+go " " (OUT)" _ REq _ _ _).
    - refine (t_add "TO" "go " _ _ _ _).
      + exact (t_product _ _ (t_factor _ _ (t_word "" w_to "" B0 Hto B0))).
      + exact (t_factor _ _ (t_word "" w_go " " B0 Hgo B1)).
    - exact (t_product _ _ (t_factor _ _ (t_paren " " "OUT" _ "" B1 (t_product _ _ (t_factor _ _ (t_word "" w_out "" B0 Hout B0))) B0))). }
  assert (Hd : depends (EWord w_out)).
  { exists (fun _ => 0), (fun _ => 1), 0, 111. split; [|split; [|discriminate]]; constructor.
    - exists [0; 0; 0]. split; [|reflexivity].
      repeat (apply Forall2_cons || apply Forall2_nil); right; [exists "O"%char|exists "U"%char|exists "T"%char]; unfold stands_for, is_upper; vm_compute; intuition congruence.
    - exists [1; 1; 1]. split; [|reflexivity].
      repeat (apply Forall2_cons || apply Forall2_nil); right; [exists "O"%char|exists "U"%char|exists "T"%char]; unfold stands_for, is_upper; vm_compute; intuition congruence. }
  split; [exact Ht|]. split; [exact Hd|]. 
  assert (Hrun : cry_run (fun _ => 0) (fun l => l) (Z.to_nat 40000) (fun l => rev l) "TO+go == (OUT)" true default_options =
    Some ([[("G", 8); ("O", 1); ("T", 2); ("U", 0)]], None, None)) by (vm_compute; reflexivity).
  split; [exact Hrun|].
  assert (Hr : shuffles (fun l => rev l)) by (intros l; apply Permutation.Permutation_sym, Permutation.Permutation_rev).
  assert (Hs : shuffles (fun l => l)) by (intros l; apply Permutation.Permutation_refl).
  destruct (proj2 (C51_solutions_partial _ _ _ _ _ true (fun _ => 0) _ default_options Ht (or_intror Hd) Hr Hs) _ _ _ _ Hrun) as (_ & Hok & _).
  apply Hok. now left.
Qed.

(** Of a chain of relations only one link is imposed: the first one that is false and has no
    letters, and otherwise the last one.  (The letters of all the links get digits.) *)
Theorem C51_chain_partial : forall s e l q order avoid clk shuffle o,
  text_chain s e l -> imposed (links e l) q -> (exists x, letter_in (chain_words e l) x) -> shuffles order -> shuffles shuffle ->
  exactly (fun fuel => cry_run clk shuffle fuel order s avoid o) (solution_over (chain_words e l) q) (o_timeout o) (o_limit o).
Proof. exact chain_exact. Qed.
Print Assumptions C51_chain_partial.

Local Definition w_1 := list_ascii_of_string "1".
Local Definition w_7 := list_ascii_of_string "7".
Local Definition w_a := list_ascii_of_string "A".
Local Definition w_b := list_ascii_of_string "b".
Local Definition e_ab := EAdd (ENeg (EWord w_a)) (EPos (EWord w_b)).

Example C51_chain_case :
  let last := Equation (EWord w_7) RLt e_ab in
  let false_link := Equation (EWord w_7) RLt (EWord w_1) in
  text_chain "1<7 < -A ++b" (EWord w_1) [(RLt, EWord w_7); (RLt, e_ab)] /\
  imposed (links (EWord w_1) [(RLt, EWord w_7); (RLt, e_ab)]) last /\
  text_chain "7<1<A" (EWord w_7) [(RLt, EWord w_1); (RLt, EWord w_a)] /\
  imposed (links (EWord w_7) [(RLt, EWord w_1); (RLt, EWord w_a)]) false_link /\
  letter_in (chain_words (EWord w_1) [(RLt, EWord w_7); (RLt, e_ab)]) "A" /\
  letter_in (chain_words (EWord w_7) [(RLt, EWord w_1); (RLt, EWord w_a)]) "A" /\
  (exists fuel, cry_run (fun _ => 0) (fun l => l) fuel (fun l => l) "1<7 < -A ++b" true default_options = Some ([[("A", 1); ("B", 9)]], None, None)) /\
  (exists fuel, cry_run (fun _ => 0) (fun l => l) fuel (fun l => l) "7<1<A" true default_options = Some ([], None, None)).
Proof.
  intros last false_link.
  assert (H1 : is_word w_1) by (split; [discriminate|]; intros c [<-|[]]; left; unfold is_dig; vm_compute; intuition congruence).
  assert (H7 : is_word w_7) by (split; [discriminate|]; intros c [<-|[]]; left; unfold is_dig; vm_compute; intuition congruence).
  assert (SA : stands_for "A" "A") by (unfold stands_for, is_upper; vm_compute; intuition congruence).
  assert (SB : stands_for "b" "B") by (unfold stands_for, is_upper, is_lower; vm_compute; intuition congruence).
  assert (Ha : is_word w_a) by (split; [discriminate|]; intros c [<-|[]]; right; now exists "A"%char).
  assert (Hb : is_word w_b) by (split; [discriminate|]; intros c [<-|[]]; right; now exists "B"%char).
  assert (B0 : blank "") by (intros c []). assert (B1 : blank " ") by (intros c [<-|[]]; reflexivity).
  assert (V : forall a w n, char_value a w n -> value a (EWord [w]) n).
  { intros a w n H. constructor. exists [n]. split; [apply Forall2_cons; [exact H|apply Forall2_nil]|]. unfold decimal. cbn. lia. }
  assert (V1 : forall a, value a (EWord w_1) 1) by (intros a; apply V; left; unfold is_dig; vm_compute; intuition congruence).
  assert (V7 : forall a, value a (EWord w_7) 7) by (intros a; apply V; left; unfold is_dig; vm_compute; intuition congruence).
  assert (VA : forall a, value a (EWord w_a) (a "A")) by (intros a; apply V; right; exists "A"%char; now split).
  assert (VB : forall a, value a (EWord w_b) (a "B")) by (intros a; apply V; right; exists "B"%char; now split).
  assert (Hdig : forall u c, is_dig c -> ~ stands_for c u).
  { intros u c Hd [Hu [->|[Hl _]]]; unfold is_dig, is_upper, is_lower in *; lia. }
  assert (NL : letterless (Equation (EWord w_1) RLt (EWord w_7)) /\ letterless false_link).
  { split; intros x (w & c & u & [<-|[<-|[]]] & [<-|[]] & Hs & _); (eapply Hdig; [|exact Hs]; unfold is_dig; vm_compute; intuition congruence). }
  split; [|split; [|split; [|split; [|split; [|split; [|split]]]]]].
  - refine (t_chain "1" _ "<7 < -A ++b" _ _ _); [exact (t_product _ _ (t_factor _ _ (t_word "" w_1 "" B0 H1 B0)))|].
    refine (t_link RLt "7 " _ "< -A ++b" _ _ _); [exact (t_product _ _ (t_factor _ _ (t_word "" w_7 " " B0 H7 B1)))|].
    refine (t_last RLt " -A ++b" _ _). refine (t_add " -A " "+b" _ _ _ _).
    + exact (t_product _ _ (t_factor _ _ (t_neg " " "A " _ B1 (t_word "" w_a " " B0 Ha B1)))).
    + exact (t_factor _ _ (t_pos "" "b" _ B0 (t_word "" w_b "" B0 Hb B0))).
  - cbn [links]. apply i_skip.
    + right. split; [apply NL|]. exists 1, 7. split; [apply V1|]. split; [apply V7|]. reflexivity.
    + apply i_last. left. right. exists (fun _ => 0), (fun x => if String.eqb x "A" then 1 else 0), (Z.opp 0 + 0), (Z.opp 1 + 0). split; [|split; [|discriminate]].
      * constructor; constructor; [exact (VA (fun _ => 0))|exact (VB (fun _ => 0))].
      * constructor; constructor; [exact (VA (fun x => if String.eqb x "A" then 1 else 0))|exact (VB (fun x => if String.eqb x "A" then 1 else 0))].
  - refine (t_chain "7" _ "<1<A" _ _ _); [exact (t_product _ _ (t_factor _ _ (t_word "" w_7 "" B0 H7 B0)))|].
    refine (t_link RLt "1" _ "<A" _ _ _); [exact (t_product _ _ (t_factor _ _ (t_word "" w_1 "" B0 H1 B0)))|].
    refine (t_last RLt "A" _ _). exact (t_product _ _ (t_factor _ _ (t_word "" w_a "" B0 Ha B0))).
  - cbn [links]. apply i_false; [apply NL|]. intros (m & n & Hm & Hn & Hr).
    assert (E : forall w v k, char_value (fun _ => 0) w v -> (forall v', char_value (fun _ => 0) w v' -> v' = v) -> value (fun _ => 0) (EWord [w]) k -> k = v).
    { intros w v k _ Hu Hk. inversion Hk as [? ? (vs & Hvs & ->)| | | | |]; subst. inversion Hvs as [|? v' ? vs' Hv' Hn']; subst. inversion Hn'; subst.
      rewrite (Hu v' Hv'). unfold decimal. cbn. lia. }
    assert (U : forall c v', is_dig c -> char_value (fun _ => 0) c v' -> v' = ord c - 48).
    { intros c v' Hd [[_ H]|(u & Hs & _)]; [exact H|]. now destruct (Hdig u c Hd). }
    assert (D1 : is_dig "1") by (unfold is_dig; vm_compute; intuition congruence). assert (D7 : is_dig "7") by (unfold is_dig; vm_compute; intuition congruence).
    assert (m = 7) by (apply (E "7"%char); [left; now split|intros v' Hv'; rewrite (U "7"%char v' D7 Hv'); reflexivity|exact Hm]).
    assert (n = 1) by (apply (E "1"%char); [left; now split|intros v' Hv'; rewrite (U "1"%char v' D1 Hv'); reflexivity|exact Hn]).
    subst. cbn in Hr. discriminate Hr.
  - exists w_a, "A"%char, "A"%char. cbn. auto 6.
  - exists w_a, "A"%char, "A"%char. cbn. auto 6.
  - exists 3000%nat. vm_compute. reflexivity.
  - exists 3000%nat. vm_compute. reflexivity.
Qed.

(** An equation that holds for every choice of digits is refused. *)
Theorem C51_constant_refuted : exists s q,
  text_equation s q /\ (forall a, true_equation a q) /\
  exists fuel, cry_run (fun _ => 0) (fun l => l) fuel (fun l => l) s true default_options = Some ([], Some TypeError, None).
Proof.
  set (wa := list_ascii_of_string "A"). set (w0 := list_ascii_of_string "0").
  assert (Ha : is_word wa).
  { split; [discriminate|]. intros c [<-|[]]. right. exists "A"%char. unfold stands_for, is_upper. vm_compute. intuition congruence. }
  assert (H0 : is_word w0) by (split; [discriminate|]; intros c [<-|[]]; left; unfold is_dig; vm_compute; intuition congruence).
  assert (B0 : blank "") by (intros c []).
  assert (HT : text_sum "A*0" (EMul (EWord wa) (EWord w0))).
  { apply t_product. refine (t_mul "A" "0" _ _ _ _); [exact (t_factor _ _ (t_word "" wa "" B0 Ha B0))|exact (t_word "" w0 "" B0 H0 B0)]. }
  exists "A*0==A*0", (Equation (EMul (EWord wa) (EWord w0)) REq (EMul (EWord wa) (EWord w0))). split; [|split].
  - exact (t_equation "A*0" "A*0" _ REq _ HT HT).
  - intros a. assert (Hv : value a (EMul (EWord wa) (EWord w0)) (a "A" * 0)).
    { constructor; constructor.
      - exists [a "A"]. split; [|reflexivity]. repeat (apply Forall2_cons || apply Forall2_nil). right. exists "A"%char. unfold stands_for, is_upper. vm_compute. intuition congruence.
      - exists [0]. split; [|reflexivity]. repeat (apply Forall2_cons || apply Forall2_nil). left. unfold is_dig. vm_compute. intuition congruence. }
    exists (a "A" * 0), (a "A" * 0). split; [exact Hv|]. split; [exact Hv|reflexivity].
  - exists 100%nat. vm_compute. reflexivity.
Qed.
Print Assumptions C51_constant_refuted.

(** A true equation without letters has one solution (the empty one), which is not found. *)
Theorem C51_letterless_refuted : exists s q,
  text_equation s q /\ cry_solution q [] /\
  exists fuel, cry_run (fun _ => 0) (fun l => l) fuel (fun l => l) s true default_options = Some ([], None, None).
Proof.
  set (w0 := list_ascii_of_string "0").
  assert (H0 : is_word w0) by (split; [discriminate|]; intros c [<-|[]]; left; unfold is_dig; vm_compute; intuition congruence).
  assert (B0 : blank "") by (intros c []).
  assert (HT : text_sum "0" (EWord w0)) by exact (t_product _ _ (t_factor _ _ (t_word "" w0 "" B0 H0 B0))).
  exists "0==0", (Equation (EWord w0) REq (EWord w0)). split; [exact (t_equation "0" "0" _ REq _ HT HT)|]. split.
  - split; [|split; [constructor|split; [intros x v []|split; [constructor|]]]].
    + intros x. split; [intros []|]. intros (w & c & u & Hw & Hc & [Hu Hs] & _).
      assert (Ec : c = "0"%char) by (destruct Hw as [<-|[<-|[]]]; destruct Hc as [<-|[]]; reflexivity). subst c.
      destruct Hs as [<-|[Hl _]]; [unfold is_upper in Hu|unfold is_lower in Hl]; vm_compute in *; intuition congruence.
    + assert (Hv : value (lookup []) (EWord w0) 0).
      { constructor. exists [0]. split; [|reflexivity]. repeat (apply Forall2_cons || apply Forall2_nil). left. unfold is_dig. vm_compute. intuition congruence. }
      exists 0, 0. split; [exact Hv|]. split; [exact Hv|reflexivity].
  - exists 100%nat. vm_compute. reflexivity.
Qed.
Print Assumptions C51_letterless_refuted.

(** Of a chain of equations only the last one is imposed. *)
Theorem C51_chain_refuted : exists fuel b r,
  cry_run (fun _ => 0) (fun l => l) fuel (fun l => l) "A + B == C + D == E" true (Options None LNone (Solver.LNum 1) true) = Some ([b], None, r) /\
  lookup b "A" + lookup b "B" <> lookup b "C" + lookup b "D".
Proof.
  exists 3000%nat, [("A", 1); ("B", 2); ("C", 3); ("D", 4); ("E", 7)], (Some ILimit).
  split; [vm_compute; reflexivity|vm_compute; discriminate].
Qed.
Print Assumptions C51_chain_refuted.

(** C52: [avoid_leading_zeros=False] has no effect: A = 0, B = 1 solves [A*B==A], and is not
    found. *)
Theorem C52_leading_zero_refuted : exists s e r f b bs,
  text_equation s (Equation e r f) /\
  (forall x, In x (map fst b) <-> letter_of (Equation e r f) x) /\ ForallOrdPairs letter_before (map fst b) /\
  (forall x v, In (x, v) b -> 0 <= v <= 9) /\ NoDup (map snd b) /\ true_equation (lookup b) (Equation e r f) /\
  (exists fuel, cry_run (fun _ => 0) (fun l => l) fuel (fun l => l) s false default_options = Some (bs, None, None)) /\
  ~ In b bs.
Proof.
  set (wa := list_ascii_of_string "A"). set (wb := list_ascii_of_string "B").
  assert (Ha : is_word wa).
  { split; [discriminate|]. intros c [<-|[]]. right. exists "A"%char. unfold stands_for, is_upper. vm_compute. intuition congruence. }
  assert (Hb : is_word wb).
  { split; [discriminate|]. intros c [<-|[]]. right. exists "B"%char. unfold stands_for, is_upper. vm_compute. intuition congruence. }
  assert (B0 : blank "") by (intros c []).
  exists "A*B==A", (EMul (EWord wa) (EWord wb)), REq, (EWord wa), [("A", 0); ("B", 1)],
    [[("A", 2); ("B", 1)]; [("A", 3); ("B", 1)]; [("A", 4); ("B", 1)]; [("A", 5); ("B", 1)];
     [("A", 6); ("B", 1)]; [("A", 7); ("B", 1)]; [("A", 8); ("B", 1)]; [("A", 9); ("B", 1)]].
  split; [|split; [|split; [|split; [|split; [|split; [|split]]]]]].
  - refine (t_equation "A*B" "A" _ REq _ _ _).
    + apply t_product. refine (t_mul "A" "B" _ _ _ _); [exact (t_factor _ _ (t_word "" wa "" B0 Ha B0))|exact (t_word "" wb "" B0 Hb B0)].
    + exact (t_product _ _ (t_factor _ _ (t_word "" wa "" B0 Ha B0))).
  - intros x. split.
    + intros [<-|[<-|[]]]; [exists wa, "A"%char, "A"%char|exists wb, "B"%char, "B"%char]; unfold stands_for, is_upper; cbn; intuition (congruence || lia || (vm_compute; intuition congruence)).
    + intros (w & c & u & Hw & Hc & [Hu Hs] & ->).
      assert (Ec : c = "A"%char \/ c = "B"%char) by (destruct Hw as [<-|[<-|[<-|[]]]]; destruct Hc as [<-|[]]; auto).
      destruct Hs as [->|[Hl _]]; [destruct Ec as [-> | ->]; cbn; auto|]. exfalso. unfold is_lower in Hl. destruct Ec as [-> | ->]; vm_compute in Hl; intuition congruence.
  - repeat constructor. exists "A"%char, "B"%char. vm_compute. intuition congruence.
  - intros x v [E|[E|[]]]; injection E as <- <-; split; discriminate.
  - repeat constructor; cbn; intuition congruence.
  - assert (Hva : value (lookup [("A", 0); ("B", 1)]) (EWord wa) 0).
    { constructor. exists [0]. split; [|reflexivity]. repeat (apply Forall2_cons || apply Forall2_nil). right. exists "A"%char. unfold stands_for, is_upper. vm_compute. intuition congruence. }
    assert (Hvb : value (lookup [("A", 0); ("B", 1)]) (EWord wb) 1).
    { constructor. exists [1]. split; [|reflexivity]. repeat (apply Forall2_cons || apply Forall2_nil). right. exists "B"%char. unfold stands_for, is_upper. vm_compute. intuition congruence. }
    exists (0 * 1), 0. split; [now constructor|]. split; [exact Hva|reflexivity].
  - exists 3000%nat. vm_compute. reflexivity.
  - cbn. intuition congruence.
Qed.
Print Assumptions C52_leading_zero_refuted.
