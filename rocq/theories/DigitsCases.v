(** A concrete search for digits. *)
From Verif Require Import CryWatch SpecCryptarithm SpecDigits SpecSolve CryptarithmFacts SolverCases TriesCry.
Open Scope string_scope.
Open Scope list_scope.
Open Scope Z_scope.

Definition w_to : list ascii := list_ascii_of_string "TO".
Definition w_go : list ascii := list_ascii_of_string "go".
Definition w_out : list ascii := list_ascii_of_string "OUT".
Definition q_out : equation := Equation (EAdd (EWord w_to) (EWord w_go)) REq (EWord w_out).

Lemma out_words : is_word w_to /\ is_word w_go /\ is_word w_out.
Proof.
  repeat split; try discriminate; intros c Hc; right; cbn in Hc.
  - destruct Hc as [<-|[<-|[]]]; [exists "T"%char|exists "O"%char]; unfold stands_for, is_upper; vm_compute; intuition congruence.
  - destruct Hc as [<-|[<-|[]]]; [exists "G"%char|exists "O"%char]; unfold stands_for, is_upper, is_lower; vm_compute; intuition congruence.
  - destruct Hc as [<-|[<-|[<-|[]]]]; [exists "O"%char|exists "U"%char|exists "T"%char]; unfold stands_for, is_upper; vm_compute; intuition congruence.
Qed.
Lemma out_ok : words_ok (equation_words q_out).
Proof. destruct out_words as (H1 & H2 & H3). intros w [<-|[<-|[<-|[]]]]; assumption. Qed.

Lemma out_depends : depends_on_each q_out.
Proof.
  intros x Hx. exists (fun _ => 0), (fun y => if String.eqb y x then 1 else 0). split; [|split].
  - intros y Hy. now destruct (String.eqb_spec y x).
  - apply true_holds; [exact out_ok|reflexivity].
  - rewrite true_holds by exact out_ok. apply (letter_of_has _ _ out_ok) in Hx. destruct Hx as (w & c & Hw & Hc & _ & ->).
    destruct Hw as [<-|[<-|[<-|[]]]]; cbn in Hc; repeat (destruct Hc as [<-|Hc]; [vm_compute; discriminate|]); destruct Hc.
Qed.

Lemma out_text : text_equation "TO+go == (OUT)" q_out.
Proof.
  destruct out_words as (Hto & Hgo & Hout).
  assert (B0 : blank "") by (intros c []). assert (B1 : blank " ") by (intros c [<-|[]]; reflexivity).
  refine (t_equation "TO+go " " (OUT)" _ REq _ _ _).
  - refine (t_add "TO" "go " _ _ _ _).
    + exact (t_product _ _ (t_factor _ _ (t_word "" w_to "" B0 Hto B0))).
    + exact (t_factor _ _ (t_word "" w_go " " B0 Hgo B1)).
  - exact (t_product _ _ (t_factor _ _ (t_paren " " "OUT" _ "" B1 (t_product _ _ (t_factor _ _ (t_word "" w_out "" B0 Hout B0))) B0))).
Qed.

Lemma out_case : text_equation "TO+go == (OUT)" q_out /\ depends_on_each q_out /\ letter_of q_out "T" /\
  exists ts, cry_watched clk0 noshuffle (Z.to_nat 40000) (fun l => rev l) "TO+go == (OUT)" true default_options =
      Some (ts, [[("G", 8); ("O", 1); ("T", 2); ("U", 0)]], None, None) /\
    len ts = 586 /\ firstn 4 ts = [[]; [("G", 1)]; [("G", 1); ("O", 2)]; [("G", 1); ("O", 2); ("T", 3)]] /\
    Z.of_nat (cry_iterations clk0 noshuffle (Z.to_nat 40000) (fun l => rev l) "TO+go == (OUT)" true default_options) = 1172.
Proof.
  split; [exact out_text|]. split; [exact out_depends|]. split.
  - exists w_to, "T"%char, "T"%char. split; [now left|]. split; [now left|]. split; [|reflexivity]. unfold stands_for, is_upper; vm_compute; intuition congruence.
  - eexists. split; [vm_compute; reflexivity|]. repeat split; vm_compute; reflexivity.
Qed.

(** The best known puzzle. *)
Definition w_send : list ascii := list_ascii_of_string "SEND".
Definition w_more : list ascii := list_ascii_of_string "MORE".
Definition w_money : list ascii := list_ascii_of_string "MONEY".
Definition q_money : equation := Equation (EAdd (EWord w_send) (EWord w_more)) REq (EWord w_money).
Definition money_letters : list string := ["S"; "E"; "N"; "D"; "M"; "O"; "R"; "Y"].

Lemma capitals w : w <> [] -> forallb (fun c => Z.leb 65 (ord c) && Z.leb (ord c) 90)%bool w = true -> is_word w.
Proof.
  intros Hw H. split; [exact Hw|]. intros c Hc. right. exists c. rewrite forallb_forall in H. specialize (H c Hc). apply andb_true_iff in H.
  unfold stands_for, is_upper. destruct H as [H1 H2]. apply Z.leb_le in H1, H2. auto.
Qed.
Lemma money_words : is_word w_send /\ is_word w_more /\ is_word w_money.
Proof. repeat split; try apply capitals; (discriminate || reflexivity). Qed.
Lemma money_ok : words_ok (equation_words q_money).
Proof. destruct money_words as (H1 & H2 & H3). intros w [<-|[<-|[<-|[]]]]; assumption. Qed.
Lemma money_depends : depends_on_each q_money.
Proof.
  intros x Hx. exists (fun _ => 0), (fun y => if String.eqb y x then 1 else 0). split; [|split].
  - intros y Hy. now destruct (String.eqb_spec y x).
  - apply true_holds; [exact money_ok|reflexivity].
  - rewrite true_holds by exact money_ok. apply (letter_of_has _ _ money_ok) in Hx. destruct Hx as (w & c & Hw & Hc & _ & ->).
    destruct Hw as [<-|[<-|[<-|[]]]]; cbn in Hc; repeat (destruct Hc as [<-|Hc]; [vm_compute; discriminate|]); destruct Hc.
Qed.
Lemma money_text : text_equation "SEND+MORE==MONEY" q_money.
Proof.
  destruct money_words as (H1 & H2 & H3). assert (B0 : blank "") by (intros c []).
  refine (t_equation "SEND+MORE" "MONEY" _ REq _ _ _).
  - refine (t_add "SEND" "MORE" _ _ _ _).
    + exact (t_product _ _ (t_factor _ _ (t_word "" w_send "" B0 H1 B0))).
    + exact (t_factor _ _ (t_word "" w_more "" B0 H2 B0)).
  - exact (t_product _ _ (t_factor _ _ (t_word "" w_money "" B0 H3 B0))).
Qed.
Lemma money_has x : In x money_letters <-> letter_of q_money x.
Proof.
  unfold letter_of. rewrite (letter_of_has _ _ money_ok). split.
  - intros H. assert (Hw : exists w c, In w (equation_words q_money) /\ In c w /\ x = String c "").
    { cbn in H. repeat (destruct H as [<-|H]; [first [exists w_send; eexists; split; [now left|]; split; [|reflexivity]; cbn; tauto
        |exists w_more; eexists; split; [right; now left|]; split; [|reflexivity]; cbn; tauto
        |exists w_money; eexists; split; [right; right; now left|]; split; [|reflexivity]; cbn; tauto]|]). destruct H. }
    destruct Hw as (w & c & Hw & Hc & ->). exists w, c. split; [exact Hw|]. split; [exact Hc|].
    destruct Hw as [<-|[<-|[<-|[]]]]; cbn in Hc; repeat (destruct Hc as [<-|Hc]; [split; reflexivity|]); destruct Hc.
  - intros (w & c & Hw & Hc & _ & ->).
    destruct Hw as [<-|[<-|[<-|[]]]]; cbn in Hc; repeat (destruct Hc as [<-|Hc]; [vm_compute; tauto|]); destruct Hc.
Qed.

Lemma money_case : forall clk shuffle f order avoid o ts ys r, shuffles order -> shuffles shuffle ->
  cry_watched clk shuffle f order "SEND+MORE==MONEY" avoid o = Some (ts, ys, r, None) ->
  362879 <= Z.of_nat (cry_iterations clk shuffle f order "SEND+MORE==MONEY" avoid o).
Proof.
  intros clk shuffle f order avoid o ts ys r Ho Hs H.
  pose proof (cry_cost _ _ order avoid money_text money_depends (ex_intro _ "S" (proj1 (money_has "S") (or_introl eq_refl))) Ho clk shuffle f o ts ys r None 7 Hs H eq_refl) as Hc.
  assert (E : Z.of_nat (falling 9 7) = 181440) by (vm_compute; reflexivity).
  revert Hc E. generalize (falling 9 7) (cry_iterations clk shuffle f order "SEND+MORE==MONEY" avoid o). intros a b Hc E.
  assert (2 * a <= S b)%nat; [|lia]. apply Hc. exists money_letters. split; [|split; [exact money_has|reflexivity]].
  repeat constructor; cbn; intuition discriminate.
Qed.
