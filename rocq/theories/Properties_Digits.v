(** Property theorems about the digits that CryptarithmSolver tries (C97).

    [cry_watched clk shuffle f order s avoid o = Some (ts, ys, r, i)]: consuming
    CryptarithmSolver(s, avoid_leading_zeros=avoid, options [o]), the search tested the digits of a
    further letter with the partial assignments [ts], found [ys] and ended with exception [r] and
    interrupt [i]; [order] is the order of a set of letters. *)
From Verif Require Import CryWatch SpecCryptarithm SpecDigits SpecSolve SolverCases TriesCry DigitsCases.
Open Scope string_scope.
Open Scope list_scope.
Open Scope Z_scope.

(** If the equation depends on every letter, the search extends exactly the assignments of
    different digits to the first letters, in some order of the letters, that do not begin a word with 0: the
    equation rules out none. *)
Theorem C97_digits : forall s q order avoid,
  text_equation s q -> depends_on_each q -> (exists x, letter_of q x) -> shuffles order ->
  forall clk shuffle f o ts ys r i, shuffles shuffle ->
  cry_watched clk shuffle f order s avoid o = Some (ts, ys, r, i) ->
  exists l, NoDup l /\ (forall x, In x l <-> letter_of q x) /\ NoDup ts /\
    (forall t, In t ts -> digits_for q l t) /\ (i = None -> forall t, digits_for q l t -> In t ts).
Proof. exact cry_tries. Qed.
Print Assumptions C97_digits.

(** So with k + 1 letters an uninterrupted search takes at least 2 * 9 * 8 * ... * (10 - k) - 1
    iterations. *)
Theorem C97_cost : forall s q order avoid,
  text_equation s q -> depends_on_each q -> (exists x, letter_of q x) -> shuffles order ->
  forall clk shuffle f o ts ys r i k, shuffles shuffle ->
  cry_watched clk shuffle f order s avoid o = Some (ts, ys, r, i) -> i = None ->
  (exists l, NoDup l /\ (forall x, In x l <-> letter_of q x) /\ length l = S k) ->
  (2 * falling 9 k <= S (cry_iterations clk shuffle f order s avoid o))%nat.
Proof. exact cry_cost. Qed.
Print Assumptions C97_cost.

(** Four letters, three of which begin a word: 1 + 9 + 72 + 504 assignments. *)
Example C97_case : text_equation "TO+go == (OUT)" q_out /\ depends_on_each q_out /\ letter_of q_out "T" /\
  exists ts, cry_watched clk0 noshuffle (Z.to_nat 40000) (fun l => rev l) "TO+go == (OUT)" true default_options =
      Some (ts, [[("G", 8); ("O", 1); ("T", 2); ("U", 0)]], None, None) /\
    len ts = 586 /\ firstn 4 ts = [[]; [("G", 1)]; [("G", 1); ("O", 2)]; [("G", 1); ("O", 2); ("T", 3)]] /\
    Z.of_nat (cry_iterations clk0 noshuffle (Z.to_nat 40000) (fun l => rev l) "TO+go == (OUT)" true default_options) = 1172.
Proof. exact out_case. Qed.

(** The best known puzzle, whatever the options. *)
Example C97_money_case : text_equation "SEND+MORE==MONEY" q_money /\ depends_on_each q_money /\
 (forall clk shuffle f order avoid o ts ys r, shuffles order -> shuffles shuffle ->
  cry_watched clk shuffle f order "SEND+MORE==MONEY" avoid o = Some (ts, ys, r, None) ->
  362879 <= Z.of_nat (cry_iterations clk shuffle f order "SEND+MORE==MONEY" avoid o)).
Proof. split; [exact money_text|]. split; [exact money_depends|exact money_case]. Qed.
