(** Properties of puzzle objects that are used several times. *)
From Coq Require Import Ascii Lia.
From Verif Require Import Queens Graph Sudoku Cryptarithm Nonogram Einstein PuzzleAgain SpecPuzzleAgain SpecPuzzleUser SpecPuzzle SpecSafe SpecQueens SpecGraph SpecSudoku SpecCryptarithm SpecNonogram SpecEinstein SpecSolve PuzzleUserRel PuzzleUserProps PuzzleUserProps2 PuzzleAgainFacts PuzzleAgainProps.
Open Scope string_scope.
Open Scope list_scope.
Open Scope Z_scope.

(** C90: a QueensSolver may be iterated any number of times, to the end or not, with
    variables and constraints added and the limits and the policy of its solver set in
    between.  Nothing raises, and each iteration gives exactly the boards (with values of the added variables)
    allowed by all that has been added before it.  Without a timeout and with a policy other than
    RANDOM, iterating again gives the same list, and so does a new object that has been given
    the same settings and additions without any loop. *)
Theorem C90_queens : forall clk n o,
  (1 <= n)%nat ->
  always_exact clk (queens_init n) (queens_decode n) (arg_or (o_policy o) GROUPS) (o_timeout o) (o_limit o) (o_compile o) (queens_board n) (queens_values n) (queens_var n) /\
  always_same clk (queens_init n) (queens_decode n) (arg_or (o_policy o) GROUPS) (o_timeout o) (o_limit o) (o_compile o) (queens_var n) /\
  always_fresh clk (queens_init n) (queens_decode n) (arg_or (o_policy o) GROUPS) (o_timeout o) (o_limit o) (o_compile o) (queens_var n).
Proof. exact queens_again. Qed.
Print Assumptions C90_queens.

(** C90: the same for GraphLabelingSolver. *)
Theorem C90_graph : forall clk nodes edges labels o,
  is_graph nodes edges -> nodes <> [] -> NoDup labels ->
  always_exact clk (graph_init nodes edges labels) (graph_decode labels) (arg_or (o_policy o) ORDERED) (o_timeout o) (o_limit o) (o_compile o) (proper_colouring nodes edges labels) (graph_values nodes labels) (graph_var nodes labels) /\
  always_same clk (graph_init nodes edges labels) (graph_decode labels) (arg_or (o_policy o) ORDERED) (o_timeout o) (o_limit o) (o_compile o) (graph_var nodes labels) /\
  always_fresh clk (graph_init nodes edges labels) (graph_decode labels) (arg_or (o_policy o) ORDERED) (o_timeout o) (o_limit o) (o_compile o) (graph_var nodes labels).
Proof. exact graph_again. Qed.
Print Assumptions C90_graph.

(** C90: the same for SudokuSolver. *)
Theorem C90_sudoku : forall clk s o,
  well_formed s -> has_blank s ->
  always_exact clk (sudoku_init s) (sudoku_decode s) (arg_or (o_policy o) GROUPS) (o_timeout o) (sudoku_limit o) (o_compile o) (completion s) (sudoku_values s) (sudoku_var s) /\
  always_same clk (sudoku_init s) (sudoku_decode s) (arg_or (o_policy o) GROUPS) (o_timeout o) (sudoku_limit o) (o_compile o) (sudoku_var s) /\
  always_fresh clk (sudoku_init s) (sudoku_decode s) (arg_or (o_policy o) GROUPS) (o_timeout o) (sudoku_limit o) (o_compile o) (sudoku_var s).
Proof. exact sudoku_again. Qed.
Print Assumptions C90_sudoku.

(** C90: the same for CryptarithmSolver. *)
Theorem C90_cryptarithm : forall clk s q order avoid o,
  text_equation s q -> depends_in q -> shuffles order ->
  always_exact clk (cry_init order s avoid) cry_decode (arg_or (o_policy o) MIN_BOUND) (o_timeout o) (o_limit o) (o_compile o) (cry_solution q) letter_values (letter_var q) /\
  always_same clk (cry_init order s avoid) cry_decode (arg_or (o_policy o) MIN_BOUND) (o_timeout o) (o_limit o) (o_compile o) (letter_var q) /\
  always_fresh clk (cry_init order s avoid) cry_decode (arg_or (o_policy o) MIN_BOUND) (o_timeout o) (o_limit o) (o_compile o) (letter_var q).
Proof. exact cryptarithm_again. Qed.
Print Assumptions C90_cryptarithm.

(** C90: the same for NonogramSolver. *)
Theorem C90_nonogram : forall clk rows cols o,
  positive_clues rows -> positive_clues cols -> (exists l, In l (rows ++ cols) /\ l <> []) ->
  always_exact clk (nonogram_init rows cols) (nonogram_decode (List.length cols)) (arg_or (o_policy o) MIN_BOUND) (o_timeout o) (o_limit o) (o_compile o) (matches rows cols) (nonogram_values rows cols) (nonogram_var rows cols) /\
  always_same clk (nonogram_init rows cols) (nonogram_decode (List.length cols)) (arg_or (o_policy o) MIN_BOUND) (o_timeout o) (o_limit o) (o_compile o) (nonogram_var rows cols) /\
  always_fresh clk (nonogram_init rows cols) (nonogram_decode (List.length cols)) (arg_or (o_policy o) MIN_BOUND) (o_timeout o) (o_limit o) (o_compile o) (nonogram_var rows cols).
Proof. exact nonogram_again. Qed.
Print Assumptions C90_nonogram.

(** C90: the same for EinsteinRiddleSolver. *)
Theorem C90_einstein : forall clk o,
  always_exact clk einstein_init einstein_decode (arg_or (o_policy o) MIN_BOUND) (o_timeout o) (o_limit o) (o_compile o) riddle_answer einstein_values einstein_var /\
  always_same clk einstein_init einstein_decode (arg_or (o_policy o) MIN_BOUND) (o_timeout o) (o_limit o) (o_compile o) einstein_var /\
  always_fresh clk einstein_init einstein_decode (arg_or (o_policy o) MIN_BOUND) (o_timeout o) (o_limit o) (o_compile o) einstein_var.
Proof. exact einstein_again. Qed.
Print Assumptions C90_einstein.

(** C90: a loop left with [break] at the result number n has received the first n + 1 results
    of the complete loop, or all of them if there are not that many; it ends if the complete
    loop does. *)
Theorem C90_break : forall (B : Type) clk (decode : subst -> res B) shuffle f n e g bs e' r,
  watch clk decode shuffle f None e g = Some (bs, e', r) ->
  (exists y, watch clk decode shuffle f (Some n) e g = Some y) /\
  forall f' bs1 e1 r1, watch clk decode shuffle f' (Some n) e g = Some (bs1, e1, r1) ->
    bs1 = firstn (S n) bs /\ r1 = (if Nat.leb (List.length bs) n then r else None).
Proof. exact break_first. Qed.
Print Assumptions C90_break.

(** [list(puzzle)] after the statements. *)
Local Definition after {A B} (init : op A) (decode : A -> subst -> res B) (pol : policy) (acts : list act) (fuel : nat) :=
  match construct init with
  | Ok (obj, e0) =>
      match play (fun _ => 0) (decode obj) (new_solver pol LNone LNone true) e0 acts with
      | Some (Ok (sv, e)) => results (fun _ => 0) (decode obj) (fun l => l) fuel sv e
      | _ => None
      end
  | Err _ => None
  end.
Local Definition loop (stop : option nat) : act := ALoop (@rev name) (Z.to_nat 100000) stop.

(** There are two boards of size 4; then one; then the one twice, with the values 2 and 7 of [y];
    and at last once, because of the limit. *)
Example C90_queens_case :
  let b1 := [[0;1;0;0]; [0;0;0;1]; [1;0;0;0]; [0;0;1;0]] in
  let b2 := [[0;0;1;0]; [1;0;0;0]; [0;0;0;1]; [0;1;0;0]] in
  let run acts := after (queens_init 4) (queens_decode 4) GROUPS acts 4000 in
  let p1 := [loop (Some 0%nat); AAdd (UForm (FBin ULt (FVar "q_0") (FVar "q_3"))); loop None; APolicy ORDERED; loop None; APolicy GROUPS] in
  let p2 := p1 ++ [AAdd (UVar "y" [1; 2; 7]); AAdd (UForm (FBin UGt (FVar "y") (FVar "q_0"))); loop (Some 7%nat)] in
  run [] = Some ([b2; b1], None, None) /\ run [loop (Some 0%nat); loop None] = Some ([b2; b1], None, None) /\
  run p1 = Some ([b1], None, None) /\ run p2 = Some ([b1; b1], None, None) /\
  run (map AAdd (additions p2)) = Some ([b1; b1], None, None) /\
  run (p2 ++ [ALimit (LNum 1)]) = Some ([b1], None, Some ILimit) /\
  us_ok (queens_var 4) true (additions p2) /\ Forall shuffling p2 /\ last_limit LNone (p2 ++ [ALimit (LNum 1)]) = LNum 1.
Proof.
  cbv zeta. split; [vm_compute; reflexivity|]. split; [vm_compute; reflexivity|]. split; [vm_compute; reflexivity|]. split; [vm_compute; reflexivity|].
  split; [vm_compute; reflexivity|]. split; [vm_compute; reflexivity|].
  assert (Q0 : queens_var 4 "q_0" 0).
  { exists 0%nat, 0%nat. split; [repeat constructor|split; [repeat constructor|left; repeat split; reflexivity || discriminate]]. }
  assert (Q3 : queens_var 4 "q_3" 0).
  { exists 0%nat, 3%nat. split; [repeat constructor|split; [repeat constructor|left; repeat split; reflexivity || discriminate]]. }
  split; [|split; [|reflexivity]].
  - cbn [additions flat_map app loop]. apply us_ok_nth. intros [|[|[|k]]] Hk; cbn [nth firstn u_ok].
    + split; [|split; [|split; [reflexivity|split; [reflexivity|left]]]].
      * intros x [<-|[<-|[]]]; exists 0; left; assumption.
      * intros a _. cbn. eexists; reflexivity.
      * exists (fun _ => 0), (fun x => if String.eqb x "q_0" then 0 else 1), 0, 1. repeat split; discriminate.
    + split; [reflexivity|]. split; [|repeat constructor; cbn; intuition discriminate].
      intros v [(k & r & Hk1 & Hr & H)|(d & [H|[]] & _)]; [|discriminate H].
      destruct H as [[H _]|[[H _]|[H _]]]; discriminate H.
    + split; [|split; [|split; [reflexivity|split; [reflexivity|left]]]].
      * intros x [<-|[<-|[]]]; [exists 1; right; exists [1; 2; 7]; cbn; auto|exists 0; left; assumption].
      * intros a _. cbn. eexists. reflexivity.
      * exists (fun _ => 0), (fun x => if String.eqb x "q_0" then 0 else 1), 0, 1. repeat split; discriminate.
    + cbn in Hk. lia.
  - repeat constructor; cbn; intros l; apply Permutation.Permutation_sym, Permutation.Permutation_rev.
Qed.

Example C90_graph_case :
  let run acts := after (graph_init ["a"; "b"] [("a", "b")] ["red"; "blue"]) (graph_decode ["red"; "blue"]) ORDERED acts 1000 in
  run [loop (Some 0%nat)] = Some ([[("a", "red"); ("b", "blue")]; [("a", "blue"); ("b", "red")]], None, None) /\
  run [loop (Some 0%nat); AAdd (UForm (FBin UNe (FVar "n_0") (FInt 0))); loop None] = Some ([[("a", "blue"); ("b", "red")]], None, None) /\
  run [APolicy RANDOM; loop None; AAdd (UForm (FBin ULt (FVar "n_0") (FInt 0))); loop None] = Some ([], None, None).
Proof. repeat split; vm_compute; reflexivity. Qed.

Example C90_cryptarithm_case :
  let run acts := after (cry_init (fun l => l) "A<B" true) cry_decode MIN_BOUND acts 4000 in
  run [loop (Some 3%nat); AAdd (UForm (FBin UEq (FVar "B") (FBin UMul (FVar "A") (FInt 4)))); loop None] =
    Some ([[("A", 1); ("B", 4)]; [("A", 2); ("B", 8)]], None, None).
Proof. vm_compute. reflexivity. Qed.

Example C90_nonogram_case :
  let run acts := after (nonogram_init [[1]; [1]] [[1]; [1]]) (nonogram_decode 2) MIN_BOUND acts 1000 in
  run [loop (Some 0%nat); AAdd (UForm (FBin ULt (FVar "r0_0") (FVar "c1_0"))); loop None] = Some ([[[1; 0]; [0; 1]]], None, None) /\
  run [loop (Some 0%nat); loop None] = Some ([[[1; 0]; [0; 1]]; [[0; 1]; [1; 0]]], None, None).
Proof. split; vm_compute; reflexivity. Qed.

Example C90_einstein_case :
  let run acts := after einstein_init einstein_decode MIN_BOUND acts (Z.to_nat 1000000) in
  exists z, run [] = Some ([z], None, None) /\
    run [loop (Some 0%nat); AAdd (UForm (FBin UEq (FVar "animal_a_zebra") (FBin USub (FVar "animal_a_horse") (FInt 1))))] = Some ([], None, None).
Proof. eexists. split; vm_compute; reflexivity. Qed.

(** A schema with one cell left blank. *)
Example C90_sudoku_case :
  let row k := map Some (map (fun i => Z.of_nat (Nat.modulo (i + k) 9) + 1) (seq 0 9)) in
  let full := map row [0; 3; 6; 1; 4; 7; 2; 5; 8]%nat in
  let s := match full with (_ :: r0) :: r1 :: rest => (None :: r0) :: r1 :: rest | l => l end in
  let run acts := after (sudoku_init s) (sudoku_decode s) GROUPS acts 2000 in
  (exists g, run [loop None] = Some ([g], None, None) /\ run [loop None; AAdd (UForm (FBin ULt (FVar "c_0_0") (FInt 5))); loop (Some 2%nat)] = Some ([g], None, None)) /\
  run [loop None; AAdd (UForm (FBin UGt (FVar "c_0_0") (FInt 5)))] = Some ([], None, None).
Proof. split; [eexists; split|]; vm_compute; reflexivity. Qed.

Example C90_break_case :
  match construct (nonogram_init [[1]; [1]] [[1]; [1]]) with
  | Ok (obj, e0) =>
      match watch (fun _ => 0) (nonogram_decode 2 obj) (fun l => l) 1000 (Some 0%nat) e0 (GInit default_solver no_args) with
      | Some (bs, _, r) => bs = [[[0; 1]; [1; 0]]] /\ r = None
      | None => False
      end
  | Err _ => False
  end.
Proof. vm_compute. split; reflexivity. Qed.
