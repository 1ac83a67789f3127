(** Properties of puzzles that share a Model or are given a Solver. *)
From Coq Require Import Ascii Lia.
From Verif Require Import PuzzleShared SpecPuzzleShared SpecPuzzleUser SpecPuzzle SpecSafe SpecSolve PuzzleSharedProps.
Open Scope string_scope.
Open Scope list_scope.
Open Scope Z_scope.

(** C91: variables and constraints of the user and puzzles of the six classes are added to one
    Model, in any order; no puzzle has a variable that is there already.  Iterating the k-th
    puzzle raises nothing and gives exactly the k-th components of the combinations (values of the
    user's variables, a solution of every puzzle) that meet all constraints, each combination
    once, under the options of the Solver that the puzzle is given, or else its own. *)
Theorem C91_exactly : forall clk shuffle ps parts k z given o,
  Forall2 posed ps parts -> nth_error (puzzles ps) k = Some (z, given, o) -> shuffles shuffle ->
  parts_ok (o_compile (effective z given o)) parts ->
  exactly_component (fun fuel => shared_run clk shuffle fuel ps k) k (jointly parts)
    (o_timeout (effective z given o)) (o_limit (effective z given o)).
Proof. exact shared_exactly. Qed.
Print Assumptions C91_exactly.

(** C91: if no constraint relates the puzzles, the combinations are all those of values of the
    user's variables with solutions of the puzzles. *)
Theorem C91_unrelated : forall ps parts,
  Forall2 posed ps parts -> parts_ok false parts -> unrelated parts ->
  forall p, jointly parts p <-> independently parts p.
Proof. exact unrelated_independently. Qed.
Print Assumptions C91_unrelated.

(** C91: a puzzle one of whose variables is in the model already raises ValueError. *)
Theorem C91_taken : forall clk shuffle fuel ps parts k z given o t rest,
  Forall2 posed ps parts -> parts_ok false parts -> poses z t ->
  (exists x v v', task_var t x v /\ known_vars parts x v') ->
  shared_run clk shuffle fuel (ps ++ PPuzzle z given o :: rest) k = Some ([], Some ValueError, None).
Proof. exact shared_taken. Qed.
Print Assumptions C91_taken.

(** C91: the options of a puzzle that is given a Solver do not count: two results are received
    from a puzzle with the option [limit=1]. *)
Theorem C91_options_refuted : exists z given o,
  poses z (TGraph ["a"; "b"] [("a", "b")] ["red"; "blue"]) /\ o_limit o = Solver.LNum 1 /\
  shared_run (fun _ => 0) (fun l => l) 1000 [PPuzzle z None o] 0 = Some ([RColours [("a", "red"); ("b", "blue")]], None, Some ILimit) /\
  shared_run (fun _ => 0) (fun l => l) 1000 [PPuzzle z (Some given) o] 0 =
    Some ([RColours [("a", "red"); ("b", "blue")]; RColours [("a", "blue"); ("b", "red")]], None, None).
Proof. exact options_ignored. Qed.
Print Assumptions C91_options_refuted.

Local Definition two_nodes : piece := PPuzzle (ZGraph ["a"; "b"] [("a", "b")] ["red"; "blue"]) None default_options.
Local Definition two_nodes_task : part := Task (TGraph ["a"; "b"] [("a", "b")] ["red"; "blue"]).
Local Definition four_queens (given : option options) : piece := PPuzzle (ZQueens 4) given default_options.
Local Definition boards : list (list (list Z)) :=
  [[[0;0;1;0]; [1;0;0;0]; [0;0;0;1]; [0;1;0;0]]; [[0;1;0;0]; [0;0;0;1]; [1;0;0;0]; [0;0;1;0]]].

(** The colour of the node [a] tells the column of the first queen: only one of the two
    colourings goes with each of the two boards. *)
Example C91_exactly_case :
  let x := UVar "x" [1; 2; 9] in
  let link := UForm (FBin UEq (FVar "q_0") (FBin UAdd (FVar "n_0") (FInt 1))) in
  let link' := UForm (FBin UGt (FVar "x") (FVar "q_0")) in
  let ps := [PUser x; two_nodes; four_queens (Some default_options); PUser link; PUser link'] in
  let parts := [Stmt x; two_nodes_task; Task (TQueens 4); Stmt link; Stmt link'] in
  let red := RColours [("a", "red"); ("b", "blue")] in
  let blue := RColours [("a", "blue"); ("b", "red")] in
  let run ps k := shared_run (fun _ => 0) (fun l => l) 4000 ps k in
  run ps 0%nat = Some ([red; red; blue], None, None) /\
  run ps 1%nat = Some (map RBoard [nth 0 boards []; nth 1 boards []; nth 1 boards []], None, None) /\
  run [two_nodes; four_queens (Some (Options (Some MIN_BOUND) LNone (Solver.LNum 1) false)); PUser link] 1%nat =
    Some ([RBoard (nth 1 boards [])], None, Some ILimit) /\
  run [four_queens None; two_nodes] 1%nat = Some ([red; blue; red; blue], None, None) /\
  Forall2 posed ps parts /\ parts_ok true parts /\ nth_error (puzzles ps) 1 = Some (ZQueens 4, Some default_options, default_options).
Proof.
  cbv zeta. split; [vm_compute; reflexivity|]. split; [vm_compute; reflexivity|]. split; [vm_compute; reflexivity|]. split; [vm_compute; reflexivity|].
  split; [|split; [|reflexivity]].
  - constructor; [reflexivity|]. constructor; [|constructor; [split; [reflexivity|repeat constructor]|repeat constructor]].
    cbn. split; [reflexivity|]. split; [reflexivity|]. split; [reflexivity|].
    split; [split; [repeat constructor; cbn; intuition discriminate|intros x y [E|[]]; injection E as <- <-; cbn; intuition discriminate]|].
    split; [discriminate|]. repeat constructor; cbn; intuition discriminate.
  - assert (Q0 : queens_var 4 "q_0" 0).
    { exists 0%nat, 0%nat. split; [repeat constructor|split; [repeat constructor|left; repeat split; reflexivity || discriminate]]. }
    assert (N0 : graph_var ["a"; "b"] ["red"; "blue"] "n_0" 0) by (split; [exists 0%nat; split; [repeat constructor|reflexivity]|now right]).
    intros l1 y l2 E. destruct l1 as [|y1 [|y2 [|y3 [|y4 [|y5 [|]]]]]]; cbn [app] in E; injection E; intros; subst; try discriminate; cbn [part_ok u_ok].
    + split; [reflexivity|]. split; [|repeat constructor; cbn; intuition discriminate]. intros v [(d & [] & _)|(t & [] & _)].
    + intros y v v' [(i & Hi & ->) _] [(d & [E'|[]] & _)|(t & [E'|[]] & _)]; discriminate E'.
    + intros y v v' (k & r & _ & _ & Hy) [(d & [E'|[E'|[]]] & _)|(t & [E'|[E'|[]]] & Ht)]; try discriminate E'.
      * injection E' as <- _. destruct Hy as [[Hy _]|[[Hy _]|[Hy _]]]; discriminate Hy.
      * injection E' as <-. destruct Ht as [(i & _ & ->) _]. destruct Hy as [[Hy _]|[[Hy _]|[Hy _]]]; discriminate Hy.
    + split; [|split; [|split; [reflexivity|split; [reflexivity|left]]]].
      * intros y [<-|[<-|[]]]; exists 0; right; [exists (TQueens 4)|exists (TGraph ["a"; "b"] [("a", "b")] ["red"; "blue"])]; (split; [|assumption]); cbn; auto.
      * intros a _. cbn. eexists. reflexivity.
      * exists (fun _ => 0), (fun x => if String.eqb x "q_0" then 1 else 0), 0, 1. repeat split; discriminate.
    + split; [|split; [|split; [reflexivity|split; [reflexivity|left]]]].
      * intros y [<-|[<-|[]]]; [exists 1; left; exists [1; 2; 9]; cbn; auto|exists 0; right; exists (TQueens 4); split; [cbn; auto|assumption]].
      * intros a _. cbn. eexists. reflexivity.
      * exists (fun _ => 0), (fun x => if String.eqb x "x" then 1 else 0), 0, 1. repeat split; discriminate.
Qed.

(** Two graphs cannot share a Model, nor can a second variable have the name of one of a graph;
    with variables of other names nothing relates a graph and an added variable. *)
Example C91_taken_case :
  let run ps k := shared_run (fun _ => 0) (fun l => l) 4000 ps k in
  run [two_nodes; two_nodes] 0%nat = Some ([], Some ValueError, None) /\
  run [PUser (UVar "n_1" [5]); two_nodes] 0%nat = Some ([], Some ValueError, None) /\
  task_var (TGraph ["a"; "b"] [("a", "b")] ["red"; "blue"]) "n_1" 0 /\ known_vars [Stmt (UVar "n_1" [5])] "n_1" 5 /\ parts_ok false [Stmt (UVar "n_1" [5])].
Proof.
  cbv zeta. split; [vm_compute; reflexivity|]. split; [vm_compute; reflexivity|].
  split; [split; [exists 1%nat; split; [repeat constructor|reflexivity]|now right]|].
  split; [left; exists [5]; cbn; auto|].
  intros [|y1 [|]] y l2 E; cbn [app] in E; injection E; intros; subst; try discriminate. cbn [part_ok u_ok].
  split; [reflexivity|]. split; [|repeat constructor; cbn; intuition discriminate]. intros v [(d & [] & _)|(t & [] & _)].
Qed.

Example C91_unrelated_case :
  let parts := [Stmt (UVar "y" [3; 4]); two_nodes_task] in
  shared_run (fun _ => 0) (fun l => l) 4000 [PUser (UVar "y" [3; 4]); two_nodes] 0 =
    Some ([RColours [("a", "red"); ("b", "blue")]; RColours [("a", "blue"); ("b", "red")]; RColours [("a", "red"); ("b", "blue")]; RColours [("a", "blue"); ("b", "red")]], None, None) /\
  unrelated parts /\ parts_ok false parts /\ user_domains parts = [[3; 4]] /\ tasks parts = [TGraph ["a"; "b"] [("a", "b")] ["red"; "blue"]].
Proof.
  cbv zeta. split; [vm_compute; reflexivity|]. split; [intros u [E|[E|[]]]; [injection E as <-; eauto|discriminate]|]. split; [|split; reflexivity].
  intros [|y1 [|y2 [|]]] y l2 E; cbn [app] in E; injection E; intros; subst; try discriminate; cbn [part_ok u_ok two_nodes_task].
  - split; [reflexivity|]. split; [|repeat constructor; cbn; intuition discriminate]. intros v [(d & [] & _)|(t & [] & _)].
  - intros y v v' [(i & Hi & ->) _] [(d & [E'|[]] & _)|(t & [E'|[]] & _)]; discriminate E'.
Qed.
