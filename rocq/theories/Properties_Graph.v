(** Properties of GraphLabelingSolver. *)
From Verif Require Import Graph SpecPuzzle SpecGraph SpecSolve GraphFacts PuzzleCuts.
Open Scope string_scope.
Open Scope list_scope.
Open Scope Z_scope.

(** C49: for every non-empty graph and list of distinct labels, exactly the proper
    colourings are enumerated. *)
Theorem C49_colourings : forall clk shuffle nodes edges labels o,
  is_graph nodes edges -> nodes <> [] -> NoDup labels -> shuffles shuffle ->
  exactly (fun fuel => graph_run clk shuffle fuel nodes edges labels o)
    (proper_colouring nodes edges labels) (o_timeout o) (o_limit o).
Proof. exact (fun clk shuffle nodes edges labels o H => graph_exact nodes edges labels H clk shuffle o). Qed.
Print Assumptions C49_colourings.

Example C49_case :
  is_graph ["a"; "b"; "c"] [("a", "b"); ("b", "c")] /\ NoDup ["red"; "blue"] /\
  graph_run (fun _ => 0) (fun l => l) 1000 ["a"; "b"; "c"] [("a", "b"); ("b", "c")] ["red"; "blue"] default_options =
    Some ([[("a", "red"); ("b", "blue"); ("c", "red")]; [("a", "blue"); ("b", "red"); ("c", "blue")]], None, None).
Proof.
  split; [|split; [|vm_compute; reflexivity]].
  - split.
    + repeat constructor; cbn; intros H; repeat (destruct H as [H|H]; [discriminate|]); exact H.
    + cbn. intros u v [E|[E|[]]]; injection E as <- <-; auto.
  - repeat constructor; cbn; intros H; repeat (destruct H as [H|H]; [discriminate|]); exact H.
Qed.

(** C49: unless another policy is given, the colourings come in lexicographic order: nodes in the
    order of the graph, labels in the order in which they are listed.  The colourings left out by
    a timeout or a limit are later than those produced. *)
Theorem C49_order : forall clk shuffle nodes edges labels o fuel bs r i,
  is_graph nodes edges -> nodes <> [] -> NoDup labels -> shuffles shuffle -> o_policy o = None \/ o_policy o = Some ORDERED ->
  graph_run clk shuffle fuel nodes edges labels o = Some (bs, r, i) ->
  ForallOrdPairs (earlier_colouring labels) bs /\
  forall b b', In b bs -> proper_colouring nodes edges labels b' -> In b' bs \/ earlier_colouring labels b b'.
Proof. exact graph_first. Qed.
Print Assumptions C49_order.

Example C49_order_case :
  graph_run (fun _ => 0) (fun l => l) 1000 ["b"; "a"] [("a", "b")] ["z"; "y"; "x"] (Options None LNone (Solver.LNum 3) true) =
    Some ([[("b", "z"); ("a", "y")]; [("b", "z"); ("a", "x")]; [("b", "y"); ("a", "z")]], None, Some ILimit) /\
  earlier_colouring ["z"; "y"; "x"] [("b", "z"); ("a", "x")] [("b", "y"); ("a", "z")].
Proof.
  split; [vm_compute; reflexivity|]. exists [], "b", "z", "y", [("a", "x")], [("a", "z")], 0%nat, 1%nat. repeat split; auto.
Qed.

(** C49: with a repeated label, adjacent nodes can get the same label. *)
Theorem C49_repeated_label_refuted : exists nodes edges labels b bs,
  is_graph nodes edges /\ nodes <> [] /\
  graph_run (fun _ => 0) (fun l => l) 1000 nodes edges labels default_options = Some (b :: bs, None, None) /\
  ~ proper_colouring nodes edges labels b.
Proof.
  exists ["a"; "b"], [("a", "b")], ["red"; "red"], [("a", "red"); ("b", "red")]. eexists. split; [|split; [discriminate|split; [vm_compute; reflexivity|]]].
  - split.
    + repeat constructor; cbn; intros H; repeat (destruct H as [H|H]; [discriminate|]); exact H.
    + cbn. intros u v [E|[]]; injection E as <- <-; auto.
  - intros (_ & _ & H). apply (H "a" "b" "red" "red"); cbn; auto.
Qed.
Print Assumptions C49_repeated_label_refuted.

(** C49: the empty graph has one colouring, the empty one, which is not found. *)
Theorem C49_empty_refuted : exists nodes edges labels b,
  is_graph nodes edges /\ NoDup labels /\ proper_colouring nodes edges labels b /\
  graph_run (fun _ => 0) (fun l => l) 1000 nodes edges labels default_options = Some ([], None, None).
Proof.
  exists [], [], ["red"], []. split; [split; [constructor|intros u v []]|]. split; [repeat constructor; intros []|].
  split; [|vm_compute; reflexivity]. split; [reflexivity|]. split; [intros u l []|intros u v l l' []].
Qed.
Print Assumptions C49_empty_refuted.
