(** Properties of the programs demo_knapsack, demo_graph_labeling and demo_ascii_map_coloring. *)
From Coq Require Import Ascii Permutation.
From Verif Require Import DemoMore SpecDemo SpecStats SpecSolve SpecKnapsack SpecGraph SpecAscii SpecPrint DemoMoreFacts.
Open Scope string_scope.
Open Scope list_scope.
Open Scope Z_scope.

(** C76: the knapsack program prints a packing, its value and its weights; without timeout and
    limit it finds one if there is one, and says that it is optimal; and if so, it is, for
    values that are not negative, unless there are several items and exactly one value is not
    zero. *)
Theorem C76_knapsack_partial : forall clk shuffle seconds values caps rows t l, instance values caps rows -> shuffles shuffle ->
  (exists fuel out, knapsack_demo clk shuffle fuel seconds (map Some values) (map Some caps) (map (map Some) rows) t l = Some (Ok out)) /\
  forall fuel r, knapsack_demo clk shuffle fuel seconds (map Some values) (map Some caps) (map (map Some) rows) t l = Some r ->
    exists out flag sol, r = Ok out /\ announces values caps rows t l flag sol out /\
      ((forall v, In v values -> 0 <= v) ->
       (List.length values = 1%nat \/ (forall v, In v values -> v = 0) \/ exists i j, i <> j /\ nth i values 0 <> 0 /\ nth j values 0 <> 0) ->
       flag = true -> forall x x', sol = Some x -> packing (List.length values) caps rows x' -> total x' values <= total x values).
Proof. exact knapsack_program. Qed.
Print Assumptions C76_knapsack_partial.

Example C76_case :
  instance [6; 5; 4] [7; 9] [[4; 5]; [3; 3]; [4; 1]] /\
  knapsack_demo (fun _ => 0) (fun l => l) 1000 str_int (map Some [6; 5; 4]) (map Some [7; 9]) (map (map Some) [[4; 5]; [3; 3]; [4; 1]]) LNone LNone =
  Some (Ok ["=== optimal_solution ==="; "is_optimal: True"; "solution: 'X X _'"; "value: 11"; "weights: (7, 8)";
            String "010" "Found optimal solution in 0 seconds after 3 solve iterations"]).
Proof.
  split; [|vm_compute; reflexivity]. split; [discriminate|]. split; [reflexivity|]. intros row H. cbn in H. intuition; now subst.
Qed.

(** The printed selection and weights can be read. *)
Theorem C76_readable : forall x x' t, marks x t -> marks x' t -> x <> [] -> x' <> [] ->
  (forall v, In v x -> v = 0 \/ v = 1) -> (forall v, In v x' -> v = 0 \/ v = 1) -> x = x'.
Proof. exact marks_inj. Qed.
Print Assumptions C76_readable.
Theorem C76_readable_weights : forall l l' t, is_tuple l t -> is_tuple l' t -> l = l'.
Proof. exact tuple_inj. Qed.
Print Assumptions C76_readable_weights.
Example C76_readable_case : marks [1; 0; 1] "X _ X" /\ is_tuple [7] "(7,)" /\ is_tuple [7; -8; 12] "(7, -8, 12)".
Proof.
  split; [exact (marks_ok [1; 0; 1])|]. split; [exact (str_tuple_ok [7])|exact (str_tuple_ok [7; -8; 12])].
Qed.

(** It announces as optimal what is not: two items of the same weight and values 5 and 0, of
    which one fits. *)
Theorem C76_optimal_refuted : exists values caps rows summary,
  instance values caps rows /\
  knapsack_demo (fun _ => 0) (fun l => l) 200 str_int (map Some values) (map Some caps) (map (map Some) rows) LNone LNone =
    Some (Ok ["=== optimal_solution ==="; "is_optimal: True"; "solution: '_ X'"; "value: 0"; "weights: (1,)"; summary]) /\
  exists x, packing (List.length values) caps rows x /\ total x values = 5.
Proof.
  exists [5; 0], [1], [[1]; [1]]. eexists. split; [split; [discriminate|split; [reflexivity|]]; intros row H; cbn in H; intuition; now subst|].
  split; [vm_compute; reflexivity|]. exists [1; 0]. split; [|reflexivity]. split; [reflexivity|]. split; [cbn; intuition|].
  intros [|j] Hj; cbn in *; lia.
Qed.
Print Assumptions C76_optimal_refuted.

(** Without items it fails. *)
Theorem C76_no_items_refuted : forall clk shuffle fuel seconds caps rows t l,
  knapsack_demo clk shuffle fuel seconds [] caps rows t l = Some (Err AttributeError).
Proof. exact knapsack_program_empty. Qed.
Print Assumptions C76_no_items_refuted.

(** C77: the graph labeling program prints exactly the proper colourings, as dicts, and the
    summary is true (see [reports]). *)
Theorem C77_graph : forall clk shuffle seconds nodes edges labels t l,
  is_graph nodes edges -> nodes <> [] -> NoDup labels -> shuffles shuffle -> Forall ascii_only nodes -> Forall ascii_only labels ->
  (exists fuel out, graph_demo clk shuffle fuel seconds nodes edges labels t l = Some (Ok out)) /\
  forall fuel r, graph_demo clk shuffle fuel seconds nodes edges labels t l = Some r ->
    exists out, r = Ok out /\ SpecPrint.reports (fun b d => exists text, d = [text] /\ is_dict b text) (proper_colouring nodes edges labels) t l out.
Proof. exact graph_program. Qed.
Print Assumptions C77_graph.

Example C77_case :
  graph_demo (fun _ => 0) (fun l => l) 1000 str_int ["a"; "it's"] [("a", "it's")] ["red"; "blue"] LNone LNone =
  Some (Ok [String "010" "=== solution 1 ==="; "{'a': 'red', ""it's"": 'blue'}";
            String "010" "=== solution 2 ==="; "{'a': 'blue', ""it's"": 'red'}";
            String "010" "Found all 2 solutions in 0 seconds"]) /\
  is_graph ["a"; "it's"] [("a", "it's")] /\ NoDup ["red"; "blue"] /\ Forall ascii_only ["a"; "it's"].
Proof.
  split; [vm_compute; reflexivity|]. split; [|split].
  - split; [repeat constructor; cbn; intuition discriminate|]. intros u v [[= <- <-]|[]]. cbn. auto.
  - repeat constructor; cbn; intuition discriminate.
  - constructor; [|constructor; [|constructor]]; intros c H; cbn in H; repeat (destruct H as [<-|H]; [vm_compute; lia|]); destruct H.
Qed.

(** [repr] of an ASCII string is a literal of this string, and the text of a dict has only one
    reading. *)
Theorem C77_literal : forall s, ascii_only s -> literal (py_repr s) s.
Proof. exact repr_literal. Qed.
Print Assumptions C77_literal.
Theorem C77_readable : forall d d' t, is_dict d t -> is_dict d' t -> d = d'.
Proof. exact dict_inj. Qed.
Print Assumptions C77_readable.
Example C77_literal_case :
  py_repr (String "'" (String """" (String "\" (String "010" (String "001" "z"))))) = "'\'""\\\n\x01z'" /\ is_dict [("k", "v")] "{'k': 'v'}".
Proof. split; [reflexivity|]. apply (str_dict_ok [("k", "v")]). intros k v [[= <- <-]|[]]. split; intros c [<-|[]]; vm_compute; lia. Qed.

(** C78: the map program prints exactly the colourings of the map in which touching regions
    differ (one of them unless another limit is given), for colours that termcolor knows. *)
Theorem C78_map_partial : forall clk shuffle order seconds colored lines groups colors gfuel t l,
  regions lines groups -> groups <> [] -> NoDup colors -> (forall a c, In c colors -> exists s, colored a c = Ok s) ->
  shuffles shuffle -> (forall ps, Permutation (order ps) ps) -> (List.length (concat lines) < gfuel)%nat ->
  (exists fuel out, ascii_demo clk shuffle fuel gfuel order seconds colored false lines colors t l = Some (Ok out)) /\
  forall fuel r, ascii_demo clk shuffle fuel gfuel order seconds colored false lines colors t l = Some r ->
    exists out, r = Ok out /\ SpecPrint.reports (draws_map (fun a c => match colored a c with Ok s => s | Err _ => "" end)) (map_colouring lines groups colors) t
      (match l with Solver.LNone => Solver.LNum 1 | _ => l end) out.
Proof. exact ascii_program. Qed.
Print Assumptions C78_map_partial.

Example C78_case :
  ascii_demo (fun _ => 0) (fun l => l) 1000 100 (@rev point) str_int (fun a c => Ok ("<" ++ c ++ ">" ++ String a "")%string) false
    [list_ascii_of_string "aab"; list_ascii_of_string "c."] ["red"; "blue"] LNone LNone =
  Some (Ok [String "010" "=== solution 1 ==="; ("<red>0<red>0<blue>1" ++ String "010" "<blue>2 ")%string;
            String "010" "Found 1 partial solution in 0 seconds [limit reached]"]).
Proof. vm_compute. reflexivity. Qed.

(** With the option for an input file it always fails: the file is opened twice. *)
Theorem C78_file_refuted : forall clk shuffle fuel gfuel order seconds colored lines colors t l,
  ascii_demo clk shuffle fuel gfuel order seconds colored true lines colors t l = Some (Err TypeError).
Proof. exact ascii_program_file. Qed.
Print Assumptions C78_file_refuted.
