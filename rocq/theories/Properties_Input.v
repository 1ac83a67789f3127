(** Property theorems about the input of the demo programs (C83). *)
From Verif Require Import DemoInput SpecJson JsonFacts SpecInput SpecGraph InputFacts.
Open Scope string_scope.
Open Scope list_scope.
Open Scope Z_scope.

(** C83: [json.loads] returns a value exactly for the texts of the JSON language (with Python's
    additional constants), the one that the text denotes, and raises [ValueError] for the others;
    a text denotes at most one value. *)
Theorem C83_json : forall s v, json_loads s = Ok v <-> json_text s v.
Proof. exact loads_iff. Qed.
Print Assumptions C83_json.
Theorem C83_json_error : forall s, json_loads s = Err ValueError <-> forall v, ~ json_text s v.
Proof. exact loads_bad. Qed.
Print Assumptions C83_json_error.
Theorem C83_json_unique : forall s v w, json_text s v -> json_text s w -> v = w.
Proof. exact text_unique. Qed.
Print Assumptions C83_json_unique.
Example C83_json_case :
  json_text " {""a"": [1, -20, 3.5e+2, null], ""b"": true, ""a"": ""\u00e9\uD83d\uDE00\n""} "
    (JObj [("a", JStr (string_of_list_ascii (map byte [195; 169; 240; 159; 152; 128; 10]))); ("b", JBool true)]) /\
  json_text "[1, -20, 3.5e+2, null]" (JList [JInt 1; JInt (-20); JFloat; JNull]) /\
  (forall v, ~ json_text "[1, 2" v) /\ (forall v, ~ json_text "[01]" v) /\ (forall v, ~ json_text "{""a"": 1,}" v).
Proof. repeat split; try (apply C83_json; vm_compute; reflexivity); apply C83_json_error; vm_compute; reflexivity. Qed.

(** C83: the sudoku program called with a file that has a schema is the program for the schema. *)
Theorem C83_sudoku : forall clk shuffle fuel seconds text s t l, json_text text (schema_json s) ->
  sudoku_main clk shuffle fuel seconds (Some text) t l false = sudoku_demo clk shuffle fuel seconds s t l.
Proof. exact sudoku_reads. Qed.
Print Assumptions C83_sudoku.
Example C83_sudoku_case : json_text "[[8, null, 0], [], [1]]" (schema_json [[Some 8; None; Some 0]; []; [Some 1]]).
Proof. apply C83_json. vm_compute. reflexivity. Qed.

(** C83: the nonogram program called with a file that has clues, or with an image. *)
Theorem C83_nonogram : forall clk shuffle fuel seconds text v rows cols image t l, json_text text v ->
  member v "rows" (rows_json rows) -> member v "columns" (rows_json cols) ->
  nonogram_main clk shuffle fuel seconds (Some text) image t l false = nonogram_demo clk shuffle fuel seconds rows cols t l.
Proof. exact nonogram_reads. Qed.
Print Assumptions C83_nonogram.
Theorem C83_image : forall clk shuffle fuel seconds image rows cols t l, image_to_nonogram image ZEROES = Ok (rows, cols) ->
  nonogram_main clk shuffle fuel seconds None (Some image) t l false = nonogram_demo clk shuffle fuel seconds rows cols t l.
Proof. exact nonogram_image. Qed.
Print Assumptions C83_image.
Example C83_nonogram_case :
  let v := JObj [("columns", rows_json [[1]; [2]]); ("name", JStr "L"); ("rows", rows_json [[1]; [2]])] in
  json_text "{""columns"":[[1],[2]], ""name"":""L"", ""rows"":[[1], [2]]}" v /\ member v "rows" (rows_json [[1]; [2]]) /\ member v "columns" (rows_json [[1]; [2]]).
Proof. split; [apply C83_json; vm_compute; reflexivity|]. split; eexists; (split; [reflexivity|]); cbn; auto. Qed.

(** C83: the knapsack program called with a file. *)
Theorem C83_knapsack : forall clk shuffle fuel seconds text v values capacities weights t l, json_text text v ->
  member v "values" (ints_json values) -> member v "capacities" (ints_json capacities) -> member v "weights" (rows_json weights) ->
  knapsack_main clk shuffle fuel seconds (Some text) t l false =
  knapsack_demo clk shuffle fuel seconds (map Some values) (map Some capacities) (map (map Some) weights) t l.
Proof. exact knapsack_reads. Qed.
Print Assumptions C83_knapsack.
Example C83_knapsack_case :
  let v := JObj [("values", ints_json [3; 4]); ("capacities", ints_json [5]); ("weights", rows_json [[2]; [3]])] in
  json_text "{""values"": [3, 4], ""capacities"": [5], ""weights"": [[2], [3]]}" v /\
  member v "values" (ints_json [3; 4]) /\ member v "capacities" (ints_json [5]) /\ member v "weights" (rows_json [[2]; [3]]).
Proof. split; [apply C83_json; vm_compute; reflexivity|]. repeat split; eexists; (split; [reflexivity|]); cbn; auto. Qed.

(** C83: the graph program called with a file that has an undirected graph: the nodes come in the
    order in which the file mentions them first, and each pair of linked nodes is one edge. *)
Theorem C83_graph : forall clk shuffle fuel seconds text v ids links labels t l, json_text text v -> node_link v ids links ->
  exists nodes edges, link_graph ids links nodes edges /\
    graph_main clk shuffle fuel seconds (Some text) labels t l false = graph_demo clk shuffle fuel seconds nodes edges labels t l.
Proof. exact graph_reads. Qed.
Print Assumptions C83_graph.
(** Nodes that are only mentioned by links, links in both directions, further members. *)
Example C83_graph_case :
  let v := JObj [("directed", JBool false); ("multigraph", JBool false); ("graph", JObj []);
    ("nodes", JList [JObj [("id", JStr "b"); ("size", JInt 3)]; JObj [("id", JStr "a")]]);
    ("links", JList [JObj [("source", JStr "a"); ("target", JStr "c")]; JObj [("source", JStr "c"); ("target", JStr "a")]; JObj [("target", JStr "a"); ("source", JStr "b")]])] in
  json_text "{""directed"": false, ""multigraph"": false, ""graph"": {}, ""nodes"": [{""id"": ""b"", ""size"": 3}, {""id"": ""a""}],
    ""links"": [{""source"": ""a"", ""target"": ""c""}, {""source"": ""c"", ""target"": ""a""}, {""target"": ""a"", ""source"": ""b""}]}" v /\
  node_link v ["b"; "a"] [("a", "c"); ("c", "a"); ("b", "a")] /\ node_link_graph v = Some (["b"; "a"; "c"], [("b", "a"); ("a", "c")]).
Proof.
  intros v. split; [apply C83_json; vm_compute; reflexivity|]. split; [|vm_compute; reflexivity].
  split; [eexists; split; [reflexivity|cbn; auto]|]. split; [eexists; split; [reflexivity|cbn; auto]|]. split.
  - exists [JObj [("id", JStr "b"); ("size", JInt 3)]; JObj [("id", JStr "a")]]. split; [eexists; split; [reflexivity|cbn; auto]|].
    constructor; [eexists; split; [reflexivity|cbn; auto]|]. constructor; [eexists; split; [reflexivity|cbn; auto]|constructor].
  - eexists. split; [eexists; split; [reflexivity|cbn; do 4 right; left; reflexivity]|].
    repeat (constructor; [split; eexists; (split; [reflexivity|cbn; auto])|]). constructor.
Qed.

(** C83: a file that is no JSON document ends each program with [ValueError]; a document that is
    no object is a [TypeError], and a missing member a [KeyError]. *)
Theorem C83_invalid : forall clk shuffle fuel seconds text image labels t l show_model, (forall v, ~ json_text text v) ->
  sudoku_main clk shuffle fuel seconds (Some text) t l show_model = Some (Err ValueError) /\
  nonogram_main clk shuffle fuel seconds (Some text) image t l show_model = Some (Err ValueError) /\
  knapsack_main clk shuffle fuel seconds (Some text) t l show_model = Some (Err ValueError) /\
  graph_main clk shuffle fuel seconds (Some text) labels t l show_model = Some (Err ValueError).
Proof. exact bad_text. Qed.
Print Assumptions C83_invalid.
Theorem C83_no_object : forall clk shuffle fuel seconds text v image t l show_model, json_text text v -> ~ (exists d, v = JObj d) ->
  nonogram_main clk shuffle fuel seconds (Some text) image t l show_model = Some (Err TypeError) /\
  knapsack_main clk shuffle fuel seconds (Some text) t l show_model = Some (Err TypeError).
Proof. exact no_object. Qed.
Print Assumptions C83_no_object.
Theorem C83_nonogram_missing : forall clk shuffle fuel seconds text v image t l show_model key, json_text text v -> (exists d, v = JObj d) ->
  In key ["rows"; "columns"] -> no_member v key ->
  nonogram_main clk shuffle fuel seconds (Some text) image t l show_model = Some (Err KeyError).
Proof. exact nonogram_missing. Qed.
Print Assumptions C83_nonogram_missing.
Theorem C83_knapsack_missing : forall clk shuffle fuel seconds text v t l show_model key, json_text text v -> (exists d, v = JObj d) ->
  In key ["values"; "capacities"; "weights"] -> no_member v key ->
  knapsack_main clk shuffle fuel seconds (Some text) t l show_model = Some (Err KeyError).
Proof. exact knapsack_missing. Qed.
Print Assumptions C83_knapsack_missing.
Example C83_missing_case :
  (forall v, ~ json_text "" v) /\ json_text "[1]" (JList [JInt 1]) /\
  json_text "{""rows"": [], ""cols"": []}" (JObj [("rows", JList []); ("cols", JList [])]) /\
  no_member (JObj [("rows", JList []); ("cols", JList [])]) "columns".
Proof.
  split; [apply C83_json_error; vm_compute; reflexivity|]. split; [apply C83_json; vm_compute; reflexivity|]. split; [apply C83_json; vm_compute; reflexivity|].
  eexists. split; [reflexivity|]. cbn. intuition discriminate.
Qed.

(** C83: without a file, the programs announce their built-in text, and go on as with a file that
    has this text. *)
Theorem C83_default : forall clk shuffle fuel seconds labels t l show_model,
  sudoku_main clk shuffle fuel seconds None t l show_model =
    preceded [announced "file - using default schema" default_sudoku_source] (sudoku_main clk shuffle fuel seconds (Some default_sudoku_source) t l show_model) /\
  nonogram_main clk shuffle fuel seconds None None t l show_model =
    preceded [announced "file - using default nonogram" default_nonogram_source] (nonogram_main clk shuffle fuel seconds (Some default_nonogram_source) None t l show_model) /\
  knapsack_main clk shuffle fuel seconds None t l show_model =
    preceded [announced "file - using default data" default_knapsack_source] (knapsack_main clk shuffle fuel seconds (Some default_knapsack_source) t l show_model) /\
  graph_main clk shuffle fuel seconds None labels t l show_model =
    preceded [announced "file - using default data" default_graph_labeling_source] (graph_main clk shuffle fuel seconds (Some default_graph_labeling_source) labels t l show_model).
Proof.
  intros clk shuffle fuel seconds labels t l b. split; [exact (sudoku_default clk shuffle fuel seconds t l b)|].
  split; [exact (nonogram_default clk shuffle fuel seconds t l b)|]. split; [exact (knapsack_default clk shuffle fuel seconds t l b)|exact (graph_default clk shuffle fuel seconds labels t l b)].
Qed.
Print Assumptions C83_default.
Theorem C83_default_cryptarithm : forall clk shuffle fuel seconds order avoid t l show_model ls,
  cryptarithm_main clk shuffle fuel seconds order None avoid t l show_model = Some (Ok (announced "source - using default cryptarithm example" "SEND+MORE==MONEY" :: ls)) <->
  cryptarithm_main clk shuffle fuel seconds order (Some "SEND+MORE==MONEY") avoid t l show_model = Some (Ok ("SEND+MORE==MONEY" :: ls)).
Proof. exact cryptarithm_default. Qed.
Print Assumptions C83_default_cryptarithm.

(** C83: the other programs: the cryptarithm is taken from the command line, the map is always
    the built-in one, the riddle is printed first. *)
Theorem C83_others : forall clk shuffle fuel seconds order source avoid gfuel morder colored colors n t l,
  cryptarithm_main clk shuffle fuel seconds order (Some source) avoid t l false = cryptarithm_demo clk shuffle fuel seconds order source avoid t l /\
  ascii_main clk shuffle fuel gfuel morder seconds colored None colors t l false =
    preceded [announced "file - using default data" default_map_source] (ascii_demo clk shuffle fuel gfuel morder seconds colored false (split_lines default_map_source) colors t l) /\
  einstein_main clk shuffle fuel seconds t l false = preceded [riddle] (einstein_demo clk shuffle fuel seconds t l) /\
  queens_main clk shuffle fuel seconds n t l false = queens_demo clk shuffle fuel seconds n t l.
Proof.
  intros clk shuffle fuel seconds order source avoid gfuel morder colored colors n t l. split; [exact (cryptarithm_reads clk shuffle fuel seconds order source avoid t l)|].
  split; [exact (ascii_reads clk shuffle fuel seconds gfuel morder colored colors t l)|]. split; [exact (einstein_reads clk shuffle fuel seconds t l)|exact (queens_reads clk shuffle fuel seconds n t l)].
Qed.
Print Assumptions C83_others.

(** C83: with a map file the program always fails, also for a map that it can colour: it
    opens the file that argparse has already opened. *)
Theorem C83_map_file : forall clk shuffle fuel seconds gfuel order colored colors t l show_model text,
  ascii_main clk shuffle fuel gfuel order seconds colored (Some text) colors t l show_model = Some (Err TypeError).
Proof. exact ascii_file. Qed.
Print Assumptions C83_map_file.

Example C83_map_file_case : exists text,
  ascii_main (fun _ => 0) (fun l => l) 1000 100 (@rev point) str_int (fun a c => Ok ("<" ++ c ++ ">" ++ String a "")%string) (Some text) (["red"; "blue"]) LNone (LNum 1) false
    = Some (Err TypeError) /\
  exists out, ascii_demo (fun _ => 0) (fun l => l) 1000 100 (@rev point) str_int (fun a c => Ok ("<" ++ c ++ ">" ++ String a "")%string) false (split_lines text) (["red"; "blue"]) LNone (LNum 1)
    = Some (Ok out).
Proof. exists "AB". split; [reflexivity|]. eexists. vm_compute. reflexivity. Qed.
(** The riddle. *)
Example C83_riddle_case : split_lines riddle = map list_ascii_of_string
  [" 0. The English man lives in the red house."; " 1. The Swede has a dog."; " 2. The Dane drinks tea.";
   " 3. The green house is immediately to the left of the white house."; " 4. They drink coffee in the green house.";
   " 5. The man who smokes Pall Mall has birds."; " 6. In the yellow house they smoke Dunhill."; " 7. In the middle house they drink milk.";
   " 8. The Norwegian lives in the first house."; " 9. The man who smokes Blend lives in the house next to the house with cats.";
   "10. In a house next to the house where they have a horse, they smoke Dunhill."; "11. The man who smokes Blue Master drinks beer.";
   "12. The German smokes Prince."; "13. The Norwegian lives next to the blue house.";
   "14. They drink water in a house next to the house where they smoke Blend."; ""; "Who owns the zebra?"; "(see http://rosettacode.org/wiki/Zebra_puzzle)"].
Proof. vm_compute. reflexivity. Qed.

(** C83: [show_model] inserts the model of the solver into the output, and changes nothing else. *)
Theorem C83_show_sudoku : forall clk shuffle fuel seconds text s first t l, json_text text (schema_json s) -> print_sudoku_schema s = Ok first ->
  shows_model (S (List.length first)) (sudoku_init s) (sudoku_main clk shuffle fuel seconds (Some text) t l false) (sudoku_main clk shuffle fuel seconds (Some text) t l true).
Proof. exact sudoku_shows. Qed.
Print Assumptions C83_show_sudoku.
Theorem C83_show_nonogram : forall clk shuffle fuel seconds text v rows cols image t l, json_text text v ->
  member v "rows" (rows_json rows) -> member v "columns" (rows_json cols) ->
  shows_model 0 (nonogram_init rows cols) (nonogram_main clk shuffle fuel seconds (Some text) image t l false) (nonogram_main clk shuffle fuel seconds (Some text) image t l true).
Proof. exact nonogram_shows. Qed.
Print Assumptions C83_show_nonogram.
Theorem C83_show_knapsack : forall clk shuffle fuel seconds text v values capacities weights t l, json_text text v ->
  member v "values" (ints_json values) -> member v "capacities" (ints_json capacities) -> member v "weights" (rows_json weights) ->
  shows_model 0 (knapsack_init (map Some values) (map Some capacities) (Weights (map (map Some) weights) true))
    (knapsack_main clk shuffle fuel seconds (Some text) t l false) (knapsack_main clk shuffle fuel seconds (Some text) t l true).
Proof. exact knapsack_shows. Qed.
Print Assumptions C83_show_knapsack.
Theorem C83_show_graph : forall clk shuffle fuel seconds text v ids links labels t l, json_text text v -> node_link v ids links ->
  exists nodes edges, link_graph ids links nodes edges /\
    shows_model 0 (graph_init nodes edges labels) (graph_main clk shuffle fuel seconds (Some text) labels t l false) (graph_main clk shuffle fuel seconds (Some text) labels t l true).
Proof. exact graph_shows. Qed.
Print Assumptions C83_show_graph.
Theorem C83_show_map : forall clk shuffle fuel seconds gfuel order colored colors groups t l, ascii_groups gfuel order (split_lines default_map_source) = Some (Ok groups) ->
  shows_model 1 (graph_init (map_nodes groups) (map_edges groups) colors)
    (ascii_main clk shuffle fuel gfuel order seconds colored None colors t l false) (ascii_main clk shuffle fuel gfuel order seconds colored None colors t l true).
Proof. exact ascii_shows. Qed.
Print Assumptions C83_show_map.
Theorem C83_show_cryptarithm : forall clk shuffle fuel seconds order input source avoid t l, source = match input with Some s => s | None => "SEND+MORE==MONEY" end ->
  shows_model 1 (cry_init order source avoid)
    (cryptarithm_main clk shuffle fuel seconds order input avoid t l false) (cryptarithm_main clk shuffle fuel seconds order input avoid t l true).
Proof. exact cryptarithm_shows. Qed.
Print Assumptions C83_show_cryptarithm.
Theorem C83_show_einstein : forall clk shuffle fuel seconds t l,
  shows_model 1 einstein_init (einstein_main clk shuffle fuel seconds t l false) (einstein_main clk shuffle fuel seconds t l true).
Proof. exact einstein_shows. Qed.
Print Assumptions C83_show_einstein.
Theorem C83_show_queens : forall clk shuffle fuel seconds n t l,
  shows_model 0 (queens_init n) (queens_main clk shuffle fuel seconds n t l false) (queens_main clk shuffle fuel seconds n t l true).
Proof. exact queens_shows. Qed.
Print Assumptions C83_show_queens.
(** Two linked nodes and two labels; the domains are shown as they were given. *)
Example C83_show_case : forall seconds, seconds 0 = "0" ->
  let run := graph_main (fun _ => 0) (fun l => l) 100 seconds (Some "{""directed"": false, ""multigraph"": false, ""nodes"": [{""id"": ""b""}], ""links"": [{""source"": ""a"", ""target"": ""b""}]}") ["r"; "g"] LNone (LNum 1) in
  exists ls, run false = Some (Ok ls) /\
  run true = Some (Ok ([String newline "=== model variables: ==="; "    0) 'n_0' domain: (0, 1)"; "    1) 'n_1' domain: (0, 1)";
    String newline "=== model constraints: ==="; "    0) (n_0 != n_1)"] ++ ls)).
Proof. intros seconds H run. eexists. split; vm_compute; reflexivity. Qed.
