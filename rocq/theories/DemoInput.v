(** Model of the functions called by [main] for the subcommands of src/satisfy/tool, with their
    input (the text of a file, or none), their options and [show_model]: demo_sudoku.py,
    demo_nonogram.py, demo_knapsack.py, demo_graph_labeling.py, demo_ascii_map_coloring.py,
    demo_cryptarithm.py, demo_einstein_riddle.py and demo_queens.py.
    Simplifications: as in DemoRun.v and DemoMore.v, and JSON documents whose data is not of the
    kind that the program expects (e.g. a bool where an int should be) are not modelled: the
    result is [None] then.  What was printed before an exception is dropped. *)
From Verif Require Export Json DemoRun DemoMore DemoModel.
Open Scope string_scope.
Open Scope Z_scope.

(** ** Data from JSON documents; [None] for data that is not modelled. *)
Fixpoint all_of {A} (f : json -> option A) (l : list json) : option (list A) :=
  match l with
  | [] => Some []
  | v :: l' => match f v, all_of f l' with Some a, Some r => Some (a :: r) | _, _ => None end
  end.
Definition list_of {A} (f : json -> option A) (v : json) : option (list A) :=
  match v with JList l => all_of f l | _ => None end.
Definition int_of_json (v : json) : option Z := match v with JInt n => Some n | _ => None end.
(** A cell of a sudoku schema: an int or [None]. *)
Definition cell_of_json (v : json) : option (option Z) :=
  match v with JInt n => Some (Some n) | JNull => Some None | _ => None end.
(** What should be an int: [Some None] for an object that is not one (a bool is one). *)
Definition number_of_json (v : json) : option (option Z) :=
  match v with JInt n => Some (Some n) | JBool _ => None | _ => Some None end.
(** [data[key]]; indexing something that is not a dict with a str is a [TypeError]. *)
Definition field (v : json) (key : string) : res json :=
  match v with
  | JObj d => match dget d key with Some w => Ok w | None => Err KeyError end
  | _ => Err TypeError
  end.

(** ** Sources and announcements *)
Definition lines_text (l : list string) : string := sjoin (String newline "") l.
(** The [print] for a missing input, e.g. demo_sudoku.py:70-73; [what] is the end of the first line. *)
Definition announce (what source : string) : string :=
  "No input " ++ what ++ ":" ++ String newline "" ++ source ++ String newline "".
(** What is printed and the text that is read. *)
Definition source_of (input : option string) (what default : string) : list string * string :=
  match input with None => ([announce what default], default) | Some text => ([], text) end.

(** The rest of a program, after it printed [first]. *)
Definition prints (first : list string) (r : option (res (list string))) : option (res (list string)) :=
  match r with
  | Some (Ok ls) => Some (Ok (first ++ ls)%list)
  | _ => r
  end.

(** [print_model(solver.model)] after the constructor [init], demo_utils.py:8-14; [kind x d] is
    the object with the values [d] given as the domain of [x]. *)
Definition model_domains (kind : name -> list Z -> dobj) (m : model) (x : name) : dobj :=
  match dget (m_vars m) x with Some (VVar d) => kind x d | _ => DTuple [] end.
Definition shown_model {A} (kind : name -> list Z -> dobj) (init : op A) : list string :=
  match construct init with
  | Ok (_, e) => let m := w_model (e_world e) in print_model (model_domains kind m) m
  | Err _ => []
  end.
Definition show {A} (show_model : bool) (kind : name -> list Z -> dobj) (init : op A) : list string :=
  if show_model then shown_model kind init else [].

(** ** demo_sudoku.py *)
(** [DEFAULT_SUDOKU_SOURCE], demo_sudoku.py:16-28. *)
Definition default_sudoku_source : string := lines_text
  ["";
   "[";
   "    [8, 0, 0, 0, 0, 0, 0, 0, 0],";
   "    [0, 0, 3, 6, 0, 0, 0, 0, 0],";
   "    [0, 7, 0, 0, 9, 0, 2, 0, 0],";
   "    [0, 5, 0, 0, 0, 7, 0, 0, 0],";
   "    [0, 0, 0, 0, 4, 5, 7, 0, 0],";
   "    [0, 0, 0, 1, 0, 0, 0, 3, 0],";
   "    [0, 0, 1, 0, 0, 0, 0, 6, 8],";
   "    [0, 0, 8, 5, 0, 0, 0, 1, 0],";
   "    [0, 9, 0, 0, 0, 0, 4, 0, 0]";
   "]";
   ""].
(** [sudoku], demo_sudoku.py:67-88.  The domains are sets of small ints, in increasing order. *)
Definition sudoku_main clk shuffle fuel seconds (input : option string) (timeout limit : lim) (show_model : bool) : option (res (list string)) :=
  let (first, source) := source_of input "file - using default schema" default_sudoku_source in
  match json_loads source with
  | Err ex => Some (Err ex)
  | Ok v =>
      match list_of (list_of cell_of_json) v with
      | None => None
      | Some s =>
          match print_sudoku_schema s with
          | Err ex => Some (Err ex)
          | Ok drawn =>
              prints first (prints ("=== sudoku schema ===" :: drawn)%list (prints (show show_model (fun _ d => DSet d) (sudoku_init s))
                (puzzle_demo clk shuffle fuel seconds (sudoku_init s) (sudoku_decode s)
                  (new_solver GROUPS timeout (sudoku_limit (Options None timeout limit true)) true)
                  (fun g => print_sudoku_schema (map (map Some) g)))))
          end
      end
  end.

(** ** demo_nonogram.py *)
(** [DEFAULT_NONOGRAM_SOURCE], demo_nonogram.py:21-26. *)
Definition default_nonogram_source : string := lines_text
  ["";
   "{";
   "    ""rows"": [[], [4], [6], [2, 2], [2, 2], [6], [4], [2], [2], [2], [], []],";
   "    ""columns"": [[], [9], [9], [2, 2], [2, 2], [4], [4], []]";
   "}";
   ""].
(** The program for given data, demo_nonogram.py:83-92; the domains are lists. *)
Definition nonogram_rest clk shuffle fuel seconds (first : list string) (rows cols : list (list Z)) (timeout limit : lim) (show_model : bool) :=
  prints first (prints (show show_model (fun _ d => DList d) (nonogram_init rows cols))
    (nonogram_demo clk shuffle fuel seconds rows cols timeout limit)).
(** [nonogram], demo_nonogram.py:70-92, with NonogramSolver.__init__, nonogram.py:20-21;
    [input_image] is the text of an image file. *)
Definition nonogram_main clk shuffle fuel seconds (input_file input_image : option string) (timeout limit : lim) (show_model : bool) : option (res (list string)) :=
  match input_file, input_image with
  | None, Some image =>
      match image_to_nonogram image ZEROES with
      | Err ex => Some (Err ex)
      | Ok (rows, cols) => nonogram_rest clk shuffle fuel seconds [] rows cols timeout limit show_model
      end
  | _, _ =>
      let (first, source) := source_of input_file "file - using default nonogram" default_nonogram_source in
      match (let! v := json_loads source in let! r := field v "rows" in let! c := field v "columns" in Ok (r, c)) with
      | Err ex => Some (Err ex)
      | Ok (r, c) =>
          match list_of (list_of int_of_json) r, list_of (list_of int_of_json) c with
          | Some rows, Some cols => nonogram_rest clk shuffle fuel seconds first rows cols timeout limit show_model
          | _, _ => None
          end
      end
  end.

(** ** demo_knapsack.py *)
(** [DEFAULT_KNAPSACK_SOURCE], demo_knapsack.py:16-38. *)
Definition default_knapsack_source : string := lines_text
  ["";
   "{";
   "    ""capacities"": [8, 6],";
   "    ""values"": [";
   "        10,";
   "        12,";
   "        20,";
   "        23,";
   "        15,";
   "        14,";
   "        16";
   "    ],";
   "    ""weights"": [";
   "        [1, 1],";
   "        [2, 1],";
   "        [5, 3],";
   "        [4, 4],";
   "        [2, 2],";
   "        [2, 2],";
   "        [2, 3]";
   "    ]";
   "}";
   ""].
(** [knapsack], demo_knapsack.py:45-84; the domains are tuples (model.py:90). *)
Definition knapsack_main clk shuffle fuel seconds (input : option string) (timeout limit : lim) (show_model : bool) : option (res (list string)) :=
  let (first, source) := source_of input "file - using default data" default_knapsack_source in
  match (let! data := json_loads source in let! v := field data "values" in let! c := field data "capacities" in let! w := field data "weights" in Ok (v, c, w)) with
  | Err ex => Some (Err ex)
  | Ok (v, c, w) =>
      match list_of number_of_json v, list_of number_of_json c, list_of (list_of number_of_json) w with
      | Some values, Some capacities, Some weights =>
          prints first (prints (show show_model (fun _ d => DTuple d) (knapsack_init values capacities (Weights weights true)))
            (knapsack_demo clk shuffle fuel seconds values capacities weights timeout limit))
      | _, _, _ => None
      end
  end.

(** ** demo_graph_labeling.py *)
(** [DEFAULT_GRAPH_LABELING_SOURCE], demo_graph_labeling.py:18-75. *)
Definition default_graph_labeling_source : string := lines_text
  ["";
   "{";
   "    ""directed"": false,";
   "    ""graph"": {},";
   "    ""links"": [";
   "        {";
   "            ""source"": ""node1"",";
   "            ""target"": ""node3""";
   "        },";
   "        {";
   "            ""source"": ""node1"",";
   "            ""target"": ""node2""";
   "        },";
   "        {";
   "            ""source"": ""node1"",";
   "            ""target"": ""node0""";
   "        },";
   "        {";
   "            ""source"": ""node3"",";
   "            ""target"": ""node0""";
   "        },";
   "        {";
   "            ""source"": ""node3"",";
   "            ""target"": ""node4""";
   "        },";
   "        {";
   "            ""source"": ""node2"",";
   "            ""target"": ""node0""";
   "        },";
   "        {";
   "            ""source"": ""node2"",";
   "            ""target"": ""node4""";
   "        },";
   "        {";
   "            ""source"": ""node0"",";
   "            ""target"": ""node4""";
   "        }";
   "    ],";
   "    ""multigraph"": false,";
   "    ""nodes"": [";
   "        {";
   "            ""id"": ""node1""";
   "        },";
   "        {";
   "            ""id"": ""node3""";
   "        },";
   "        {";
   "            ""id"": ""node2""";
   "        },";
   "        {";
   "            ""id"": ""node0""";
   "        },";
   "        {";
   "            ""id"": ""node4""";
   "        }";
   "    ]";
   "}";
   ""].
(** networkx: [Graph.add_node], [Graph.add_edge]; a graph is the dict of the neighbours of each
    node. *)
Definition add_node (g : dict (list string)) (x : string) : dict (list string) :=
  match dget g x with Some _ => g | None => dset g x [] end.
Definition neighbor (g : dict (list string)) (x y : string) : dict (list string) :=
  match dget g x with
  | Some ns => dset g x (if existsb (String.eqb y) ns then ns else ns ++ [y])%list
  | None => g
  end.
Definition add_edge (g : dict (list string)) (e : string * string) : dict (list string) :=
  let g1 := add_node (add_node g (fst e)) (snd e) in
  neighbor (neighbor g1 (fst e) (snd e)) (snd e) (fst e).
(** [Graph.edges()]: for each node, the neighbours that were not seen as nodes before. *)
Fixpoint edges_of (seen : list string) (g : dict (list string)) : list (string * string) :=
  match g with
  | [] => []
  | (x, ns) :: g' => (map (pair x) (filter (fun y => negb (existsb (String.eqb y) seen)) ns) ++ edges_of (x :: seen) g')%list
  end.
(** [networkx.node_link_graph]: the nodes and edges of a document that says that it is neither
    directed nor a multigraph, whose nodes are strings. *)
Definition node_of_json (v : json) : option string :=
  match v with JObj d => match dget d "id" with Some (JStr x) => Some x | _ => None end | _ => None end.
Definition link_of_json (v : json) : option (string * string) :=
  match v with
  | JObj d => match dget d "source", dget d "target" with Some (JStr x), Some (JStr y) => Some (x, y) | _, _ => None end
  | _ => None
  end.
Definition node_link_graph (v : json) : option (list string * list (string * string)) :=
  match v with
  | JObj d =>
      match dget d "multigraph", dget d "directed", dget d "nodes", dget d "links" with
      | Some (JBool false), Some (JBool false), Some ns, Some ls =>
          match list_of node_of_json ns, list_of link_of_json ls with
          | Some nodes, Some links =>
              let g := fold_left add_edge links (fold_left add_node nodes []) in
              Some (dkeys g, edges_of [] g)
          | _, _ => None
          end
      | _, _, _, _ => None
      end
  | _ => None
  end.
(** [graph_labeling], demo_graph_labeling.py:82-104; the domains are tuples. *)
Definition graph_main clk shuffle fuel seconds (input : option string) (labels : list string) (timeout limit : lim) (show_model : bool) : option (res (list string)) :=
  let (first, source) := source_of input "file - using default data" default_graph_labeling_source in
  match json_loads source with
  | Err ex => Some (Err ex)
  | Ok v =>
      match node_link_graph v with
      | None => None
      | Some (nodes, edges) =>
          prints first (prints (show show_model (fun _ d => DTuple d) (graph_init nodes edges labels))
            (graph_demo clk shuffle fuel seconds nodes edges labels timeout limit))
      end
  end.

(** ** demo_ascii_map_coloring.py *)
(** [DEFAULT_ASCII_MAP_COLORING_SOURCE], demo_ascii_map_coloring.py:14-46. *)
Definition default_map_source : string := lines_text
  ["           0001111111144";
   "        000011111111114433     33";
   "      000111111111111111333333333333332222 ";
   "    22222111111111111111333333333333333322222";
   "   2222333311111111111111333333333333333222222";
   "   22223333666111111111111333333333333332222222";
   "  3333333336666611111111111FFFFFHHHHHH3222222222";
   " 333333333366666666611111FFFFFFHHHHHHHHZZZZZZZZZZ ";
   "33333333333666666666FFFFFFFFFFFHHHHHHHHZZZZZZZZZZYYY  XXXXX";
   "4444446666666666666FFFFFFFFFFFHHHHHHHHHZZZZZZZZZYYYYXXXXXXX";
   " 444446666666BBCDDDEEFFFFFFFFFHHHHHHHHHZZZZZZZZYYYYYYYXXXX";
   "  5556666666ABBBCDDEEEEEEEEEEEGHHHHHHHHIZZZZZZZZYYYYXXXX";
   "   6667888AAABBBCDDDEEEEEEEEEGGGHHHHHHHIIZZZZZZYYYYXXX ";
   "    7779999AABBBBCDDEEEEEGGGGGGGHHHIIIIIIZZZZVVVYYXX";
   "        999AABBBBCDDEEGGGGGGGGIIIIIIIIIII0UUUUVVVVV";
   "                      GGGGGGGIIIIIIIIII11UUUUUVVVV";
   "                     KKKLLLLJJIIIIIIJJJUUUUUUUUVV";
   "                      KKLLLJJJJJJJJJJJJUUUUUUUUV";
   "                       KLLJJJJJJJJJJJJJUUUUUUUU";
   "                       MMMMMJJJJJJJJJJJUUUUUUUU";
   "                       MMMMMMMJJJJJJJJTTTTTUUUU";
   "                       MMMMMMMMMMJJJJJTTTTTSSSS";
   "                       MMMMMMMMMMMJTTTTTTSSSSSS";
   "                      MMMMMMMMMMMTTTTTSSSSSSSS";
   "                       NNNNNNNNNNNQQQQQSSSSS ";
   "                        NNNNNNQQQQQQQOOOSSS";
   "                         NNNNNQQQOOOOOOOORR";
   "                         NNNNNOOOOOOOOPPOR";
   "                          NNNNOOOOOOOOOO";
   "                           OOOOOOOOOOO ";
   "                             OOOOO    ";
   ""].
(** [ascii_map_coloring], demo_ascii_map_coloring.py:53-74; the map is split into lines by
    AsciiMapColoringSolver.__init__, ascii_map_coloring.py:15-16. *)
Definition ascii_main clk shuffle (fuel gfuel : nat) order seconds colored (input : option string) colors (timeout limit : lim) (show_model : bool)
  : option (res (list string)) :=
  match input with
  | Some _ => Some (Err TypeError)
  | None =>
      let lines := split_lines default_map_source in
      let shown := match ascii_groups gfuel order lines with
        | Some (Ok groups) => show show_model (fun _ d => DTuple d) (graph_init (map_nodes groups) (map_edges groups) colors)
        | _ => []
        end in
      prints [announce "file - using default data" default_map_source] (prints shown
        (ascii_demo clk shuffle fuel gfuel order seconds colored false lines colors timeout limit))
  end.

(** ** demo_cryptarithm.py *)
(** [DEFAULT_CRYPTARITHM_SOURCE], demo_cryptarithm.py:13. *)
Definition default_cryptarithm_source : string := "SEND+MORE==MONEY".
(** [cryptarithm], demo_cryptarithm.py:28-48; the domains are tuples. *)
Definition cryptarithm_main clk shuffle fuel seconds order (input : option string) (avoid : bool) (timeout limit : lim) (show_model : bool) : option (res (list string)) :=
  let source := match input with None => default_cryptarithm_source | Some s => s end in
  let first := match input with None => announce "source - using default cryptarithm example" source | Some s => s end in
  prints [first] (prints (show show_model (fun _ d => DTuple d) (cry_init order source avoid))
    (puzzle_demo clk shuffle fuel seconds (cry_init order source avoid) cry_decode
      (options_solver MIN_BOUND (Options None timeout limit true)) (fun solution => print_cryptarithm_solution solution source))).

(** ** demo_einstein_riddle.py *)
(** [__statements__], einstein_riddle.py:9-25. *)
Definition statements : list string :=
  ["The English man lives in the red house.";
   "The Swede has a dog.";
   "The Dane drinks tea.";
   "The green house is immediately to the left of the white house.";
   "They drink coffee in the green house.";
   "The man who smokes Pall Mall has birds.";
   "In the yellow house they smoke Dunhill.";
   "In the middle house they drink milk.";
   "The Norwegian lives in the first house.";
   "The man who smokes Blend lives in the house next to the house with cats.";
   "In a house next to the house where they have a horse, they smoke Dunhill.";
   "The man who smokes Blue Master drinks beer.";
   "The German smokes Prince.";
   "The Norwegian lives next to the blue house.";
   "They drink water in a house next to the house where they smoke Blend."].
(** ["{:>2d}. {}".format(i, statement)]. *)
Definition pad2 (i : nat) : string := String.concat "" (repeat " " (2 - String.length (str_nat i))) ++ str_nat i.
(** [riddle], einstein_riddle.py:127-133. *)
Definition riddle : string := lines_text
  (map (fun p => (pad2 (fst p) ++ ". " ++ snd p)%string) (enumerate statements) ++
   [""; "Who owns the zebra?"; "(see http://rosettacode.org/wiki/Zebra_puzzle)"])%list.
(** [einstein], demo_einstein_riddle.py:30-42; the domains are a tuple of houses and, for the
    differences, lists (einstein_riddle.py:36, 98-116). *)
Definition einstein_kind (_ : name) (d : list Z) : dobj := if (length d =? 2)%nat then DList d else DTuple d.
Definition einstein_main clk shuffle fuel seconds (timeout limit : lim) (show_model : bool) : option (res (list string)) :=
  prints [riddle] (prints (show show_model einstein_kind einstein_init) (einstein_demo clk shuffle fuel seconds timeout limit)).

(** ** demo_queens.py *)
(** [queens], demo_queens.py:38-49; the domains are ranges (queens.py:17-24). *)
Definition range_of (_ : name) (d : list Z) : dobj := DRange (hd 0 d) (last d (-1) + 1).
Definition queens_main clk shuffle fuel seconds (n : nat) (timeout limit : lim) (show_model : bool) : option (res (list string)) :=
  prints (show show_model range_of (queens_init n)) (queens_demo clk shuffle fuel seconds n timeout limit).
