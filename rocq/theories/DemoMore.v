(** Model of the demo programs demo_knapsack.py, demo_graph_labeling.py and
    demo_ascii_map_coloring.py of src/satisfy/tool, called without [show_model].
    Simplifications as in DemoRun.v; nodes, labels and colours are ASCII strings. *)
From Verif Require Export DemoRun Knapsack Graph AsciiMap.
Open Scope string_scope.
Open Scope Z_scope.

(** ** demo_knapsack.py *)

(** [str] of a bool and of a tuple of ints. *)
Definition str_bool (b : bool) : string := if b then "True" else "False".
Definition str_tuple (l : list Z) : string :=
  match l with
  | [a] => "(" ++ str_int a ++ ",)"
  | _ => "(" ++ sjoin ", " (map str_int l) ++ ")"
  end.
(** demo_knapsack.py:74-81; [repr] of a text made of ["X"], ["_"] and blanks adds quotes. *)
Definition print_knapsack (r : ksolution) : list string := (
  ["=== optimal_solution ==="; ("is_optimal: " ++ str_bool (ks_optimal r))%string] ++
  match ks_solution r, ks_value r, ks_weights r with
  | Some x, Some v, Some w =>
      ["solution: " ++ "'" ++ solution_string x ++ "'"; "value: " ++ str_int v; "weights: " ++ str_tuple w]%string
  | _, _, _ => ["no solution found"]%string
  end)%list.
(** [knapsack], demo_knapsack.py:43-83: the data of the JSON file is given; the weights are a
    list of lists. *)
Definition knapsack_demo clk shuffle fuel seconds (values capacities : list (option Z)) (weights : list (list (option Z)))
           (timeout limit : lim) : option (res (list string)) :=
  match construct (knapsack_init values capacities (Weights weights true)) with
  | Err ex => Some (Err ex)
  | Ok (k, e) =>
      match knapsack_call clk shuffle fuel e (options_solver GROUPS (Options None timeout limit true)) k with
      | None => None
      | Some (_, Err ex) => Some (Err ex)
      | Some (e', Ok r) => Some (Ok (print_knapsack r ++ [print_optimization_stats seconds (get_stats e') (Some (ks_optimal r))])%list)
      end
  end.

(** ** demo_graph_labeling.py *)

(** [repr] of a str with ASCII characters: Python's unicode_repr. *)
Definition quote_of (s : string) : ascii :=
  if existsb (Ascii.eqb "'") (list_ascii_of_string s) && negb (existsb (Ascii.eqb """") (list_ascii_of_string s))
  then """"%char else "'"%char.
Definition hex_digit (n : nat) : ascii := nth n (list_ascii_of_string "0123456789abcdef") "0"%char.
Definition repr_char (q c : ascii) : string :=
  let n := nat_of_ascii c in
  if Ascii.eqb c q || Ascii.eqb c "\" then String "\" (String c "")
  else if Ascii.eqb c "009" then "\t"
  else if Ascii.eqb c "010" then "\n"
  else if Ascii.eqb c "013" then "\r"
  else if (n <? 32)%nat || (n =? 127)%nat then String "\" (String "x" (String (hex_digit (n / 16)) (String (hex_digit (n mod 16)) "")))
  else String c "".
Definition py_repr (s : string) : string :=
  let q := quote_of s in
  String q (String.concat "" (map (repr_char q) (list_ascii_of_string s)) ++ String q "").
(** [str] of a dict of strs. *)
Definition str_dict (d : list (string * string)) : string :=
  "{" ++ sjoin ", " (map (fun p => py_repr (fst p) ++ ": " ++ py_repr (snd p)) d) ++ "}".
(** [graph_labeling], demo_graph_labeling.py:76-100; the graph is given. *)
Definition graph_demo clk shuffle fuel seconds nodes edges labels (timeout limit : lim) : option (res (list string)) :=
  puzzle_demo clk shuffle fuel seconds (graph_init nodes edges labels) (graph_decode labels)
    (options_solver ORDERED (Options None timeout limit true)) (fun solution => Ok [str_dict solution]).

(** ** demo_ascii_map_coloring.py *)

(** ['\n'.join(''.join(row) for row in ascii_map)], demo_ascii_map_coloring.py:76;
    [colored] is termcolor.colored, which raises for a colour it does not know (in the code,
    before the printing). *)
Definition print_map (colored : ascii -> string -> res string) (m : list (list mcell)) : res string :=
  let! rows := mapM (fun row =>
    let! cells := mapM (fun c => match c with Some (a, color) => colored a color | None => Ok " " end) row in
    Ok (String.concat "" cells)) m in
  Ok (sjoin (String newline "") rows).
(** [ascii_map_coloring], demo_ascii_map_coloring.py:52-77, with the map of the default source:
    the given lines.  With an input file, [open] is applied to an open file (63). *)
Definition ascii_demo clk shuffle (fuel gfuel : nat) order seconds colored (input_file : bool) (lines : grid) colors (timeout limit : lim)
  : option (res (list string)) :=
  if input_file then Some (Err TypeError)
  else match ascii_groups gfuel order lines with
  | None => None
  | Some (Err ex) => Some (Err ex)
  | Some (Ok groups) =>
      puzzle_demo clk shuffle fuel seconds (graph_init (map_nodes groups) (map_edges groups) colors)
        (fun variables s => let! sol := graph_decode colors variables s in paint order sol 0 groups (blank_map lines))
        (options_solver ORDERED (ascii_options (Options None timeout limit true)))
        (fun m => let! text := print_map colored m in Ok [text])
  end.
