(** Model of src/satisfy/graph_labeling.py (GraphLabelingSolver).
    Simplifications: nodes and labels are strings (the code uses them only as keys and
    values of dicts); [graph.nodes()] and [graph.edges()] are given as lists. *)
From Verif Require Export Puzzle Queens.
Open Scope string_scope.
Open Scope Z_scope.

(** graph_labeling.py:19-20: [variables] grows by one entry per node. *)
Fixpoint graph_nodes (label_ids : list Z) (nodes : list string) (variables : dict name) : op (dict name) :=
  match nodes with
  | [] => op_ret variables
  | node :: nodes' =>
      do! x := int_variable label_ids (name1 "n_" (length variables)) in
      graph_nodes label_ids nodes' (dset variables node x)
  end.

(** [variables[node]]: KeyError if missing. *)
Definition op_item {A} (d : dict A) (k : string) : op A :=
  match dget d k with Some a => op_ret a | None => op_raise KeyError end.

(** [GraphLabelingSolver.__init__], graph_labeling.py:10-23; the object is
    [self._variables].  The keys of [self._labels] are 0, 1, ... *)
Definition graph_init (nodes : list string) (edges : list (string * string)) (labels : list string) : op (dict name) :=
  do! variables := graph_nodes (zrange 0 (Z.of_nat (length labels))) nodes [] in
  do! _ := op_for (fun edge : string * string =>
      do! x := op_item variables (fst edge) in
      do! y := op_item variables (snd edge) in
      add_formula (FBin UNe (FVar x) (FVar y))) edges in
  op_ret variables.

(** [labels[v]]: KeyError if [v] is not a label id. *)
Definition get_label (labels : list string) (v : Z) : res string :=
  if v <? 0 then Err KeyError
  else match nth_error labels (Z.to_nat v) with Some l => Ok l | None => Err KeyError end.

(** [__iter__], graph_labeling.py:29-32: the dict [node_labels], in insertion order. *)
Definition graph_decode (labels : list string) (variables : dict name) (s : subst) : res (list (string * string)) :=
  mapM (fun p : string * name =>
    let! v := get_item s (snd p) in
    let! l := get_label labels v in
    Ok (fst p, l)) variables.

(** [list(GraphLabelingSolver(graph, labels, **options))]. *)
Definition graph_run clk shuffle fuel nodes edges labels (o : options) :=
  puzzle_run clk shuffle fuel (graph_init nodes edges labels) (graph_decode labels) (options_solver ORDERED o).
