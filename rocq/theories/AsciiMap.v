(** Model of src/satisfy/tool/ascii_map_coloring.py (AsciiMapColoringSolver).
    Simplifications: the map is given by its lines, or by an ASCII string that is split; group
    numbers, which are the nodes of the graph, are written as strings; networkx is taken to
    return nodes and edges in the order of insertion; [termcolor.colored(x, c)] is the pair
    (x, c).  The order in which a Python set of positions is iterated is a parameter
    ([order]) of the model. *)
From Verif Require Export Graph.
From Coq Require Import Ascii.
Open Scope string_scope.
Open Scope Z_scope.

Definition grid := list (list ascii).

(** [ascii_map.split('\n')], ascii_map_coloring.py:15-16. *)
Fixpoint split_lines (s : string) : grid :=
  match s with
  | "" => [[]]
  | String c s' =>
      if Ascii.eqb c newline then [] :: split_lines s'
      else match split_lines s' with l :: ls => (c :: l) :: ls | [] => [[c]] end
  end.

Definition point : Type := (Z * Z)%type.
Definition pos_eqb (p q : point) : bool := (fst p =? fst q) && (snd p =? snd q).
Definition pmem (p : point) (l : list point) : bool := existsb (pos_eqb p) l.
(** [s.add(p)] for a set of positions. *)
Definition padd (s : list point) (p : point) : list point := if pmem p s then s else (s ++ [p])%list.

(** OFFSETS, ascii_map_coloring.py:18-27. *)
Definition OFFSETS : list point := [(-1, -1); (-1, 0); (-1, 1); (0, -1); (0, 1); (1, -1); (1, 0); (1, 1)].
Definition move_by (p off : point) : point := (fst p + fst off, snd p + snd off).

(** [l[v]]; a negative index counts from the end. *)
Definition py_getitem {A} (l : list A) (v : Z) : res A :=
  let i := if v <? 0 then v + Z.of_nat (length l) else v in
  if i <? 0 then Err IndexError
  else match nth_error l (Z.to_nat i) with Some a => Ok a | None => Err IndexError end.

(** [rows[r][c]] and [rows[r][c] = v]. *)
Definition get_cell {A} (rows : list (list A)) (p : point) : res A :=
  let! row := py_getitem rows (fst p) in py_getitem row (snd p).
Definition set_cell {A} (rows : list (list A)) (p : point) (v : A) : res (list (list A)) :=
  let! row := py_getitem rows (fst p) in
  let! row' := py_setitem row (snd p) v in
  py_setitem rows (fst p) row'.

(** The inner loop over the offsets (40-45). *)
Definition try_offset (limits : Z * Z) (group : list point) (p : point) (new_positions : list point) (off : point) : list point :=
  let q := move_by p off in
  if (0 <=? fst q) && (fst q <? fst limits) && ((0 <=? snd q) && (snd q <? snd limits)) then
    if pmem q group then new_positions else padd new_positions q
  else new_positions.

(** The loop over [positions] (36-45). *)
Fixpoint sweep (value : ascii) (limits : Z * Z) (positions : list point) (rows : grid) (group new_positions : list point)
  : res (grid * list point * list point) :=
  match positions with
  | [] => Ok (rows, group, new_positions)
  | p :: ps =>
      let! v := get_cell rows p in
      if Ascii.eqb v value then
        let! rows' := set_cell rows p "."%char in
        let group' := padd group p in
        sweep value limits ps rows' group' (fold_left (try_offset limits group' p) OFFSETS new_positions)
      else sweep value limits ps rows group new_positions
  end.

(** The [while] loop of search_and_cancel_group (34-46). *)
Fixpoint search (fuel : nat) (order : list point -> list point) (value : ascii) (limits : Z * Z)
         (positions : list point) (rows : grid) (group : list point) : option (res (grid * list point)) :=
  match positions with
  | [] => Some (Ok (rows, group))
  | _ =>
      match fuel with
      | O => None
      | S f =>
          match sweep value limits (order positions) rows group [] with
          | Err ex => Some (Err ex)
          | Ok (rows', group', new_positions) => search f order value limits new_positions rows' group'
          end
      end
  end.

(** [for r, c in itertools.product(...)] up to the first cell that is not [' '] or ['.'] (60-62). *)
Fixpoint find_cell (rows : grid) (ps : list point) : res (option (point * ascii)) :=
  match ps with
  | [] => Ok None
  | p :: ps' =>
      let! v := get_cell rows p in
      if Ascii.eqb v " " || Ascii.eqb v "." then find_cell rows ps' else Ok (Some (p, v))
  end.
Definition product (r_start num_rows num_cols : Z) : list point :=
  flat_map (fun r => map (fun c => (r, c)) (zrange 0 num_cols)) (zrange r_start num_rows).

(** [while True] (59-70). *)
Fixpoint groups_loop (n fuel : nat) (order : list point -> list point) (limits : Z * Z) (r_start : Z) (rows : grid)
         (groups : list (list point)) : option (res (list (list point))) :=
  match n with
  | O => None
  | S n' =>
      match find_cell rows (product r_start (fst limits) (snd limits)) with
      | Err ex => Some (Err ex)
      | Ok None => Some (Ok groups)
      | Ok (Some (p, value)) =>
          match search fuel order value limits [p] rows [] with
          | None => None
          | Some (Err ex) => Some (Err ex)
          | Some (Ok (rows', group)) => groups_loop n' fuel order limits (fst p) rows' (groups ++ [group])%list
          end
      end
  end.

(** Lines 49-70; [fuel] bounds the number of iterations of the [while] loops.
    [max()] of nothing is a ValueError. *)
Definition ascii_groups (fuel : nat) (order : list point -> list point) (lines : grid) : option (res (list (list point))) :=
  match lines with
  | [] => Some (Err ValueError)
  | _ =>
      let num_cols := fold_left Nat.max (map (@length ascii) lines) O in
      let rows := map (fun row => (row ++ repeat " "%char (num_cols - length row))%list) lines in
      groups_loop fuel fuel order (Z.of_nat (length rows), Z.of_nat num_cols) 0 rows []
  end.

(** The edges of the graph, in the order of their insertion (73-82). *)
Definition group_edges (groups : list (list point)) : list (nat * nat) :=
  flat_map (fun g : nat * list point =>
    let neighbors := flat_map (fun p => map (move_by p) OFFSETS) (snd g) in
    flat_map (fun h : nat * list point =>
      if existsb (fun p => pmem p neighbors) (snd h) then [(fst g, (fst g + 1 + fst h)%nat)] else [])
      (combine (seq 0 (length groups)) (skipn (fst g + 1) groups)))
    (combine (seq 0 (length groups)) (removelast groups)).

Definition map_nodes (groups : list (list point)) : list string := map str_nat (seq 0 (length groups)).
Definition map_edges (groups : list (list point)) : list (string * string) :=
  map (fun e => (str_nat (fst e), str_nat (snd e))) (group_edges groups).

(** [if args.get('limit', None) is None: args['limit'] = 1] (85-86). *)
Definition ascii_options (o : options) : options :=
  Options (o_policy o) (o_timeout o) (match o_limit o with LNone => Solver.LNum 1 | l => l end) (o_compile o).

(** A cell of a result: a blank (None) or a coloured character. *)
Definition mcell : Type := option (ascii * string).

Definition glabels : list ascii := list_ascii_of_string "0123456789ABCDEFGHIJKLMNOPQRSTUVWXYZ".
Definition glabel (gid : nat) : ascii := nth (gid mod length glabels) glabels " "%char.

Fixpoint set_cells (rows : list (list mcell)) (ps : list point) (v : mcell) : res (list (list mcell)) :=
  match ps with
  | [] => Ok rows
  | p :: ps' => let! rows' := set_cell rows p v in set_cells rows' ps' v
  end.

(** [__iter__] (93-106). *)
Fixpoint paint (order : list point -> list point) (sol : list (string * string)) (gid : nat) (groups : list (list point))
         (m : list (list mcell)) : res (list (list mcell)) :=
  match groups with
  | [] => Ok m
  | g :: groups' =>
      let! color := (match dget sol (str_nat gid) with Some c => Ok c | None => Err KeyError end) in
      let! m' := set_cells m (order g) (Some (glabel gid, color)) in
      paint order sol (S gid) groups' m'
  end.
Definition blank_map (lines : grid) : list (list mcell) := map (fun row => map (fun _ => None) row) lines.

(** [list(AsciiMapColoringSolver(ascii_map, colors, **options))]; [gfuel] for the search of the
    groups, [fuel] for the enumeration. *)
Definition ascii_run clk shuffle (fuel gfuel : nat) (order : list point -> list point) (lines : grid) (colors : list string) (o : options) :=
  match ascii_groups gfuel order lines with
  | None => None
  | Some (Err ex) => Some ([], Some ex, None)
  | Some (Ok groups) =>
      match graph_run clk shuffle fuel (map_nodes groups) (map_edges groups) colors (ascii_options o) with
      | None => None
      | Some (sols, r, i) =>
          match mapM (fun sol => paint order sol 0 groups (blank_map lines)) sols with
          | Ok ms => Some (ms, r, i)
          | Err ex => Some ([], Some ex, i)
          end
      end
  end.
