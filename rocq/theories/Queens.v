(** Model of src/satisfy/tool/queens.py (QueensSolver).
    Simplification: [board_size] is a natural number (a negative one behaves like 0). *)
From Verif Require Export Puzzle.
Open Scope string_scope.
Open Scope Z_scope.

(** queens.py:24-29: the two diagonal variables of column [c], in row loop [r]. *)
Definition queens_diagonals (n r : nat) (queens : list name) (c : nat) : op (name * name) :=
  let N := Z.of_nat n in
  do! v := int_variable (zrange 0 (2 * N + 1)) (name2 "diag_ul_br_" r c) in
  do! q := op_nth queens c in
  do! _ := add_formula (FBin UEq (FVar v) (FBin UAdd (FVar q) (FInt (Z.of_nat c)))) in
  do! v' := int_variable (zrange (- N) (N + 1)) (name2 "diag_ur_bl_" r c) in
  do! q' := op_nth queens c in
  do! _ := add_formula (FBin UEq (FVar v') (FBin USub (FVar q') (FInt (Z.of_nat c)))) in
  op_ret (v, v').

(** [QueensSolver.__init__], queens.py:12-34; the object is [self._queens]. *)
Definition queens_init (n : nat) : op (list name) :=
  do! queens := op_for (fun r => int_variable (zrange 0 (Z.of_nat n)) (name1 "q_" r)) (seq 0 n) in
  do! _ := add_all_different_constraint queens in
  do! _ := op_for (fun r =>
      do! diags := op_for (queens_diagonals n r queens) (seq 0 n) in
      do! _ := add_all_different_constraint (map fst diags) in
      add_all_different_constraint (map snd diags)) (seq 0 n) in
  op_ret queens.

(** [row[v] = 1]; a negative index counts from the end. *)
Fixpoint list_set {A} (l : list A) (i : nat) (a : A) : list A :=
  match l, i with
  | [], _ => []
  | _ :: l', O => a :: l'
  | b :: l', S i' => b :: list_set l' i' a
  end.
Definition py_setitem {A} (l : list A) (v : Z) (a : A) : res (list A) :=
  let i := if v <? 0 then v + Z.of_nat (length l) else v in
  if (0 <=? i) && (i <? Z.of_nat (length l)) then Ok (list_set l (Z.to_nat i) a) else Err IndexError.

(** [solution[x]]: KeyError if missing. *)
Definition get_item (s : subst) (x : name) : res Z :=
  match dget s x with Some v => Ok v | None => Err KeyError end.

(** [__iter__], queens.py:41-45: the rows [board[r]], [board[r+1]], ... and the queens
    that are left. *)
Fixpoint place_queens (s : subst) (rows : list (list Z)) (queens : list name) : res (list (list Z)) :=
  match queens, rows with
  | [], _ => Ok rows
  | _ :: _, [] => Err IndexError
  | q :: queens', row :: rows' =>
      let! v := get_item s q in
      let! row' := py_setitem row v 1 in
      let! rows'' := place_queens s rows' queens' in
      Ok (row' :: rows'')
  end.
Definition queens_decode (n : nat) (queens : list name) (s : subst) : res (list (list Z)) :=
  place_queens s (repeat (repeat 0 n) n) queens.

(** [list(QueensSolver(n, **options))]. *)
Definition queens_run clk shuffle fuel (n : nat) (o : options) :=
  puzzle_run clk shuffle fuel (queens_init n) (queens_decode n) (options_solver GROUPS o).
