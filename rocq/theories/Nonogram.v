(** Model of src/satisfy/nonogram.py (NonogramSolver, pixmap_shape, pixmap_to_nonogram).
    Simplification: the VarInfo of a variable is kept together with its name instead of
    in the dict [var_infos]; [row_vars] and [col_vars] are lists instead of dicts with
    the keys 0, 1, ... *)
From Verif Require Export Puzzle Queens.
Open Scope string_scope.
Open Scope Z_scope.

(** A variable and its VarInfo, nonogram.py:12. *)
Record run_var : Type := RunVar { rv_name : name; rv_size : Z; rv_start : Z; rv_end : Z }.

Definition zsum (l : list Z) : Z := fold_left Z.add l 0.

(** The loop over the runs of a row or column, nonogram.py:33-46 and 55-68: [start],
    [rem_size], the previous variable and the remaining runs, from run number [k]. *)
Fixpoint line_loop (mk : nat -> name) (num : Z) (k : nat) (start rem : Z) (prev : option run_var) (clue : list Z)
  : op (list run_var) :=
  match clue with
  | [] => op_ret []
  | size :: clue' =>
      let offset := size + match clue' with [] => 0 | _ => 1 end in
      let end_ := num - rem + 1 in
      do! x := int_variable (zrange start end_) (mk k) in
      let rv := RunVar x size start (end_ + size) in
      do! _ := match prev with
               | None => op_ret tt
               | Some p => add_formula (FBin UGt (FVar x) (FBin UAdd (FVar (rv_name p)) (FInt (rv_size p))))
               end in
      do! rest := line_loop mk num (S k) (start + offset) (rem - offset) (Some rv) clue' in
      op_ret (rv :: rest)
  end.
Definition line_vars (prefix : string) (num : Z) (p : nat * list Z) : op (list run_var) :=
  line_loop (name2 prefix (fst p)) num 0 0 (zsum (snd p) + Z.of_nat (length (snd p)) - 1) None (snd p).

(** [(var <= c) & (c < var + size)] for the runs that can cover [c], nonogram.py:73-88. *)
Definition covers (c : Z) (rv : run_var) : formula :=
  FBin UAnd (FBin ULe (FVar (rv_name rv)) (FInt c)) (FBin ULt (FInt c) (FBin UAdd (FVar (rv_name rv)) (FInt (rv_size rv)))).
Definition cover_list (c : Z) (rvs : list run_var) : list formula :=
  map (covers c) (filter (fun rv => (rv_start rv <=? c) && (c <? rv_end rv)) rvs).

(** nonogram.py:89-99. *)
Definition add_cell (r c : nat) (row_vars col_vars : list (list run_var)) : op unit :=
  let r_expr_list := cover_list (Z.of_nat c) (nth r row_vars []) in
  let c_expr_list := cover_list (Z.of_nat r) (nth c col_vars []) in
  match r_expr_list, c_expr_list with
  | [], [] => op_ret tt
  | _, _ => add_formula (FBin UEq (FSum r_expr_list) (FSum c_expr_list))
  end.

(** [enumerate(l)]. *)
Definition enumerate {A} (l : list A) : list (nat * A) := combine (seq 0 (length l)) l.

(** [NonogramSolver.__init__], nonogram.py:15-105; the object is [self._row_vars]. *)
Definition nonogram_init (rows cols : list (list Z)) : op (list (list run_var)) :=
  let num_rows := length rows in
  let num_cols := length cols in
  do! row_vars := op_for (line_vars "r" (Z.of_nat num_cols)) (enumerate rows) in
  do! col_vars := op_for (line_vars "c" (Z.of_nat num_rows)) (enumerate cols) in
  do! _ := op_for (fun r => op_for (fun c => add_cell r c row_vars col_vars) (seq 0 num_cols)) (seq 0 num_rows) in
  op_ret row_vars.

(** [for c in range(...): pixmap[r][c] = 1]. *)
Fixpoint set_all (row : list Z) (cs : list Z) : res (list Z) :=
  match cs with [] => Ok row | c :: cs' => let! row' := py_setitem row c 1 in set_all row' cs' end.
Fixpoint mark_row (s : subst) (row : list Z) (rvs : list run_var) : res (list Z) :=
  match rvs with
  | [] => Ok row
  | rv :: rvs' =>
      let! start := get_item s (rv_name rv) in
      let! row' := set_all row (zrange start (start + rv_size rv)) in
      mark_row s row' rvs'
  end.
(** [__iter__], nonogram.py:115-129. *)
Definition nonogram_decode (num_cols : nat) (row_vars : list (list run_var)) (s : subst) : res (list (list Z)) :=
  mapM (fun rvs => mark_row s (repeat 0 num_cols) rvs) row_vars.

(** [list(NonogramSolver({'rows': rows, 'columns': cols}, **options))]. *)
Definition nonogram_run clk shuffle fuel (rows cols : list (list Z)) (o : options) :=
  puzzle_run clk shuffle fuel (nonogram_init rows cols) (nonogram_decode (length cols)) (options_solver MIN_BOUND o).

(** The inner loops of [pixmap_to_nonogram], nonogram.py:145-155 and 159-170. *)
Fixpoint line_runs (count : Z) (line : list Z) : list Z :=
  match line with
  | [] => if truthy count then [count] else []
  | cell :: line' =>
      if truthy cell then line_runs (count + 1) line'
      else ((if truthy count then [count] else []) ++ line_runs 0 line')%list
  end.
(** [pixmap_shape], nonogram.py:132-138. *)
Definition pixmap_shape (pixmap : list (list Z)) : nat * nat :=
  (length pixmap, fold_right (fun row n => Nat.max (length row) n) 0%nat pixmap).
(** [pixmap_to_nonogram], nonogram.py:141-172; the result is the pair rows, columns. *)
Definition pixmap_to_nonogram (pixmap : list (list Z)) : res (list (list Z) * list (list Z)) :=
  let num_cols := snd (pixmap_shape pixmap) in
  let! cols := mapM (fun c =>
    let! line := mapM (fun row => match nth_error row c with Some v => Ok v | None => Err IndexError end) pixmap in
    Ok (line_runs 0 line)) (seq 0 num_cols) in
  Ok (map (line_runs 0) pixmap, cols).
