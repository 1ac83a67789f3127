(** Model of the image functions of src/satisfy/tool/demo_nonogram.py.
    Simplifications: images are ASCII strings, pixmaps lists of rows of integers; [zeroes] is a
    list of characters. *)
From Verif Require Export Nonogram AsciiMap.
Open Scope string_scope.
Open Scope Z_scope.

(** [ZEROES], [ZERO] and [ONE], demo_nonogram.py:41-43. *)
Definition ZEROES : list ascii := [" "%char; "_"%char].
Definition ZERO : ascii := " "%char.
Definition ONE : ascii := "#"%char.

(** The inner loop of [image_to_pixmap], demo_nonogram.py:51-53, on [pixmap[r]]. *)
Fixpoint mark_cells (zeroes : list ascii) (row : list Z) (cells : list (nat * ascii)) : res (list Z) :=
  match cells with
  | [] => Ok row
  | (c, cell) :: cells' =>
      if existsb (Ascii.eqb cell) zeroes then mark_cells zeroes row cells'
      else let! row' := py_setitem row (Z.of_nat c) 1 in mark_cells zeroes row' cells'
  end.
(** [image_to_pixmap], demo_nonogram.py:45-54; the rows of [pixmap] are distinct lists, of
    which the r-th one is changed by the r-th line only. *)
Definition image_to_pixmap (image : string) (zeroes : list ascii) : res (list (list Z)) :=
  let lines := split_lines image in
  let num_cols := fold_right (fun line n => Nat.max (List.length line) n) 0%nat lines in
  mapM (fun line => mark_cells zeroes (repeat 0 num_cols) (enumerate line)) lines.

(** [image_to_nonogram], demo_nonogram.py:57-58. *)
Definition image_to_nonogram (image : string) (zeroes : list ascii) : res (list (list Z) * list (list Z)) :=
  let! pixmap := image_to_pixmap image zeroes in pixmap_to_nonogram pixmap.

(** The inner loop of [pixmap_to_image], demo_nonogram.py:65-67, on [image[r]]. *)
Fixpoint draw_cells {A} (one : A) (row : list A) (cells : list (nat * Z)) : res (list A) :=
  match cells with
  | [] => Ok row
  | (c, cell) :: cells' =>
      if truthy cell then let! row' := py_setitem row (Z.of_nat c) one in draw_cells one row' cells'
      else draw_cells one row cells'
  end.
(** [pixmap_to_image], demo_nonogram.py:61-68; [zero] and [one] are any strings. *)
Definition pixmap_to_image (pixmap : list (list Z)) (zero one : string) : res string :=
  let num_cols := snd (pixmap_shape pixmap) in
  let! image := mapM (fun row => draw_cells one (repeat zero num_cols) (enumerate row)) pixmap in
  Ok (String.concat (String newline "") (map (String.concat "") image)).
