(** Specification: what constraints added to a puzzle mean, and which are considered. *)
From Verif Require Import PuzzleUser Einstein SpecSafe SpecSolve SpecPuzzle SpecQueens SpecSudoku SpecCryptarithm SpecNonogram SpecEinstein.
Open Scope list_scope.
Open Scope Z_scope.

(** No parameter has been set. *)
Definition no_parameters : nat -> Z := fun _ => 0.

Definition u_holds (a : assignment) (u : ustmt) : Prop :=
  match u with
  | UVar x d => In (a x) d
  | UForm f => exists v, meaning no_parameters a f = Some v /\ v <> 0
  | UDiff xs => forall x y, In x xs -> In y xs -> x <> y -> a x <> a y
  end.

(** The value of a formula is not the same everywhere. *)
Definition varies (f : formula) : Prop :=
  exists a a' v v', meaning no_parameters a f = Some v /\ meaning no_parameters a' f = Some v' /\ v <> v'.

(** The formula is not constant; or it is a comparison one side of which is not constant or
    is an int. *)
Definition is_number (f : formula) : Prop := exists n, f = FInt n.
Definition constrains (f : formula) : Prop :=
  varies f \/
  is_comparison f = true /\ exists o g h, f = FBin o g h /\ (varies g \/ varies h \/ is_number g \/ is_number h).

(** [D x v]: x is a variable that may have the value v.  A new variable has a new name and a
    domain without repetitions; a constraint has a value for all values of its variables, and
    can be compiled if [compiled]. *)
Definition u_ok (D : name -> Z -> Prop) (compiled : bool) (u : ustmt) : Prop :=
  match u with
  | UVar x d => good_name x = true /\ (forall v, ~ D x v) /\ NoDup d
  | UForm f =>
      (forall x, In x (fvars f) -> exists v, D x v) /\
      (forall a, (forall x, In x (fvars f) -> D x (a x)) -> exists v, meaning no_parameters a f = Some v) /\
      div_ok f = true /\ (compiled = true -> f_safe f = true) /\ constrains f
  | UDiff xs => forall x, In x xs -> exists v, D x v
  end.

(** The variables after the statements [us], if they were [D] before; one without values
    counts as one that may have any value. *)
Definition and_added (D : name -> Z -> Prop) (us : list ustmt) : name -> Z -> Prop := fun x v =>
  D x v \/ exists d, In (UVar x d) us /\ (In v d \/ d = []).
Definition us_ok (D : name -> Z -> Prop) (compiled : bool) (us : list ustmt) : Prop :=
  forall us1 u us2, us = us1 ++ u :: us2 -> u_ok (and_added D us1) compiled u.

(** ** The variables of the puzzles, and their values in a result *)

(** QueensSolver: [q_{r}] is the column of the queen in row r; [diag_ul_br_{k}_{r}] and
    [diag_ur_bl_{k}_{r}] are the sum and the difference of column and row. *)
Definition queens_var (n : nat) (x : name) (v : Z) : Prop :=
  exists k r, (k < n)%nat /\ (r < n)%nat /\
    ((x = name1 "q_" r /\ 0 <= v < Z.of_nat n) \/
     (x = name2 "diag_ul_br_" k r /\ 0 <= v <= 2 * Z.of_nat n) \/
     (x = name2 "diag_ur_bl_" k r /\ - Z.of_nat n <= v <= Z.of_nat n)).
Definition queens_values (n : nat) (b : list (list Z)) (a : assignment) : Prop :=
  forall k r c, (k < n)%nat -> (r < n)%nat -> (c < n)%nat -> cell b r c = 1 ->
    a (name1 "q_" r) = Z.of_nat c /\
    a (name2 "diag_ul_br_" k r) = Z.of_nat c + Z.of_nat r /\
    a (name2 "diag_ur_bl_" k r) = Z.of_nat c - Z.of_nat r.

(** GraphLabelingSolver: [n_{i}] is the position of the label of the i-th node. *)
Definition graph_var (nodes labels : list string) (x : name) (v : Z) : Prop :=
  (exists i, (i < length nodes)%nat /\ x = name1 "n_" i) /\ (0 <= v < Z.of_nat (length labels) \/ v = 0).
Definition graph_values (nodes labels : list string) (b : list (string * string)) (a : assignment) : Prop :=
  forall i u j l, nth_error nodes i = Some u -> nth_error labels j = Some l -> In (u, l) b -> a (name1 "n_" i) = Z.of_nat j.

(** SudokuSolver: [c_{r}_{c}] is the number in a cell that was blank. *)
Definition sudoku_var (s : list (list (option Z))) (x : name) (v : Z) : Prop :=
  (exists r c, (r < 9)%nat /\ (c < 9)%nat /\ given s r c = None /\ x = name2 "c_" r c) /\ 1 <= v <= 9.
Definition sudoku_values (s : list (list (option Z))) (g : list (list Z)) (a : assignment) : Prop :=
  forall r c, (r < 9)%nat -> (c < 9)%nat -> given s r c = None -> a (name2 "c_" r c) = at_ g r c.

(** CryptarithmSolver: the letters. *)
Definition letter_var (q : equation) (x : name) (v : Z) : Prop := letter_of q x /\ 0 <= v <= 9 /\ (leading q x -> v <> 0).
Definition letter_values (b : list (string * Z)) (a : assignment) : Prop := forall x v, In (x, v) b -> a x = v.

(** NonogramSolver: [r{r}_{j}] and [c{c}_{j}] are the starts of the j-th run of row r and of
    column c. *)
Definition nonogram_var (rows cols : list (list Z)) (x : name) (v : Z) : Prop :=
  exists i j,
    ((i < length rows)%nat /\ (j < length (nth i rows []))%nat /\ x = name2 "r" i j /\ 0 <= v <= Z.of_nat (length cols)) \/
    ((i < length cols)%nat /\ (j < length (nth i cols []))%nat /\ x = name2 "c" i j /\ 0 <= v <= Z.of_nat (length rows)).
Definition runs_at (f : Z -> Z) (n : nat) (clue xs : list Z) : Prop :=
  blocks 0 (Z.of_nat n) xs clue /\ forall c, 0 <= c < Z.of_nat n -> (f c <> 0 <-> covered xs clue c).
Definition nonogram_values (rows cols : list (list Z)) (b : list (list Z)) (a : assignment) : Prop :=
  (forall r xs j, (r < length rows)%nat -> runs_at (fun c => pixel b (Z.of_nat r) c) (length cols) (nth r rows []) xs ->
     (j < length xs)%nat -> a (name2 "r" r j) = nth j xs 0) /\
  (forall c xs j, (c < length cols)%nat -> runs_at (fun r => pixel b r (Z.of_nat c)) (length rows) (nth c cols []) xs ->
     (j < length xs)%nat -> a (name2 "c" c j) = nth j xs 0).

(** EinsteinRiddleSolver: [{kind}_{value}] is the house of a value; four variables are
    the differences of two houses next to each other. *)
Definition house_differences : list (name * (name * name)) :=
  [("Blend_cats", ("smoke_Blend", "animal_cats")); ("Dunhill_horse", ("smoke_Dunhill", "animal_a_horse"));
   ("Norwegian_blue", ("owner_Norwegian", "color_blue")); ("water_Blend", ("drink_water", "smoke_Blend"))]%string.
Definition einstein_var (x : name) (v : Z) : Prop :=
  ((exists k vs w, In (k, vs) attributes /\ In w vs /\ x = mkname k w) /\ 1 <= v <= 5) \/
  (In x (map fst house_differences) /\ (v = 1 \/ v = -1)).
Definition einstein_values (z : list (Z * list (string * string))) (a : assignment) : Prop :=
  (forall i row k v, In (i, row) z -> In (k, v) row -> a (mkname k v) = i) /\
  (forall x y w, In (x, (y, w)) house_differences -> a x = a y - a w).

(** The results of the puzzle that meet the added constraints. *)
Definition also {B} (ok : B -> Prop) (values : B -> assignment -> Prop) (us : list ustmt) (b : B) : Prop :=
  ok b /\ exists a, values b a /\ forall u, In u us -> u_holds a u.

(** With values for the added variables. *)
Definition added (us : list ustmt) : list name := flat_map (fun u => match u with UVar x _ => [x] | _ => [] end) us.
Definition also_with {B} (ok : B -> Prop) (values : B -> assignment -> Prop) (us : list ustmt) (p : B * list Z) : Prop :=
  ok (fst p) /\ exists a, values (fst p) a /\ map a (added us) = snd p /\ forall u, In u us -> u_holds a u.

(** The results are those of pairs, each once. *)
Definition exactly_firsts {B C} (run : nat -> option (list B * option exn * option interrupt)) (ok : B * C -> Prop) (timeout limit : lim) : Prop :=
  exists run', exactly run' ok timeout limit /\
    forall fuel, run fuel = match run' fuel with Some (l, r, i) => Some (map fst l, r, i) | None => None end.
