(** Specification: what puzzles on one Model mean together. *)
From Verif Require Import PuzzleShared SpecSafe SpecSolve SpecPuzzle SpecQueens SpecGraph SpecSudoku SpecCryptarithm SpecNonogram SpecEinstein SpecPuzzleUser.
Open Scope list_scope.
Open Scope Z_scope.

(** The task that the arguments of a class pose. *)
Inductive task : Type :=
| TQueens (n : nat)
| TGraph (nodes : list string) (edges : list (string * string)) (labels : list string)
| TSudoku (s : list (list (option Z)))
| TCryptarithm (q : equation)
| TNonogram (rows cols : list (list Z))
| TEinstein.

Definition poses (z : puzzle) (t : task) : Prop :=
  match z, t with
  | ZQueens n, TQueens n' => n' = n /\ (1 <= n)%nat
  | ZGraph nodes edges labels, TGraph nodes' edges' labels' =>
      nodes' = nodes /\ edges' = edges /\ labels' = labels /\ is_graph nodes edges /\ nodes <> [] /\ NoDup labels
  | ZSudoku s, TSudoku s' => s' = s /\ well_formed s /\ has_blank s
  | ZCryptarithm order source avoid, TCryptarithm q => text_equation source q /\ depends_in q /\ shuffles order
  | ZNonogram rows cols, TNonogram rows' cols' =>
      rows' = rows /\ cols' = cols /\ positive_clues rows /\ positive_clues cols /\ exists l, In l (rows ++ cols) /\ l <> []
  | ZEinstein, TEinstein => True
  | _, _ => False
  end.

(** The names of its variables and their values. *)
Definition task_var (t : task) : name -> Z -> Prop :=
  match t with
  | TQueens n => queens_var n
  | TGraph nodes _ labels => graph_var nodes labels
  | TSudoku s => sudoku_var s
  | TCryptarithm q => letter_var q
  | TNonogram rows cols => nonogram_var rows cols
  | TEinstein => einstein_var
  end.

(** Its solutions. *)
Definition answered (t : task) (r : answer) : Prop :=
  match t, r with
  | TQueens n, RBoard b => queens_board n b
  | TGraph nodes edges labels, RColours c => proper_colouring nodes edges labels c
  | TSudoku s, RGrid g => completion s g
  | TCryptarithm q, RLetters b => cry_solution q b
  | TNonogram rows cols, RPicture p => matches rows cols p
  | TEinstein, RHouses h => riddle_answer h
  | _, _ => False
  end.

(** The values of the variables in a solution. *)
Definition task_values (t : task) (r : answer) (a : assignment) : Prop :=
  match t, r with
  | TQueens n, RBoard b => queens_values n b a
  | TGraph nodes _ labels, RColours c => graph_values nodes labels c a
  | TSudoku s, RGrid g => sudoku_values s g a
  | TCryptarithm _, RLetters b => letter_values b a
  | TNonogram rows cols, RPicture p => nonogram_values rows cols p a
  | TEinstein, RHouses h => einstein_values h a
  | _, _ => False
  end.

(** ** Statements *)
Inductive part : Type :=
| Stmt (u : ustmt)
| Task (t : task).

Definition posed (p : piece) (x : part) : Prop :=
  match p, x with
  | PUser u, Stmt u' => u' = u
  | PPuzzle z _ _, Task t => poses z t
  | _, _ => False
  end.

(** The variables after the statements; one without values counts as one that may have any. *)
Definition known_vars (l : list part) (x : name) (v : Z) : Prop :=
  (exists d, In (Stmt (UVar x d)) l /\ (In v d \/ d = [])) \/ (exists t, In (Task t) l /\ task_var t x v).

(** The variables of a puzzle are new; the user's statements are as in C88. *)
Definition part_ok (D : name -> Z -> Prop) (compiled : bool) (x : part) : Prop :=
  match x with
  | Stmt u => u_ok D compiled u
  | Task t => forall y v v', task_var t y v -> ~ D y v'
  end.
Definition parts_ok (compiled : bool) (l : list part) : Prop :=
  forall l1 x l2, l = l1 ++ x :: l2 -> part_ok (known_vars l1) compiled x.

Definition tasks (l : list part) : list task := flat_map (fun x => match x with Task t => [t] | Stmt _ => [] end) l.
Definition user_vars (l : list part) : list name := flat_map (fun x => match x with Stmt (UVar y _) => [y] | _ => [] end) l.

(** Values of the user's variables, and solutions of all the puzzles, that meet all the
    statements. *)
Definition jointly (l : list part) (p : list Z * list answer) : Prop :=
  exists a, map a (user_vars l) = fst p /\ (forall u, In (Stmt u) l -> u_holds a u) /\
    Forall2 (fun t r => answered t r /\ task_values t r a) (tasks l) (snd p).

(** The results are the k-th solutions in an enumeration of these. *)
Definition exactly_component (run : nat -> option (list answer * option exn * option interrupt)) (k : nat)
  (ok : list Z * list answer -> Prop) (timeout limit : lim) : Prop :=
  exists run', exactly run' ok timeout limit /\
    forall fuel, match run' fuel, run fuel with
    | Some (l, r', i'), Some (bs, r, i) => Forall2 (fun p b => nth_error (snd p) k = Some b) l bs /\ r = r' /\ i = i'
    | None, None => True
    | _, _ => False
    end.

(** The k-th puzzle and its options: those of the Solver that it is given, if any; otherwise its
    own, with the limit 1 for SudokuSolver if it has none. *)
Definition puzzles (l : list piece) : list (puzzle * option options * options) :=
  flat_map (fun p => match p with PPuzzle z g o => [(z, g, o)] | PUser _ => [] end) l.
Definition its_limit (z : puzzle) (o : options) : lim :=
  match z, o_limit o with ZSudoku _, LNone => LNum 1 | _, l => l end.
Definition effective (z : puzzle) (given : option options) (o : options) : options :=
  match given with Some o' => o' | None => Options (o_policy o) (o_timeout o) (its_limit z o) (o_compile o) end.

(** No statement relates the puzzles: values of the user's variables, and solutions of the
    puzzles, independently of each other. *)
Definition user_domains (l : list part) : list (list Z) := flat_map (fun x => match x with Stmt (UVar _ d) => [d] | _ => [] end) l.
Definition unrelated (l : list part) : Prop := forall u, In (Stmt u) l -> exists x d, u = UVar x d.
Definition independently (l : list part) (p : list Z * list answer) : Prop :=
  Forall2 (fun v d => In v d) (fst p) (user_domains l) /\ Forall2 answered (tasks l) (snd p).
