(** Specification: pictures of which only some runs have been drawn. *)
From Coq Require Import List String ZArith.
From Verif Require Import Puzzle.
Import ListNotations.
Open Scope list_scope.
Open Scope Z_scope.

Fixpoint cells_of (clue : list Z) : Z := match clue with [] => 0 | k :: clue' => k + cells_of clue' end.

(** The first and the last cell at which run number [k] of a line of [n] cells can begin: there
    must be room for the runs before it and behind it, and for a free cell between two of them. *)
Definition earliest (clue : list Z) (k : nat) : Z := cells_of (firstn k clue) + Z.of_nat k.
Definition latest (n : Z) (clue : list Z) (k : nat) : Z :=
  n - cells_of (skipn k clue) - (Z.of_nat (length clue) - Z.of_nat k - 1).

(** In what follows [at_ k v]: run number [k] of the line begins at cell [v]. *)

(** Where runs can begin, and a free cell between one and the next. *)
Definition drawn (n : Z) (clue : list Z) (at_ : nat -> Z -> Prop) : Prop :=
  (forall k v, at_ k v -> earliest clue k <= v <= latest n clue k) /\
  (forall k v v', at_ k v -> at_ (S k) v' -> v + nth k clue 0 < v').

(** Cell [c] is black. *)
Definition black (clue : list Z) (at_ : nat -> Z -> Prop) (c : Z) : Prop :=
  exists k v, at_ k v /\ v <= c < v + nth k clue 0.

(** All the runs that can cover cell [c], or that can end just before it, are drawn. *)
Definition settled (n : Z) (clue : list Z) (at_ : nat -> Z -> Prop) (c : Z) : Prop :=
  forall k, (k < length clue)%nat -> earliest clue k <= c <= latest n clue k + nth k clue 0 -> exists v, at_ k v.
(** All the runs that can cover cell [c] are drawn. *)
Definition decided (n : Z) (clue : list Z) (at_ : nat -> Z -> Prop) (c : Z) : Prop :=
  forall k, (k < length clue)%nat -> earliest clue k <= c < latest n clue k + nth k clue 0 -> exists v, at_ k v.

(** The runs drawn by an assignment: those of row [r] are called [r{r}_{k}], those of column [c]
    [c{c}_{k}]. *)
Definition row_at (t : subst) (r : nat) (k : nat) (v : Z) : Prop := In (name2 "r" r k, v) t.
Definition col_at (t : subst) (c : nat) (k : nat) (v : Z) : Prop := In (name2 "c" c k, v) t.

(** Rows and columns agree about the cells for which all is drawn. *)
Definition partial_picture (rows cols : list (list Z)) (t : subst) : Prop :=
  let nr := Z.of_nat (length rows) in
  let nc := Z.of_nat (length cols) in
  (forall r, (r < length rows)%nat -> drawn nc (nth r rows []) (row_at t r)) /\
  (forall c, (c < length cols)%nat -> drawn nr (nth c cols []) (col_at t c)) /\
  (forall r c, (r < length rows)%nat -> (c < length cols)%nat ->
     settled nc (nth r rows []) (row_at t r) (Z.of_nat c) -> settled nr (nth c cols []) (col_at t c) (Z.of_nat r) ->
     (black (nth r rows []) (row_at t r) (Z.of_nat c) <-> black (nth c cols []) (col_at t c) (Z.of_nat r))).

(** Some cell is black for its row and white for its column or conversely, and no run that is not
    drawn yet could cover it. *)
Definition contradictory (rows cols : list (list Z)) (t : subst) : Prop := exists r c,
  (r < length rows)%nat /\ (c < length cols)%nat /\
  decided (Z.of_nat (length cols)) (nth r rows []) (row_at t r) (Z.of_nat c) /\
  decided (Z.of_nat (length rows)) (nth c cols []) (col_at t c) (Z.of_nat r) /\
  ~ (black (nth r rows []) (row_at t r) (Z.of_nat c) <-> black (nth c cols []) (col_at t c) (Z.of_nat r)).

(** The runs of all the rows and columns, in the order in which they are given. *)
Definition run_names (rows cols : list (list Z)) : list name :=
  let names prefix clues := flat_map (fun i => map (name2 prefix i) (seq 0 (length (nth i clues [])))) (seq 0 (length clues)) in
  names "r"%string rows ++ names "c"%string cols.
