(** Specification: runs of a line, and pixmaps matching the clues of a nonogram. *)
From Coq Require Import List ZArith.
Import ListNotations.
Open Scope Z_scope.

(** [xs] are the starts of blocks of the given lengths between [lo] and [hi], in order,
    each of at least one cell, with at least one free cell between two of them. *)
Fixpoint blocks (lo hi : Z) (xs clue : list Z) : Prop :=
  match xs, clue with
  | [], [] => True
  | x :: xs', k :: clue' => lo <= x /\ 1 <= k /\ x + k <= hi /\ blocks (x + k + 1) hi xs' clue'
  | _, _ => False
  end.

(** Position [c] lies in one of the blocks. *)
Fixpoint covered (xs clue : list Z) (c : Z) : Prop :=
  match xs, clue with
  | x :: xs', k :: clue' => x <= c < x + k \/ covered xs' clue' c
  | _, _ => False
  end.

(** The non-zero cells of the line [f 0], ..., [f (n-1)] form runs of these lengths. *)
Definition has_runs (f : Z -> Z) (n : Z) (clue : list Z) : Prop :=
  exists xs, blocks 0 n xs clue /\ forall c, 0 <= c < n -> (f c <> 0 <-> covered xs clue c).

Definition pixel (b : list (list Z)) (r c : Z) : Z := nth (Z.to_nat c) (nth (Z.to_nat r) b []) 0.

(** A pixmap with [nr] rows and [nc] columns. *)
Definition rectangular (nr nc : nat) (b : list (list Z)) : Prop :=
  length b = nr /\ forall row, In row b -> length row = nc.
Definition black_white (b : list (list Z)) : Prop :=
  forall row, In row b -> forall v, In v row -> v = 0 \/ v = 1.

(** The clues list the runs of every row and column. *)
Definition clues_of (b : list (list Z)) (rows cols : list (list Z)) : Prop :=
  rectangular (length rows) (length cols) b /\
  (forall r, 0 <= r < Z.of_nat (length rows) ->
     has_runs (fun c => pixel b r c) (Z.of_nat (length cols)) (nth (Z.to_nat r) rows [])) /\
  (forall c, 0 <= c < Z.of_nat (length cols) ->
     has_runs (fun r => pixel b r c) (Z.of_nat (length rows)) (nth (Z.to_nat c) cols [])).

Definition matches (rows cols : list (list Z)) (b : list (list Z)) : Prop :=
  black_white b /\ clues_of b rows cols.

Definition positive_clues (ls : list (list Z)) : Prop := forall l, In l ls -> forall k, In k l -> 1 <= k.
