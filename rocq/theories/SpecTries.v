(** Specification: the partial results that a puzzle object should try to complete. *)
From Coq Require Import List String ZArith.
From Verif Require Import Puzzle SpecSudoku.
Import ListNotations.
Open Scope list_scope.
Open Scope Z_scope.

(** The first nodes of the order, not all of them, are coloured; adjacent ones differently. *)
Definition partial_colouring (order : list string) (edges : list (string * string)) (labels : list string)
           (b : list (string * string)) : Prop :=
  (exists u rest, order = map fst b ++ u :: rest) /\
  (forall u l, In (u, l) b -> In l labels) /\
  (forall u v l l', In (u, v) edges -> In (u, l) b -> In (v, l') b -> l <> l').

(** The assignment [t] of numbers of labels to the variables [n_0], [n_1], ... of the nodes is the
    partial colouring [b]. *)
Definition stands_for (nodes labels : list string) (t : subst) (b : list (string * string)) : Prop :=
  Forall2 (fun (p : name * Z) (q : string * string) => exists i j,
    nth_error nodes i = Some (fst q) /\ nth_error labels j = Some (snd q) /\ p = (name1 "n_" i, Z.of_nat j)) t b.

(** Columns for the queens of some rows: no two in the same column (but perhaps in the same
    diagonal). *)
Definition rooks (n : nat) (cols : list Z) : Prop :=
  NoDup cols /\ forall c, In c cols -> 0 <= c < Z.of_nat n.
(** The assignment that puts the queens of the rows into the columns. *)
Definition placed (rows : list nat) (cols : list Z) : subst :=
  combine (map (name1 "q_") rows) cols.
(** Two of the placed queens are in the same diagonal. *)
Definition attacked (t : subst) : Prop := exists r c r' c',
  In (name1 "q_" r, c) t /\ In (name1 "q_" r', c') t /\ r <> r' /\
  (Z.of_nat r + c = Z.of_nat r' + c' \/ Z.of_nat r - c = Z.of_nat r' - c').

(** Numbers in the first blank cells of the order, not all of them: none is a given number of the
    row, column or block, and two in the same one differ. *)
Definition partial_fill (s : list (list (option Z))) (order : list (nat * nat)) (b : list ((nat * nat) * Z)) : Prop :=
  (exists p rest, order = map fst b ++ p :: rest) /\
  (forall r c v, In ((r, c), v) b -> 1 <= v <= 9 /\
     forall r' c', (r' < 9)%nat -> (c' < 9)%nat -> same_unit r c r' c' -> given s r' c' <> Some v) /\
  (forall r c v r' c' v', In ((r, c), v) b -> In ((r', c'), v') b -> (r, c) <> (r', c') -> same_unit r c r' c' -> v <> v').
(** The same as an assignment. *)
Definition written (b : list ((nat * nat) * Z)) : subst :=
  map (fun p => (name2 "c_" (fst (fst p)) (snd (fst p)), snd p)) b.
