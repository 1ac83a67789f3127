(** Specification: the regions of a map drawn with characters, and its colourings. *)
From Coq Require Import List ZArith String Ascii Relations.
Import ListNotations.
Open Scope string_scope.
Open Scope Z_scope.

(** The character in row [r] and column [c]. *)
Definition at_cell {A} (rows : list (list A)) (p : Z * Z) (a : A) : Prop :=
  exists row, 0 <= fst p /\ 0 <= snd p /\ nth_error rows (Z.to_nat (fst p)) = Some row /\ nth_error row (Z.to_nat (snd p)) = Some a.
(** A coloured cell: any character but a blank and a dot. *)
Definition land (lines : list (list ascii)) (p : Z * Z) (c : ascii) : Prop :=
  at_cell lines p c /\ c <> " "%char /\ c <> "."%char.

(** Cells that touch each other, diagonally too. *)
Definition near (p q : Z * Z) : Prop := p <> q /\ Z.abs (fst p - fst q) <= 1 /\ Z.abs (snd p - snd q) <= 1.
(** Cells with the same character connected by a path of such cells. *)
Definition same_region (lines : list (list ascii)) (p q : Z * Z) : Prop :=
  exists c, land lines p c /\ clos_refl_trans _ (fun x y => land lines y c /\ near x y) p q.

(** [groups] lists the regions, in the order in which a reader meets them. *)
Definition before (p q : Z * Z) : Prop := fst p < fst q \/ fst p = fst q /\ snd p < snd q.
Definition member (groups : list (list (Z * Z))) (i : nat) (p : Z * Z) : Prop := exists g, nth_error groups i = Some g /\ In p g.
Definition regions (lines : list (list ascii)) (groups : list (list (Z * Z))) : Prop :=
  (forall p, (exists c, land lines p c) <-> exists i, member groups i p) /\
  (forall i p q, member groups i p -> (member groups i q <-> same_region lines p q)) /\
  (forall i j p, member groups i p -> member groups j p -> i = j) /\
  (forall i, (i < List.length groups)%nat -> exists p, member groups i p /\ forall j q, (i < j)%nat -> member groups j q -> before p q).

(** The edges are the pairs of regions that touch. *)
Definition touching (groups : list (list (Z * Z))) (i j : nat) : Prop := exists p q, member groups i p /\ member groups j q /\ near p q.
Definition region_edges (groups : list (list (Z * Z))) (edges : list (nat * nat)) : Prop :=
  forall i j, In (i, j) edges <-> (i < j)%nat /\ touching groups i j.

(** Region [i] is drawn with the digit or capital letter standing for [i mod 36]. *)
Definition label_of (i : nat) : ascii :=
  let d := (i mod 36)%nat in ascii_of_nat (if Nat.ltb d 10 then 48 + d else 55 + d).
(** A drawing of the map, in the shape of the map: each region has one of the colours, touching
    regions have different colours, and everything else is blank. *)
Definition map_colouring (lines : list (list ascii)) (groups : list (list (Z * Z))) (colors : list string)
           (m : list (list (option (ascii * string)))) : Prop :=
  exists col : nat -> string,
    (forall i, (i < List.length groups)%nat -> In (col i) colors) /\
    (forall i j, i <> j -> touching groups i j -> col i <> col j) /\
    map (@List.length _) m = map (@List.length _) lines /\
    (forall i p, member groups i p -> at_cell m p (Some (label_of i, col i))) /\
    (forall p a, at_cell m p (Some a) -> exists i, member groups i p).

(** The lines of a text. *)
Definition lines_of (s : string) (lines : list (list ascii)) : Prop :=
  s = String.concat (String (ascii_of_nat 10) "") (map string_of_list_ascii lines) /\
  lines <> [] /\ forall l, In l lines -> ~ In (ascii_of_nat 10) l.

(** [m] comes before [m']: the first regions, in the order in which a reader meets them, have the
    same colours, and the next region has in [m] a colour listed before its colour in [m']. *)
Definition earlier_drawing (groups : list (list (Z * Z))) (colors : list string) (m m' : list (list (option (ascii * string)))) : Prop :=
  exists k c c' i j, (k < List.length groups)%nat /\
    (forall l p a, (l < k)%nat -> member groups l p -> at_cell m p a -> at_cell m' p a) /\
    (forall p, member groups k p -> at_cell m p (Some (label_of k, c)) /\ at_cell m' p (Some (label_of k, c'))) /\
    nth_error colors i = Some c /\ nth_error colors j = Some c' /\ (i < j)%nat.
