(** Specification: proper colourings of a graph. *)
From Coq Require Import List String.
Import ListNotations.

(** A colouring lists each node with one of the labels; adjacent nodes differ. *)
Definition proper_colouring (nodes : list string) (edges : list (string * string)) (labels : list string)
           (b : list (string * string)) : Prop :=
  map fst b = nodes /\
  (forall u l, In (u, l) b -> In l labels) /\
  (forall u v l l', In (u, v) edges -> In (u, l) b -> In (v, l') b -> l <> l').

(** A graph: distinct nodes, edges between them. *)
Definition is_graph (nodes : list string) (edges : list (string * string)) : Prop :=
  NoDup nodes /\ forall u v, In (u, v) edges -> In u nodes /\ In v nodes.

(** [b] comes before [b']: at the first node where they differ, the label of [b] is listed first. *)
Definition earlier_colouring (labels : list string) (b b' : list (string * string)) : Prop :=
  exists pre u l l' rest rest' i j, b = pre ++ (u, l) :: rest /\ b' = pre ++ (u, l') :: rest' /\
    nth_error labels i = Some l /\ nth_error labels j = Some l' /\ i < j.
