(** Specification: the partial selections of items that a knapsack search should try. *)
From Verif Require Import KnapsackWatch SpecKnapsack.
Open Scope list_scope.
Open Scope Z_scope.

(** The items, in the order in which they are given: item [i] is called [i_{i}]. *)
Definition item (i : nat) : name := name1 "i_" i.
Definition items (n : nat) : list name := map item (seq 0 n).

(** An item is selected (1) or not (0). *)
Definition selection (t : subst) : Prop := forall x v, In (x, v) t -> v = 0 \/ v = 1.

(** [chosen t i]: item [i], 0 if nothing was decided about it. *)
Definition chosen (t : subst) (i : nat) : Z := match dget t (item i) with Some v => v | None => 0 end.

(** All the items are decided that have a weight (other than 0) for capacity [j]. *)
Definition weighed (n : nat) (ws : list (list Z)) (t : subst) (j : nat) : Prop :=
  forall i, (i < n)%nat -> nth i (column j ws) 0 <> 0 -> In (item i) (map fst t).

(** No capacity is exceeded for which all is decided. *)
Definition partial_packing (n : nat) (caps : list Z) (ws : list (list Z)) (t : subst) : Prop :=
  selection t /\
  forall j, (j < length caps)%nat -> weighed n ws t j ->
    total (map (chosen t) (seq 0 n)) (column j ws) <= nth j caps 0.

(** The value of the selection is still open: an item with a value is not decided yet. *)
Definition open_value (values : list Z) (t : subst) : Prop :=
  exists i, nth i values 0 <> 0 /\ ~ In (item i) (map fst t).

(** Every weight is different from 0. *)
Definition all_weighted (n : nat) (caps : list Z) (ws : list (list Z)) : Prop :=
  forall i j, (i < n)%nat -> (j < length caps)%nat -> nth i (column j ws) 0 <> 0.

(** The selected items alone exceed a capacity, and no weight is negative. *)
Definition overloaded (n : nat) (caps : list Z) (ws : list (list Z)) (t : subst) : Prop :=
  (forall row w, In row ws -> In w row -> 0 <= w) /\
  exists j, (j < length caps)%nat /\ total (map (chosen t) (seq 0 n)) (column j ws) > nth j caps 0.
