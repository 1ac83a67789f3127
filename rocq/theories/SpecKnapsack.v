(** Specification: the 0/1 knapsack problem with several capacities. *)
From Verif Require Import Knapsack.
Open Scope list_scope.
Open Scope Z_scope.

(** [x_1 * c_1 + x_2 * c_2 + ...] *)
Fixpoint total (x c : list Z) : Z :=
  match x, c with
  | a :: x', b :: c' => a * b + total x' c'
  | _, _ => 0
  end.

(** The weights of the items for the capacity number [j]; [ws] has a row for each item. *)
Definition column (j : nat) (ws : list (list Z)) : list Z := map (fun row => nth j row 0) ws.

(** [n] items, some of them selected (1), such that no capacity is exceeded. *)
Definition packing (n : nat) (caps : list Z) (ws : list (list Z)) (x : list Z) : Prop :=
  length x = n /\ (forall v, In v x -> v = 0 \/ v = 1) /\
  forall j, (j < length caps)%nat -> total x (column j ws) <= nth j caps 0.

(** A problem: at least one item, and for each item one weight for each capacity. *)
Definition instance (values caps : list Z) (ws : list (list Z)) : Prop :=
  values <> [] /\ length ws = length values /\ forall row, In row ws -> length row = length caps.

(** What a result says about the problem with the weights [ws]; [i] is the interrupt. *)
Definition reports (values caps : list Z) (ws : list (list Z)) (timeout limit : lim) (sol : ksolution) (i : option interrupt) : Prop :=
  match ks_solution sol with
  | Some x => packing (length values) caps ws x /\ ks_value sol = Some (total x values) /\
      ks_weights sol = Some (map (fun j => total x (column j ws)) (seq 0 (length caps)))
  | None => ks_value sol = None /\ ks_weights sol = None /\ (i = None -> forall x, ~ packing (length values) caps ws x)
  end /\
  (ks_optimal sol = true <-> ks_solution sol <> None /\ i = None) /\
  (i = Some ILimit -> exists k, limit = LNum k) /\ (i = Some ITimeout -> exists t, timeout = LNum t).

(** At most one item has a value. *)
Definition lonely (values : list Z) : Prop :=
  forall i j, nth i values 0 <> 0 -> nth j values 0 <> 0 -> i = j.

(** [x] comes after [x'] when the items are compared in the given order. *)
Definition later (order : list nat) (x' x : list Z) : Prop :=
  exists p i q, order = p ++ i :: q /\ (forall j, In j p -> nth j x' 0 = nth j x 0) /\ nth i x' 0 = 0 /\ nth i x 0 = 1.
