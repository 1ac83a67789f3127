(** Specification: the knapsack problem with further constraints. *)
From Verif Require Import KnapsackUser SpecKnapsack SpecPuzzleUser.
Open Scope list_scope.
Open Scope Z_scope.

(** [i_{j}] is 1 if the item j is selected, otherwise 0. *)
Definition item_var (n : nat) (x : name) (v : Z) : Prop := (exists j, (j < n)%nat /\ x = name1 "i_" j) /\ (v = 0 \/ v = 1).

(** A packing such that some values of the added variables meet the constraints. *)
Definition packing_also (n : nat) (caps : list Z) (ws : list (list Z)) (us : list ustmt) (x : list Z) : Prop :=
  packing n caps ws x /\ exists a, (forall j, (j < n)%nat -> a (name1 "i_" j) = nth j x 0) /\ forall u, In u us -> u_holds a u.

(** What a result says about the problem; [i] is the interrupt. *)
Definition reports_also (values caps : list Z) (ws : list (list Z)) (us : list ustmt) (timeout limit : lim) (sol : ksolution) (i : option interrupt) : Prop :=
  match ks_solution sol with
  | Some x => packing_also (length values) caps ws us x /\ ks_value sol = Some (total x values) /\
      ks_weights sol = Some (map (fun j => total x (column j ws)) (seq 0 (length caps)))
  | None => ks_value sol = None /\ ks_weights sol = None /\ (i = None -> forall x, ~ packing_also (length values) caps ws us x)
  end /\
  (ks_optimal sol = true <-> ks_solution sol <> None /\ i = None) /\
  (i = Some ILimit -> exists k, limit = LNum k) /\ (i = Some ITimeout -> exists t, timeout = LNum t).

(** The Parameter objects in a formula; the user's formulas have none. *)
Fixpoint fparams (f : formula) : list nat :=
  match f with
  | FInt _ | FVar _ => []
  | FPar p _ => [p]
  | FNeg g | FAbs g => fparams g
  | FBin _ g h => fparams g ++ fparams h
  | FSum gs => flat_map fparams gs
  end.
Definition without_parameters (us : list ustmt) : Prop := forall f, In (UForm f) us -> fparams f = [].
