(** Model of src/satisfy/knapsack.py. *)
From Verif Require Export Puzzle Optimize.
From Verif Require Import Queens Nonogram.
Open Scope string_scope.
Open Scope Z_scope.

(** ** KnapsackOptimizer.__init__, knapsack.py:18-52.
    An element of [values], [capacities] or of a row of [weights] is an int, or something
    else ([None] here).  The rows of [weights] are sequences (they are indexed); [weights]
    itself is a sequence, or an iterator, which yields its rows once. *)
Record weights_arg : Type := Weights { wa_rows : list (list (option Z)); wa_again : bool }.

(** The loops raising TypeError, knapsack.py:24-26, 28-30, 38-40. *)
Definition check_ints (l : list (option Z)) : res (list Z) :=
  mapM (fun v => match v with Some z => Ok z | None => Err TypeError end) l.

(** The loop over the weights, knapsack.py:31-41; [ws] is the list being built. *)
Fixpoint check_rows (nvalues ncaps : nat) (ws : list (list Z)) (rows : list (list (option Z))) : res (list (list Z)) :=
  match rows with
  | [] => Ok ws
  | row :: rows' =>
      if (nvalues <=? length ws)%nat then Err ValueError
      else if negb (length row =? ncaps)%nat then Err ValueError
      else let! w := check_ints row in check_rows nvalues ncaps (ws ++ [w])%list rows'
  end.

(** [sum(x * c for x, c in zip(xs, cs))] for Variable objects [xs] and ints [cs]. *)
Definition weighted (xs : list name) (cs : list Z) : formula :=
  FSum (map (fun p => FBin UMul (FVar (fst p)) (FInt (snd p))) (combine xs cs)).

(** The object: its attributes are missing if there are no values (22-23).
    [k_weights]: the rows found by iterating over [weights] from now on. *)
Record knapsack : Type := Knapsack {
  k_values : list Z; k_capacities : list Z; k_weights : list (list Z); k_variables : list name }.

Definition op_res {A} (r : res A) : op A := fun w => (w, r).

Definition knapsack_init (values capacities : list (option Z)) (weights : weights_arg) : op (option knapsack) :=
  match values with
  | [] => op_ret None
  | _ =>
      do! vs := op_res (check_ints values) in
      do! cs := op_res (check_ints capacities) in
      do! ws := op_res (check_rows (length vs) (length cs) [] (wa_rows weights)) in
      do! _ := op_res (if (length ws <? length vs)%nat then Err ValueError else Ok tt) in
      do! xs := op_for (fun i => do! _ := add_bool_variable (Some (name1 "i_" i)) in op_ret (name1 "i_" i)) (seq 0 (length vs)) in
      let ws' := if wa_again weights then ws else [] in
      do! _ := op_for (fun p => add_formula (FBin ULe (weighted xs (map (fun row => nth (fst p) row 0) ws')) (FInt (snd p)))) (enumerate cs) in
      op_ret (Some (Knapsack vs cs ws' xs))
  end.

(** ** __call__, knapsack.py:54-76. *)
Record ksolution : Type := KSolution {
  ks_optimal : bool; ks_solution : option (list Z); ks_value : option Z; ks_weights : option (list Z) }.

(** [sum(s * c for s, c in zip(ss, cs))] of ints. *)
Definition zsum_prod (ss cs : list Z) : Z := zsum (map (fun p => fst p * snd p) (combine ss cs)).

Definition knapsack_call (clk : nat -> Z) (shuffle : list name -> list name) (fuel : nat)
           (e : env) (sv : solver) (k : option knapsack) : option (env * res ksolution) :=
  match k with
  | None => Some (e, Err AttributeError)
  | Some k =>
      match build (weighted (k_variables k) (k_values k)) with
      | Err ex => Some (e, Err ex)
      | Ok (OInt _) => Some (e, Err TypeError)            (* objective.py:54-55 *)
      | Ok (OExpr o) =>
          match optimal_solution clk shuffle fuel e sv [OObj (Objective o true)] no_args with
          | None => None
          | Some (e', Err ex) => Some (e', Err ex)
          | Some (e', Ok (flag, None)) => Some (e', Ok (KSolution flag None None None))
          | Some (e', Ok (flag, Some s)) =>
              match mapM (get_item s) (k_variables k) with
              | Err ex => Some (e', Err ex)
              | Ok sel =>
                  Some (e', Ok (KSolution flag (Some sel) (Some (zsum_prod sel (k_values k)))
                    (Some (map (fun i => zsum_prod sel (map (fun row => nth i row 0) (k_weights k)))
                               (seq 0 (length (k_capacities k)))))))
              end
          end
      end
  end.

(** [obj = KnapsackOptimizer(values, capacities, weights, **options); r = obj()]: the
    result, and [obj.get_stats().interrupt]. *)
Definition knapsack_run (clk : nat -> Z) (shuffle : list name -> list name) (fuel : nat)
           (values capacities : list (option Z)) (weights : weights_arg) (o : options)
  : option (res ksolution * option interrupt) :=
  match construct (knapsack_init values capacities weights) with
  | Err ex => Some (Err ex, None)
  | Ok (k, e) =>
      match knapsack_call clk shuffle fuel e (options_solver GROUPS o) k with
      | None => None
      | Some (e', r) => Some (r, e_interrupt e')
      end
  end.
