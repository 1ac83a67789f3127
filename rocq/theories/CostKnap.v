(** The number of iterations of the search of a KnapsackOptimizer. *)
From Coq Require Import Permutation.
From Verif Require Import Queens Nonogram KnapsackWatch OptimizeCost SpecSafe SpecSolve SpecOptimize SpecWatch SpecBound
  SpecKnapsack KnapsackFacts BoundFacts BoundProps SpecSelections TriesKnap2 TriesKnap3 CostOptimize SolverCases KnapCases.
Open Scope list_scope.
Open Scope Z_scope.

Section Run.
Variables (clk : nat -> Z) (shuffle : list name -> list name) (f : nat) (o : options) (values caps : list Z) (rows : list (list Z)) (again : bool).
Variables (vs : list visit) (r : option exn) (i : option interrupt).
Hypothesis Hinst : instance values caps rows.
Hypothesis Hs : shuffles shuffle.
Let ws := if again then rows else [].
Hypothesis Hrun : knapsack_watched clk shuffle f (map Some values) (map Some caps) (Weights (map (map Some) rows) again) o = Some (vs, r, i).
Let k := Z.of_nat (knapsack_iterations clk shuffle f (map Some values) (map Some caps) (Weights (map (map Some) rows) again) o).

Lemma knapsack_count : k <= 2 * len (tried vs) + len (found vs) + 1 /\
  (i = None -> tried vs <> [] -> k = 2 * len (tried vs) + len (found vs) - 1).
Proof.
  destruct (watched_run clk shuffle f o values caps rows again vs r i Hinst Hrun) as (e & e' & ex & Hb & Ho & Ei & Ec & Hw).
  destruct (selections_tried clk shuffle f o values caps rows again vs r i Hinst Hs Hrun) as [Hr _].
  pose proof (optimize_cost clk shuffle f e _ _ no_args vs e' r (k_valid values caps _ shuffle e ex Hb Hs Ho) Hw) as [H1 H2].
  unfold k, knapsack_iterations. rewrite Ec. unfold obj. cbn [k_variables k_values]. rewrite Ho.
  split; [exact H1|]. intros Hi. apply H2; congruence.
Qed.

Lemma knapsack_tries_bound : len (tried vs) <= 2 ^ len values - 1.
Proof.
  destruct (selections_tried clk shuffle f o values caps rows again vs r i Hinst Hs Hrun) as (_ & order & Hp & _ & _ & Hnd & Ht & _).
  assert (H : (length (tried vs) <= length (selections order))%nat).
  { apply NoDup_incl_length; [exact Hnd|]. intros t Hin. apply selections_In. destruct (Ht t Hin) as [H1 [H2 _]]. auto. }
  pose proof (selections_len order) as Hl. unfold len in *. rewrite (Permutation_length Hp) in Hl.
  unfold items in Hl. rewrite map_length, seq_length in Hl. assert (Hz : Z.of_nat (length (tried vs)) <= Z.of_nat (length (selections order))) by lia.
  eapply Z.le_trans; [exact Hz|]. eapply Z.le_trans; [apply Z.eq_le_incl; exact Hl|lia].
Qed.

Lemma knapsack_cost : k <= 2 ^ (len values + 1) + len (found vs) - 1 /\
  (i = None -> (forall k, (k < length values)%nat -> nth k values 0 <> 0) -> all_weighted (length values) caps ws ->
   k = 2 ^ (len values + 1) + len (found vs) - 3).
Proof.
  destruct knapsack_count as [H1 H2]. pose proof knapsack_tries_bound as H3.
  assert (Hpos : 0 <= len values) by (unfold len; lia).
  rewrite Z.pow_add_r by lia. change (2 ^ 1) with 2. split; [lia|]. intros Hi Hv Hw.
  destruct (selections_all clk shuffle f o values caps rows again vs r i Hinst Hs Hrun Hi Hv Hw) as [_ Hl].
  rewrite H2; [lia|exact Hi|]. intros E. rewrite E in Hl. change (@len subst []) with 0 in Hl.
  assert (Hne : 1 <= len values). { destruct Hinst as [Hn _]. destruct values; [contradiction|]. unfold len. cbn [length]. lia. }
  assert (2 ^ 1 <= 2 ^ len values) by (apply Z.pow_le_mono_r; lia). lia.
Qed.
End Run.
