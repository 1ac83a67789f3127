(** The number of solutions that a KnapsackOptimizer finds. *)
From Coq Require Import Permutation.
From Verif Require Import Queens Nonogram KnapsackWatch OptimizeCost SpecSafe SpecSolve SpecOptimize SpecWatch SpecBound DictFacts
  SpecKnapsack KnapsackFacts BoundFacts BoundProps SpecSelections OptimizeProps TriesKnap2 TriesKnap3 CostOptimize CostKnap OptimizeOrder.
Open Scope list_scope.
Open Scope Z_scope.

Fixpoint packs (order : list name) : list subst :=
  match order with
  | [] => [[]]
  | x :: order' => map (cons (x, 0)) (packs order') ++ map (cons (x, 1)) (packs order')
  end.

Lemma packs_In order : forall t, map fst t = order -> selection t -> In t (packs order).
Proof.
  induction order as [|x order IH]; intros [|[y v] t] E Hs; try discriminate; [now left|]. cbn in E. injection E as -> E.
  assert (Hin : In t (packs order)). { apply IH; [exact E|]. intros a b Hab. apply (Hs a b). now right. }
  cbn [packs]. apply in_or_app. destruct (Hs x v (or_introl eq_refl)) as [-> | ->]; [left|right]; apply in_map; exact Hin.
Qed.

Lemma packs_length order : Z.of_nat (length (packs order)) = 2 ^ Z.of_nat (length order).
Proof.
  induction order as [|x order IH]; [reflexivity|]. cbn [packs length]. rewrite app_length, !map_length, Nat2Z.inj_succ, Nat2Z.inj_add, Z.pow_succ_r by lia.
  match goal with |- ?a + ?a = _ => assert (E : a = 2 ^ Z.of_nat (length order)) by exact IH; rewrite E end. lia.
Qed.

Section Run.
Variables (clk : nat -> Z) (shuffle : list name -> list name) (f : nat) (o : options) (values caps : list Z) (rows : list (list Z)) (again : bool).
Variables (vs : list visit) (r : option exn) (i : option interrupt).
Hypothesis Hinst : instance values caps rows.
Hypothesis Hs : shuffles shuffle.
Let ws := if again then rows else [].
Hypothesis Hrun : knapsack_watched clk shuffle f (map Some values) (map Some caps) (Weights (map (map Some) rows) again) o = Some (vs, r, i).

Lemma knapsack_found : NoDup (found vs) /\ (forall t, In t (found vs) -> selection t /\ Permutation (map fst t) (items (length values))) /\
  len (found vs) <= 2 ^ len values.
Proof.
  destruct (watched_run clk shuffle f o values caps rows again vs r i Hinst Hrun) as (e & e' & ex & Hb & Ho & Ei & Ec & Hw).
  fold ws in Hb, Ec. pose proof (k_valid values caps ws shuffle e ex Hb Hs Ho) as Hv.
  pose proof (observed_same clk shuffle f e (options_solver GROUPS o) [OObj (Objective ex true)] no_args) as Hobs. rewrite Hw in Hobs.
  destruct (optimize_order clk shuffle f e _ _ no_args (found vs) e' r Hv Hobs) as (order & Hp & _ & Hk & Hnd & _).
  assert (Hin : forall t, In t (found vs) -> selection t /\ Permutation (map fst t) (items (length values))).
  { intros t Ht. pose proof (opt_feasible clk shuffle f e _ _ no_args (found vs) e' r Hv Hobs t Ht) as [Ha _].
    destruct (k_assigns values caps ws e Hb t Ha) as [Hkeys Hd]. destruct Ha as (Hndt & _). split.
    - intros x v Hx. assert (Hxs : In x (xs_ values)) by (apply Hkeys; exact (in_map fst _ _ Hx)).
      destruct (Hd x Hxs) as [Hg Hval]. assert (Hg' : dget t x = Some v) by (apply dget_NoDup; assumption).
      rewrite Hg in Hg'. injection Hg' as <-. exact Hval.
    - apply NoDup_Permutation; [exact Hndt|exact (xs_NoDup values)|]. intros x. symmetry. exact (Hkeys x). }
  split; [exact Hnd|]. split; [exact Hin|].
  destruct (found vs) as [|t0 ts] eqn:Ef; [unfold len; simpl; assert (0 < 2 ^ Z.of_nat (length values)) by (apply Z.pow_pos_nonneg; lia); lia|].
  rewrite <- Ef in *.
  assert (H : (length (found vs) <= length (packs order))%nat).
  { apply NoDup_incl_length; [exact Hnd|]. intros t Ht. apply packs_In; [now apply Hk|apply (Hin t Ht)]. }
  assert (Hlen : length order = length values).
  { rewrite <- (Hk t0); [|rewrite Ef; now left]. destruct (Hin t0) as [_ Hpt]; [rewrite Ef; now left|].
    rewrite (Permutation_length Hpt). unfold items. now rewrite map_length, seq_length. }
  pose proof (packs_length order) as Hl. rewrite Hlen in Hl. unfold len.
  assert (Hz : Z.of_nat (length (found vs)) <= Z.of_nat (length (packs order))) by lia.
  eapply Z.le_trans; [exact Hz|]. apply Z.eq_le_incl. exact Hl.
Qed.

Lemma knapsack_total : Z.of_nat (knapsack_iterations clk shuffle f (map Some values) (map Some caps) (Weights (map (map Some) rows) again) o) <= 3 * 2 ^ len values - 1.
Proof.
  destruct (knapsack_cost clk shuffle f o values caps rows again vs r i Hinst Hs Hrun) as [H _]. destruct knapsack_found as (_ & _ & H2).
  rewrite Z.pow_add_r in H by (unfold len; lia). change (2 ^ 1) with 2 in H. lia.
Qed.

Lemma knapsack_solutions : NoDup (found vs) /\ (forall t, In t (found vs) -> selection t /\ Permutation (map fst t) (items (length values))) /\
  len (found vs) <= 2 ^ len values /\
  Z.of_nat (knapsack_iterations clk shuffle f (map Some values) (map Some caps) (Weights (map (map Some) rows) again) o) <= 3 * 2 ^ len values - 1.
Proof. destruct knapsack_found as (H1 & H2 & H3). repeat split; [exact H1|apply (H2 _ H)|apply (H2 _ H)|exact H3|exact knapsack_total]. Qed.
End Run.
