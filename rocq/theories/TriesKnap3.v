(** What the search of a KnapsackOptimizer tries, and how much that is. *)
From Coq Require Import Permutation.
From Verif Require Import Queens Nonogram KnapsackWatch SpecSafe SpecSolve SpecOptimize SpecWatch SpecBound ExprFacts DictFacts OptimizeFacts OptimizeProps OptimizeMore
  ExprFacts OptimizeRun SudokuFacts  PuzzleFacts SpecKnapsack KnapsackFacts BoundFacts BoundProps SpecSelections TriesKnap2.
Open Scope list_scope.
Open Scope Z_scope.

(** ** Counting *)

Fixpoint selections (order : list name) : list subst :=
  match order with
  | [] => []
  | x :: order' => [] :: map (cons (x, 0)) (selections order') ++ map (cons (x, 1)) (selections order')
  end.

Lemma selections_In order : forall t, In t (selections order) <-> SpecWatch.starts order t /\ selection t.
Proof.
  induction order as [|x order IH]; intros t; cbn [selections].
  - split; [intros []|]. intros [(x & q & E) _]. destruct (map fst t); discriminate.
  - cbn [In]. rewrite in_app_iff, !in_map_iff.
    assert (Hstep : forall v s, (v = 0 \/ v = 1) -> In s (selections order) -> SpecWatch.starts (x :: order) ((x, v) :: s) /\ selection ((x, v) :: s)).
    { intros v s Hv Hs. apply IH in Hs. destruct Hs as [(y & q & E) Hs]. split.
      - exists y, q. cbn. now rewrite E.
      - intros z u [Ez|Hz]; [injection Ez as <- <-; exact Hv|exact (Hs z u Hz)]. }
    split.
    + intros [<-|[(s & <- & Hs)|(s & <- & Hs)]]; [|apply Hstep; auto..]. split; [exists x, order; reflexivity|intros z u []].
    + intros [(y & q & E) Hs]. destruct t as [|[z v] s]; [now left|right]. cbn in E. injection E as <- E.
      assert (Hin : In s (selections order)). { apply IH. split; [exists y, q; exact E|]. intros a b Hab. apply (Hs a b). now right. }
      destruct (Hs x v (or_introl eq_refl)) as [-> | ->]; [left|right]; eauto.
Qed.

Lemma selections_NoDup order : NoDup (selections order).
Proof.
  induction order as [|x order IH]; [constructor|]. cbn [selections]. constructor.
  - rewrite in_app_iff, !in_map_iff. intros [(s & E & _)|(s & E & _)]; discriminate.
  - assert (Hm : forall v, NoDup (map (cons (x, v)) (selections order))).
    { intros v. apply FinFun.Injective_map_NoDup; [|exact IH]. intros a b E. now injection E. }
    apply NoDup_app_intro; auto. intros t H0 H1. apply in_map_iff in H0, H1. destruct H0 as (a & <- & _). destruct H1 as (b & E & _). discriminate.
Qed.

Lemma selections_len order : len (selections order) = 2 ^ len order - 1.
Proof.
  induction order as [|x order IH]; [reflexivity|]. unfold len in *. cbn [selections length]. rewrite app_length, !map_length.
  rewrite !Nat2Z.inj_succ, Nat2Z.inj_add, Z.pow_succ_r by lia. match goal with |- Z.succ (?a + ?a) = _ => assert (E : a = 2 ^ Z.of_nat (length order) - 1) by exact IH; rewrite E end. lia.
Qed.

Section Run.
Variables (clk : nat -> Z) (shuffle : list name -> list name) (f : nat) (o : options) (values caps : list Z) (rows : list (list Z)) (again : bool).
Variables (vs : list visit) (r : option exn) (i : option interrupt).
Hypothesis Hinst : instance values caps rows.
Hypothesis Hs : shuffles shuffle.
Let ws := if again then rows else [].
Let n := length values.
Hypothesis Hrun : knapsack_watched clk shuffle f (map Some values) (map Some caps) (Weights (map (map Some) rows) again) o = Some (vs, r, i).

Lemma watched_run : exists e e' ex, built (fun _ => 0) (e_world e) (VK values) (CK values caps ws) /\
  build (weighted (xs_ values) values) = Ok (OExpr ex) /\ i = e_interrupt e' /\
  construct (knapsack_init (map Some values) (map Some caps) (Weights (map (map Some) rows) again)) = Ok (obj values caps ws, e) /\
  optimize_watched clk shuffle f e (options_solver GROUPS o) [OObj (Objective ex true)] no_args = Some (vs, e', r).
Proof.
  destruct (run_construct values caps rows again Hinst) as (e & Ec & Hb). destruct (build_objective values (proj1 Hinst)) as (ex & Ho).
  unfold knapsack_watched in Hrun. fold ws in Ec. rewrite Ec in Hrun. unfold obj in Hrun. cbn [k_variables k_values] in Hrun. rewrite Ho in Hrun.
  destruct (optimize_watched _ _ _ _ _ _ _) as [[[vs0 e'] r0]|] eqn:E; [|discriminate]. injection Hrun as <- <- <-.
  exists e, e', ex. auto.
Qed.

Lemma selections_tried : r = None /\ exists order, Permutation order (items n) /\ (o_policy o = Some ORDERED -> order = items n) /\
  (o_policy o = Some REVERSED -> order = rev (items n)) /\ NoDup (tried vs) /\
  (forall t, In t (tried vs) -> SpecWatch.starts order t /\ partial_packing n caps ws t) /\
  (i = None -> forall t, SpecWatch.starts order t -> partial_packing n caps ws t -> open_value values t \/ lonely values -> In t (tried vs)).
Proof.
  destruct watched_run as (e & e' & ex & Hb & Ho & -> & _ & Hw). destruct (options_lims o) as [Ht Hl].
  split; [exact (s_none values caps ws clk shuffle f e (options_solver GROUPS o) ex vs e' r Hb Hs Ho Ht Hl Hw)|].
  destruct (s_tries values caps ws (proj1 Hinst) clk shuffle f e (options_solver GROUPS o) ex vs e' r Hb Hs Ho Ht Hl Hw) as (order & Hp & H1 & H2 & H).
  exists order. split; [exact Hp|]. split; [intros E; apply H1; unfold policy_of; cbn; now rewrite E|]. split; [intros E; apply H2; unfold policy_of; cbn; now rewrite E|]. exact H.
Qed.

Lemma selections_all : i = None -> (forall k, (k < n)%nat -> nth k values 0 <> 0) -> all_weighted n caps ws ->
  (forall t, In t (tried vs) -> selection t) /\ len (tried vs) = 2 ^ len values - 1.
Proof.
  intros Hi Hv Hw. destruct selections_tried as (_ & order & Hp & _ & _ & Hnd & Ht & Hin).
  assert (Hperm : Permutation (tried vs) (selections order)).
  { apply NoDup_Permutation; [exact Hnd|apply selections_NoDup|]. intros t. rewrite selections_In. split.
    - intros H. destruct (Ht t H) as [H1 [H2 _]]. auto.
    - intros [H1 H2]. assert (Hx : exists k, (k < n)%nat /\ ~ In (item k) (map fst t)).
      { destruct H1 as (x & q & E). assert (Hx : In x (items n)) by (apply (Permutation_in x Hp); rewrite E; apply in_or_app; right; now left).
        apply in_map_iff in Hx. destruct Hx as (k & <- & Hk). apply in_seq in Hk. exists k. split; [lia|]. intros Hx.
        assert (Hno : NoDup order) by (apply (Permutation_NoDup (Permutation_sym Hp)); exact (xs_NoDup values)).
        rewrite E in Hno. apply NoDup_remove_2 in Hno. apply Hno. apply in_or_app. now left. }
      destruct Hx as (k & Hk & Hx). apply Hin; [exact Hi|exact H1| |].
      + split; [exact H2|]. intros j Hj Hall. exfalso. apply Hx. apply Hall; [exact Hk|now apply Hw].
      + left. exists k. split; [now apply Hv|exact Hx]. }
  split; [intros t H; apply (Ht t H)|]. unfold len at 1. rewrite (Permutation_length Hperm). change (len (selections order) = 2 ^ len values - 1).
  rewrite selections_len. unfold len. rewrite (Permutation_length Hp). unfold items. now rewrite map_length, seq_length.
Qed.

Lemma selections_result : exists sol, knapsack_run clk shuffle f (map Some values) (map Some caps) (Weights (map (map Some) rows) again) o = Some (Ok sol, i) /\
  (found vs = [] -> ks_solution sol = None) /\
  (forall l s, found vs = l ++ [s] -> ks_solution sol = Some (map (chosen s) (seq 0 n))).
Proof.
  destruct selections_tried as (Hr & _). destruct watched_run as (e & e' & ex & Hb & Ho & Ei & Ec & Hw). rewrite Hr in *.
  pose proof (observed_same clk shuffle f e (options_solver GROUPS o) [OObj (Objective ex true)] no_args) as Hobs. rewrite Hw in Hobs.
  destruct (options_lims o) as [Ht Hl].
  unfold knapsack_run. rewrite Ec. unfold knapsack_call, obj. cbn [k_variables k_values k_weights k_capacities]. rewrite Ho. unfold optimal_solution. rewrite Hobs.
  destruct (last_solution (found vs)) as [s|] eqn:El.
  - assert (Hin : In s (found vs)) by now apply last_solution_In.
    pose proof (opt_feasible clk shuffle f e _ _ no_args (found vs) e' None (k_valid values caps ws shuffle e ex Hb Hs Ho) Hobs s Hin) as [Ha _].
    destruct (k_assigns values caps ws e Hb s Ha) as [_ Hd].
    rewrite (mapM_Ok (get_item s) (val s)) by (intros x Hx; unfold get_item; now rewrite (proj1 (Hd x Hx))).
    eexists. split; [rewrite Ei; reflexivity|]. cbn [ks_solution]. split; [intros E; rewrite E in Hin; contradiction|].
    intros l s' E. rewrite E, last_solution_snoc in El. injection El as ->. f_equal. apply val_chosen.
  - apply last_solution_None in El. rewrite El. eexists. split; [rewrite Ei; reflexivity|]. cbn [ks_solution]. split; [reflexivity|].
    intros l s E. destruct l; discriminate.
Qed.
End Run.
