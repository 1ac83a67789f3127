(** Bounds for the number of iterations of optimisations by the sizes of the domains. *)
From Coq Require Import Permutation.
From Verif Require Import Optimize SolverWatch OptimizeWatch OptimizeCost SpecFormula SpecSafe SpecSolve SpecOrder SpecWatch SpecOptimize
  ExprFacts DictFacts ModelFacts CompileFacts CodeFacts SearchFacts LoopFacts EnumFacts SetupFacts SolveFacts MasterFacts
  SolverProps SolverMore TraceFacts OptimizeFacts OptimizeRun OptimizeSingle OptimizeProps WatchFacts WatchProps WatchCost SpecBound
  BoundFacts BoundProps CostOptimize OptimizeOrder SpecSpace CostSpace.
Open Scope list_scope.
Open Scope Z_scope.

Lemma flat_map_le {A B} (g : A -> list B) n l : (forall a, len (g a) <= n) -> len (flat_map g l) <= len l * n.
Proof.
  intros H. induction l as [|a l IH]; [cbn; lia|]. cbn [flat_map]. rewrite len_app, len_cons. specialize (H a). lia.
Qed.

Lemma filter_len {A} (p : A -> bool) l : len (filter p l) <= len l.
Proof. induction l as [|a l IH]; [cbn; lia|]. cbn [filter]. destruct (p a); rewrite ?len_cons; lia. Qed.

Lemma nodes_len w i size xs : (forall x, In x xs -> len (dom i x) <= size x) -> (forall x, 0 <= size x) ->
  forall s, len (nodes w i xs s) <= tree (map size xs).
Proof.
  intros H Hpos. induction xs as [|x xs IH]; intros s; [cbn; lia|]. cbn [nodes tree map]. rewrite len_cons.
  assert (Hf := flat_map_le (fun v => nodes w i xs (dset s x v)) (tree (map size xs)) (filter (passed w i x s) (dom i x))
    (fun v => IH (fun y Hy => H y (or_intror Hy)) (dset s x v))).
  pose proof (filter_len (passed w i x s) (dom i x)) as Hl. specialize (H x (or_introl eq_refl)).
  assert (Ht : 0 <= tree (map size xs)).
  { apply tree_positive. intros d Hd. apply in_map_iff in Hd. destruct Hd as (y & <- & _). apply Hpos. }
  assert (len (filter (passed w i x s) (dom i x)) * tree (map size xs) <= size x * tree (map size xs)) by (apply Z.mul_le_mono_nonneg_r; lia).
  lia.
Qed.

Lemma subseq_len {A} (a b : list A) : subseq a b -> len a <= len b.
Proof. induction 1; rewrite ?len_cons; unfold len in *; simpl; lia. Qed.

Section Run.
Variables (clk : nat -> Z) (shuffle : list name -> list name) (f : nat) (e : env) (sv : solver) (os : list oarg) (a : args).
Variables (vs : list visit) (e' : env) (r : option exn).
Let m := w_model (e_world e).
Hypothesis Hv : opt_valid shuffle e os a.
Hypothesis H : optimize_watched clk shuffle f e sv os a = Some (vs, e', r).

Let Hs : shuffles shuffle := proj1 (proj1 Hv).
Let Hn : well_named m := proj1 (proj2 (proj1 Hv)).

Definition bounds (order : list name) : Prop := Permutation order (variables_of m) /\
  plain_order shuffle (policy_of sv a) m order /\
  len (tried vs) <= tree (sizes m order).

Lemma bounds_nothing : vs = [] -> exists order, bounds order.
Proof.
  intros Evs. destruct (some_order shuffle (policy_of sv a) m Hs) as (order & Hp & Ho). exists order.
  split; [exact Hp|]. split; [exact Ho|].
  rewrite Evs. apply (tree_positive _ (sizes_positive m _)).
Qed.

Lemma optimize_tree : exists order, bounds order.
Proof.
  pose proof H as H'. unfold optimize_watched in H'.
  destruct (make_constraints os (e_world e)) as [wA [oms|ex]] eqn:Emk.
  2:{ apply bounds_nothing. now injection H' as <- _ _. }
  set (aA := with_objectives a oms) in *.
  destruct (made_facts shuffle e os a Hv wA oms Emk) as ((aux & Hx) & HnA & Eos & M).
  pose proof Hx as (Em & Haux & _).
  assert (HoA : objects wA (all_cons (w_model wA) aA)) by exact (made_objects shuffle e os a Hv wA oms Emk).
  assert (Hvar : forall x d, is_variable (w_model wA) x d <-> is_variable m x d) by (intros x d; exact (extends_variable (e_world e) wA aux x d Hx)).
  assert (Hvars : dkeys (pure_variables (m_vars (w_model wA))) = variables_of m).
  { rewrite Em. cbn [m_vars]. rewrite pure_aux; [apply variables_of_pure|]. intros x j Hin.
    destruct (Haux x j Hin) as (p & -> & _). eauto. }
  destruct f as [|f']; [discriminate|]. rewrite observe_S, begin_spec in H'. cbv zeta in H'. cbn [extended map app set_world e_world] in H'.
  destruct (m_solvable (w_model wA)); cbn [negb] in H'.
  2:{ apply bounds_nothing. now injection H' as <- _ _. }
  destruct (do_setup (s_compile sv) wA (x_additional aA)) as [w [u|ex]] eqn:Es.
  2:{ apply bounds_nothing. now injection H' as <- _ _. }
  destruct (opt_setup shuffle e sv os a Hv wA oms Emk w u Es) as (Ew & Hu & Hg & Hpm & Hnd & Hin).
  fold aA in Ew, Hu, Hg, Hpm, Hnd, Hin.
  set (order := order_of shuffle sv aA (w_model wA) u) in *.
  destruct order as [|x0 names0] eqn:Eord.
  { apply bounds_nothing. now injection H' as <- _ _. }
  rewrite <- Eord in *.
  assert (Hne : order <> []) by (rewrite Eord; discriminate).
  destruct (observe clk shuffle f' _ 0 (start_env clk (set_world e wA) w)
     (GLoop (run_local (set_world e wA) sv aA u) (Cfg [(order, [])] []) 0)) as [[[vs1 e1] r1]|] eqn:Eo;
    [|discriminate].
  injection H' as E1 E2 E3. subst vs1 e1 r1.
  set (i := GInfo (u_doms u) (u_cons u) (u_ad u)) in *.
  set (J := fun (_ : list subst) (_ : world) => True).
  pose proof (observe_loop clk shuffle (fun _ w s => add_solutions oms w s) i order J wA Hnd (fun _ _ _ _ _ _ _ => I) f' 0%nat
    (start_env clk (set_world e wA) w) (run_local (set_world e wA) sv aA u) (Cfg [(order, [])] []) 0 vs e' r []
    (start_running clk (set_world e wA) w) eq_refl) as Hobs.
  assert (Hrec0 : recorded i order J [] (Cfg [(order, [])] [])).
  { constructor; cbn [g_stack g_doms].
    - intros xs s [E|[]]. injection E as <- <-. split; [reflexivity|]. intros s x v q E. destruct s; discriminate.
    - intros x rest s d v _ E. discriminate.
    - intros pre ev t post E. destruct pre; discriminate.
    - intros pre t mid E. destruct pre; discriminate.
    - right. exists order, []. split; [reflexivity|]. reflexivity. }
  destruct (Hobs ltac:(cbn; split; [exact Hne|split; [exact Hnd|split; [reflexivity|exact I]]]) ltac:(constructor) Hrec0 I Eo) as (_ & Hsubs & _).
  assert (Hk' : dkeys (u_doms u) = variables_of m).
  { rewrite (ui_keys _ _ _ _ Hu). exact Hvars. }
  exists order.
  split; [rewrite <- Hvars; exact Hpm|].
  split.
  { apply select_plain; [exact Hs|exact Hk'|]. intros x Hxn. rewrite <- Hvars in Hxn.
    apply (Permutation_in x (Permutation_sym Hpm)), (order_In (w_model wA) order Hpm) in Hxn. destruct Hxn as (d & Hxd).
    unfold domain_size. rewrite (declared_variable (w_model wA) x d HnA Hxd). now rewrite (declared_variable m x d Hn (proj1 (Hvar x d) Hxd)). }
  apply subseq_len in Hsubs. eapply Z.le_trans; [exact Hsubs|].
  unfold remaining. cbn [g_stack g_doms flat_map]. rewrite app_nil_r. unfold frame_nodes. cbn [fst snd].
  rewrite Eord at 1. cbn [dget]. rewrite <- Eord. unfold sizes. apply nodes_len.
  - intros x Hxo. apply (order_In (w_model wA) order Hpm) in Hxo. destruct Hxo as (d & Hxo).
    unfold domain_size. rewrite (declared_variable m x d Hn (proj1 (Hvar x d) Hxo)).
    apply pure_dget in Hxo; [|exact HnA]. destruct (ui_doms _ _ _ _ Hu x d Hxo) as (g & Hg' & _).
    unfold dom, dget_or. cbn [i_doms bare i]. rewrite Hg'. apply filter_len.
  - intros x. unfold domain_size, len. lia.
Qed.

Lemma optimize_space : exists order, Permutation order (variables_of m) /\
  plain_order shuffle (policy_of sv a) m order /\
  len (tried vs) <= tree (sizes m order) /\ len (found vs) <= space (sizes m order) /\
  Z.of_nat (optimize_iterations clk shuffle f e sv os a) <= 2 * tree (sizes m order) + space (sizes m order) + 1.
Proof.
  destruct optimize_tree as (order & Hp & Ho & Ht).
  pose proof (observed_same clk shuffle f e sv os a) as Hobs. rewrite H in Hobs.
  assert (Hf : len (found vs) <= space (sizes m order)).
  { destruct (optimize_order clk shuffle f e sv os a (found vs) e' r Hv Hobs) as (order' & Hp' & _ & Hk & Hnd & _).
    rewrite (space_perm (sizes m order) (sizes m order')) by (apply Permutation_map; fold m in Hp'; now rewrite Hp, Hp').
    apply fulls_bound; [exact Hnd|]. intros s Hin. split; [now apply Hk|]. intros x v Hx.
    destruct (opt_feasible clk shuffle f e sv os a (found vs) e' r Hv Hobs s Hin) as [(_ & Hkeys & Hdm) _].
    destruct (proj1 (Hkeys x) (in_map fst _ _ Hx)) as (d & Hxd). pose proof (Hdm x v d Hx Hxd) as Hvd. now rewrite (declared_variable m x d Hn Hxd). }
  exists order. split; [exact Hp|]. split; [exact Ho|]. split; [exact Ht|]. split; [exact Hf|].
  destruct (optimize_cost clk shuffle f e sv os a vs e' r Hv H) as [Hc _]. lia.
Qed.

Lemma optimize_ascending : policy_of sv a = MIN_BOUND -> forall order, Permutation order (variables_of m) ->
  len (tried vs) <= tree (sizes m order) /\
  Z.of_nat (optimize_iterations clk shuffle f e sv os a) <= 2 * tree (sizes m order) + space (sizes m order) + 1.
Proof.
  intros Hpo order' Hp'. destruct optimize_space as (order & Hp & Ho & H1 & H2 & H3).
  rewrite Hpo in Ho. cbn in Ho.
  assert (Hpm : Permutation (sizes m order) (sizes m order')) by (apply Permutation_map; now rewrite Hp, Hp').
  pose proof (tree_ascending _ _ (sizes_positive m order) (sorts_sizes m _ order Ho) Hpm).
  rewrite (space_perm _ _ Hpm) in H2, H3. split; lia.
Qed.
End Run.
