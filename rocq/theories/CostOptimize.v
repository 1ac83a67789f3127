(** Lemmas about the number of iterations of optimisations. *)
From Coq Require Import Permutation.
From Verif Require Import Optimize SolverWatch OptimizeWatch OptimizeCost SpecFormula SpecSafe SpecSolve SpecWatch SpecOptimize
  ExprFacts DictFacts ModelFacts CompileFacts CodeFacts SearchFacts LoopFacts EnumFacts SetupFacts SolveFacts MasterFacts
  SolverProps SolverMore TraceFacts OptimizeFacts OptimizeRun OptimizeSingle WatchFacts WatchProps WatchCost SpecBound BoundFacts BoundProps.
Open Scope list_scope.
Open Scope Z_scope.

Section Counting.
Variable clk : nat -> Z.
Variable shuffle : list name -> list name.

Section Loop.
Variable consumer : nat -> world -> subst -> res world.

Lemma loop_count_S f k e g :
  loop_count clk shuffle (S f) consumer k e g =
      (iterates g +
       match micro clk shuffle e g with
       | (e', g', EvNone) => loop_count clk shuffle f consumer k e' g'
       | (e', g', EvYield s) =>
           match consumer k (e_world e') s with
           | Err _ => 0%nat
           | Ok w => loop_count clk shuffle f consumer (S k) (set_world e' w) g'
           end
       | _ => 0%nat
       end)%nat.
Proof. reflexivity. Qed.

Lemma observe_count f : forall k e l c n vs e' r,
  running e (l_timer l) -> stack_ok c -> doms_ok c ->
  observe clk shuffle f consumer k e (GLoop l c n) = Some (vs, e', r) ->
  let z := Z.of_nat (loop_count clk shuffle f consumer k e (GLoop l c n)) in
  z <= 2 * len (tried vs) + len (found vs) + pending c + 2 /\
  (r = None -> e_interrupt e' = None -> z = 2 * len (tried vs) + len (found vs) + pending c).
Proof.
  induction f as [f IH] using lt_wf_ind. intros k e l c n vs e' r Hrun Hok Hdk H. cbv zeta in *.
  destruct f as [|f]; [discriminate|]. rewrite observe_S in H. rewrite loop_count_S. cbv zeta in H.
  cbn [Solver.micro extended iterates] in *.
  pose proof (pending_bound c Hok) as Hpb.
  destruct (g_stack c) as [|[xs s] stk] eqn:Estk.
  { inversion H; subst. unfold pending. rewrite Estk. unfold len. simpl. lia. }
  destruct (check_timeout_cases clk e l) as [(e1 & Hc & Hw & Ht & Hi & Htm & Hclk & Hnt & Hnone)|[(t & Hto & Hc & Hel)|(Hto & Hc)]];
    rewrite Hc in H; rewrite Hc.
  2:{ replace (map Extends _) with (@nil visit) in H by (destruct xs as [|x xs]; [reflexivity|now destruct (dget (g_doms c) x)]).
      inversion H; subst. split; [|discriminate]. unfold len. simpl. lia. }
  2:{ replace (map Extends _) with (@nil visit) in H by (destruct xs as [|x xs]; [reflexivity|now destruct (dget (g_doms c) x)]).
      inversion H; subst. split; [|discriminate]. unfold len. simpl. lia. }
  assert (Hrun1 : running e1 (l_timer l)) by (unfold running; rewrite Ht; exact Hrun).
  rewrite Hw in H. rewrite Hw.
  assert (Hext : match xs with [] => [] | x :: _ => match dget (g_doms c) x with Some _ => [] | None => [s] end end = extends_now c).
  { unfold extends_now. now rewrite Estk. }
  rewrite Hext in H.
  assert (Hne : g_stack c <> []) by (rewrite Estk; discriminate).
  pose proof (core_step_nodes (e_world e) (l_info l) c Hne Hok Hdk) as Hstep.
  pose proof (core_step_pending (e_world e) (l_info l) c Hne Hok) as Hpend.
  set (now := map Extends (extends_now c)) in *.
  assert (Hnow : tried now = extends_now c) by apply tried_extends.
  assert (Hfn : found now = []) by apply found_extends.
  destruct (core_step (e_world e) (l_info l) c) as [c'|y c'|ex].
  - destruct Hstep as (Hok' & Hdk' & _).
    destruct (observe clk shuffle f consumer k e1 (GLoop l c' n)) as [[[vs1 e2] r1]|] eqn:Ew; [|discriminate].
    destruct (IH f ltac:(lia) k e1 l c' n vs1 e2 r1 Hrun1 Hok' Hdk' Ew) as [Hp Hall].
    inversion H; subst. rewrite tried_app, found_app, Hnow, Hfn, len_app. cbn [app]. split; [lia|].
    intros Hr Hint. specialize (Hall Hr Hint). lia.
  - destruct Hstep as (Hok' & Hdk' & _).
    destruct (do_stop_running clk e1 (l_timer l) Hrun1) as (t & s0 & Hs0 & Et & Hstop).
    rewrite Hstop in H. rewrite Hstop. set (e2 := tick (set_timer e1 (l_timer l) t)) in *.
    destruct (consumer k (e_world e2) y) as [w1|ex] eqn:Ecs.
    2:{ inversion H; subst. rewrite tried_app, found_app, Hnow, Hfn. cbn [app tried found]. rewrite app_nil_r.
        split; [|discriminate]. change (len [y]) with 1. unfold len. lia. }
    destruct (observe clk shuffle f consumer (S k) (set_world e2 w1) (GYield l c' (n + 1))) as [[[vs1 e3] r1]|] eqn:Ew; [|discriminate].
    inversion H; subst vs e3 r1. clear H.
    destruct f as [|f]; [discriminate|]. rewrite observe_S in Ew. rewrite loop_count_S. cbv zeta in Ew.
    cbn [Solver.micro extended map app iterates Nat.add] in *.
    assert (Hst : stopped (set_world e2 w1) (l_timer l)).
    { unfold stopped, e2. simpl. rewrite upd_same. subst t. reflexivity. }
    destruct (do_start_stopped clk (set_world e2 w1) (l_timer l) Hst) as (t4 & Et4 & Hstart). rewrite Hstart in Ew. rewrite Hstart.
    set (e4 := tick (set_timer (set_world e2 w1) (l_timer l) t4)) in *.
    assert (Hrun4 : running e4 (l_timer l)).
    { unfold running, e4. simpl. rewrite upd_same. subst t4. reflexivity. }
    pose proof (pending_bound c' Hok') as Hpb'.
    rewrite tried_app, found_app, Hnow, Hfn. cbn [app]. change (tried (Finds y :: vs1)) with (tried vs1).
    change (found (Finds y :: vs1)) with (y :: found vs1). rewrite len_app, len_cons.
    destruct (l_limit l) as [|m|].
    + destruct (observe clk shuffle f consumer (S k) e4 (GLoop l c' (n + 1))) as [[[vs2 e5] r5]|] eqn:E4; [|discriminate].
      destruct (IH f ltac:(lia) (S k) e4 l c' (n + 1) vs2 e5 r5 Hrun4 Hok' Hdk' E4) as [Hp Hall].
      inversion Ew; subst. split; [lia|]. intros Hr Hint. specialize (Hall Hr Hint). lia.
    + destruct (m <=? n + 1).
      * inversion Ew; subst. change (len (tried [])) with 0. change (len (found [])) with 0. split; [lia|]. intros _ Hint. discriminate.
      * destruct (observe clk shuffle f consumer (S k) e4 (GLoop l c' (n + 1))) as [[[vs2 e5] r5]|] eqn:E4; [|discriminate].
        destruct (IH f ltac:(lia) (S k) e4 l c' (n + 1) vs2 e5 r5 Hrun4 Hok' Hdk' E4) as [Hp Hall].
        inversion Ew; subst. split; [lia|]. intros Hr Hint. specialize (Hall Hr Hint). lia.
    + inversion Ew; subst. change (len (tried [])) with 0. change (len (found [])) with 0. split; [lia|discriminate].
  - inversion H; subst. split; [unfold len; lia|discriminate].
Qed.
End Loop.

Lemma optimize_cost f e sv os a vs e' r :
  opt_valid shuffle e os a -> optimize_watched clk shuffle f e sv os a = Some (vs, e', r) ->
  let n := Z.of_nat (optimize_iterations clk shuffle f e sv os a) in
  n <= 2 * len (tried vs) + len (found vs) + 1 /\
  (r = None -> e_interrupt e' = None -> tried vs <> [] -> n = 2 * len (tried vs) + len (found vs) - 1).
Proof.
  intros Hv H. cbv zeta. unfold optimize_watched in H. unfold optimize_iterations.
  destruct (make_constraints os (e_world e)) as [wA [oms|ex]] eqn:Emk.
  2:{ inversion H; subst. unfold len. simpl. split; [lia|discriminate]. }
  set (aA := with_objectives a oms) in *.
  destruct f as [|f']; [discriminate|]. rewrite loop_count_S. rewrite observe_S, begin_spec in H. rewrite begin_spec. cbv zeta in *.
  cbn [extended map app set_world e_world iterates Nat.add] in *.
  destruct (m_solvable (w_model wA)); cbn [negb] in *.
  2:{ inversion H; subst. unfold len. simpl. split; [lia|contradiction]. }
  destruct (do_setup (s_compile sv) wA (x_additional aA)) as [w [u|ex]] eqn:Es.
  2:{ inversion H; subst. unfold len. simpl. split; [lia|discriminate]. }
  destruct (opt_setup shuffle e sv os a Hv wA oms Emk w u Es) as (_ & _ & _ & _ & Hnd & _).
  fold aA in Hnd.
  destruct (order_of shuffle sv aA (w_model wA) u) as [|x names] eqn:Eord.
  { inversion H; subst. unfold len. simpl. split; [lia|contradiction]. }
  destruct (observe clk shuffle f' _ 0 (start_env clk (set_world e wA) w)
     (GLoop (run_local (set_world e wA) sv aA u) (Cfg [(x :: names, [])] []) 0)) as [[[vs1 e1] r1]|] eqn:Eo;
    [|discriminate].
  inversion H; subst vs1 e1 r1. clear H.
  pose proof (observe_count (fun _ w s => add_solutions oms w s) f' 0%nat (start_env clk (set_world e wA) w) (run_local (set_world e wA) sv aA u)
    (Cfg [(x :: names, [])] []) 0 vs e' r (start_running clk (set_world e wA) w)) as Hwn.
  specialize (Hwn ltac:(cbn; repeat split; try assumption; discriminate) ltac:(constructor) Eo).
  unfold pending, weights, weight in Hwn. cbn [g_stack g_doms fst dget] in Hwn. destruct Hwn as [H1 H2]. split; [lia|].
  intros Hr Hint _. specialize (H2 Hr Hint). lia.
Qed.

End Counting.
