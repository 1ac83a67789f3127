(** Lemmas about the number of iterations of the search. *)
From Coq Require Import Permutation.
From Verif Require Import Solver SolverWatch SpecFormula SpecSafe SpecSolve SpecWatch ExprFacts DictFacts ModelFacts
  CompileFacts CodeFacts SearchFacts LoopFacts EnumFacts SetupFacts SolveFacts MasterFacts HistoryFacts SolverProps
  WatchFacts WatchProps.
Open Scope list_scope.
Open Scope Z_scope.

(** Every stored domain will take a further iteration to be left; the domain of the top frame,
    if not stored yet, costs one iteration less than other ones, since its frame is there already. *)
Definition weight (doms : dict (list Z)) (fr : list name * subst) : Z :=
  match fst fr with
  | [] => 0
  | x :: _ => match dget doms x with None => -1 | Some _ => 1 end
  end.

Fixpoint weights (doms : dict (list Z)) (stk : list (list name * subst)) : Z :=
  match stk with [] => 0 | fr :: stk' => weight doms fr + weights doms stk' end.

Definition pending (c : cfg) : Z := weights (g_doms c) (g_stack c).

Lemma chained_weights doms doms' x : forall stk xs,
  In x xs -> (forall y, y <> x -> dget doms' y = dget doms y) ->
  chained doms xs stk -> weights doms' stk = weights doms stk.
Proof.
  induction stk as [|[ys s] stk IH]; intros xs Hx Hd Hc; [reflexivity|].
  destruct Hc as [(y & -> & Hy & Hyx) Hc].
  assert (Hne : y <> x) by (intros ->; contradiction).
  cbn [weights]. rewrite (IH (y :: xs) (or_intror Hx) Hd Hc). unfold weight. cbn [fst]. now rewrite (Hd y Hne).
Qed.

Lemma chained_positive doms : forall stk xs, chained doms xs stk -> 0 <= weights doms stk.
Proof.
  induction stk as [|[ys s] stk IH]; intros xs Hc; [simpl; lia|].
  destruct Hc as [(y & -> & Hy & Hyx) Hc]. cbn [weights]. specialize (IH _ Hc). unfold weight. cbn [fst].
  destruct (dget doms y); [lia|contradiction].
Qed.

Lemma pending_bound c : stack_ok c -> -1 <= pending c.
Proof.
  unfold stack_ok, pending. destruct (g_stack c) as [|[xs s] stk]; [simpl; lia|].
  intros (_ & _ & _ & Hc). apply chained_positive in Hc. cbn [weights]. unfold weight. cbn [fst].
  destruct xs as [|x xs]; [lia|]. destruct (dget (g_doms c) x); lia.
Qed.

Lemma core_step_pending w i c : g_stack c <> [] -> stack_ok c ->
  match core_step w i c with
  | CNext c' => 1 + pending c' = 2 * len (extends_now c) + pending c
  | CYield _ c' => 1 + pending c' = 2 * len (extends_now c) + 1 + pending c
  | CErr _ => True
  end.
Proof.
  intros Hne Hok. destruct c as [stk doms]. unfold core_step, stack_ok, extends_now, pending in *. cbn [g_stack g_doms] in *.
  destruct stk as [|[[|x rest] s] stk]; [contradiction|exact I|].
  destruct Hok as (_ & Hnd & Hrest & Hch). cbn [tl] in Hrest. inversion Hnd as [|? ? Hx Hnd']; subst.
  assert (Htake : forall v d doms0, (forall y, y <> x -> dget doms0 y = dget doms y) ->
    match take_value x rest s (v :: d) ((x :: rest, s) :: stk) doms0 with
    | CNext c' => weights (g_doms c') (g_stack c') = weights doms stk
    | CYield _ c' => weights (g_doms c') (g_stack c') = 1 + weights doms stk
    | CErr _ => True
    end).
  { intros v d doms0 Hd0.
    assert (Hw : weights (dset doms0 x d) stk = weights doms stk).
    { apply (chained_weights doms (dset doms0 x d) x stk (x :: rest) (or_introl eq_refl)); [|assumption].
      intros y Hy. rewrite dget_dset_ne by congruence. now apply Hd0. }
    unfold take_value. destruct rest as [|y rest]; cbn [g_stack g_doms weights]; rewrite Hw;
      unfold weight; cbn [fst]; rewrite dget_dset_eq; [lia|].
    assert (Hyx : y <> x) by (intros ->; apply Hx; now left).
    rewrite dget_dset_ne by congruence. rewrite (Hd0 y Hyx), (Hrest y (or_introl eq_refl)). lia. }
  cbn [weights]. unfold weight. cbn [fst].
  destruct (dget doms x) as [[|v d]|] eqn:Ed.
  - cbn [g_stack g_doms]. rewrite (chained_weights doms (ddel doms x) x stk (x :: rest) (or_introl eq_refl)); [|
      intros y Hy; apply dget_ddel_ne; congruence|assumption]. unfold len. simpl length. lia.
  - specialize (Htake v d doms (fun _ _ => eq_refl)).
    destruct (take_value x rest s (v :: d) ((x :: rest, s) :: stk) doms) as [c'|z c'|ex]; unfold len; simpl length; lia.
  - destruct (filter_domain w i x s) as [[|v d]|ex] eqn:Ef; [| |exact I].
    + cbn [g_stack g_doms]. unfold len. simpl length. lia.
    + specialize (Htake v d (dset doms x (v :: d))).
      specialize (Htake ltac:(intros y Hy; rewrite dget_dset_ne; congruence)).
      destruct (take_value x rest s (v :: d) ((x :: rest, s) :: stk) (dset doms x (v :: d))) as [c'|z c'|ex];
        unfold len; simpl length; lia.
Qed.

Lemma len_app {A} (a b : list A) : len (a ++ b) = len a + len b.
Proof. unfold len. rewrite app_length. lia. Qed.

Section Counting.
Variable clk : nat -> Z.
Variable shuffle : list name -> list name.

Lemma iterations_S f e g :
  iterations clk shuffle (S f) e g =
      (iterates g +
       match micro clk shuffle e g with
       | (e', g', EvNone) | (e', g', EvYield _) => iterations clk shuffle f e' g'
       | _ => 0%nat
       end)%nat.
Proof. reflexivity. Qed.

Lemma watch_iterations f : forall e l c n ts ys e' r,
  running e (l_timer l) -> stack_ok c -> doms_ok c ->
  watch clk shuffle f e (GLoop l c n) = Some (ts, ys, e', r) ->
  Z.of_nat (iterations clk shuffle f e (GLoop l c n)) <= 2 * len ts + len ys + pending c + 2 /\
  (r = None -> e_interrupt e' = None ->
   Z.of_nat (iterations clk shuffle f e (GLoop l c n)) = 2 * len ts + len ys + pending c).
Proof.
  induction f as [f IH] using lt_wf_ind. intros e l c n ts ys e' r Hrun Hok Hdk H.
  destruct f as [|f]; [discriminate|]. rewrite watch_S in H. rewrite iterations_S. cbn [Solver.micro extended iterates] in *.
  pose proof (pending_bound c Hok) as Hpb.
  destruct (g_stack c) as [|[xs s] stk] eqn:Estk.
  { inversion H; subst. unfold pending. rewrite Estk. unfold len. simpl. lia. }
  destruct (check_timeout_cases clk e l) as [(e1 & Hc & Hw & Ht & Hi & Htm & Hclk & Hnt & Hnone)|[(t & Hto & Hc & Hel)|(Hto & Hc)]];
    rewrite Hc in H; rewrite Hc.
  2:{ inversion H; subst. split; [|discriminate]. unfold len. lia. }
  2:{ inversion H; subst. split; [|discriminate]. unfold len. lia. }
  assert (Hrun1 : running e1 (l_timer l)) by (unfold running; rewrite Ht; exact Hrun).
  rewrite Hw in H. rewrite Hw.
  assert (Hext : match xs with [] => [] | x :: _ => match dget (g_doms c) x with Some _ => [] | None => [s] end end = extends_now c).
  { unfold extends_now. now rewrite Estk. }
  assert (Hne : g_stack c <> []) by (rewrite Estk; discriminate).
  pose proof (core_step_nodes (e_world e) (l_info l) c Hne Hok Hdk) as Hstep.
  pose proof (core_step_pending (e_world e) (l_info l) c Hne Hok) as Hpend.
  destruct (core_step (e_world e) (l_info l) c) as [c'|z c'|ex].
  - destruct Hstep as (Hok' & Hdk' & _).
    destruct (watch clk shuffle f e1 (GLoop l c' n)) as [[[[ts1 ys1] e2] r1]|] eqn:Ew; [|discriminate].
    destruct (IH f ltac:(lia) e1 l c' n ts1 ys1 e2 r1 Hrun1 Hok' Hdk' Ew) as [Hp Hall].
    rewrite Hext in H. inversion H; subst. rewrite len_app. split; [lia|].
    intros Hr Hint. specialize (Hall Hr Hint). lia.
  - destruct Hstep as (Hok' & Hdk' & _).
    destruct (do_stop_running clk e1 (l_timer l) Hrun1) as (t & s0 & Hs0 & Et & Hstop).
    rewrite Hstop in H. rewrite Hstop. set (e2 := tick (set_timer e1 (l_timer l) t)) in *.
    destruct (watch clk shuffle f e2 (GYield l c' (n + 1))) as [[[[ts1 ys1] e3] r1]|] eqn:Ew; [|discriminate].
    rewrite Hext in H. inversion H; subst ts ys e3 r1. clear H.
    destruct f as [|f]; [discriminate|]. rewrite watch_S in Ew. rewrite iterations_S.
    cbn [Solver.micro extended app iterates Nat.add] in *.
    assert (Hst : stopped e2 (l_timer l)).
    { unfold stopped, e2. simpl. rewrite upd_same. subst t. reflexivity. }
    destruct (do_start_stopped clk e2 (l_timer l) Hst) as (t4 & Et4 & Hstart). rewrite Hstart in Ew. rewrite Hstart.
    set (e4 := tick (set_timer e2 (l_timer l) t4)) in *.
    assert (Hrun4 : running e4 (l_timer l)).
    { unfold running, e4. simpl. rewrite upd_same. subst t4. reflexivity. }
    pose proof (pending_bound c' Hok') as Hpb'.
    rewrite len_app, len_cons.
    destruct (l_limit l) as [|m|].
    + destruct (watch clk shuffle f e4 (GLoop l c' (n + 1))) as [[[[ts2 ys2] e5] r5]|] eqn:E4; [|discriminate].
      destruct (IH f ltac:(lia) e4 l c' (n + 1) ts2 ys2 e5 r5 Hrun4 Hok' Hdk' E4) as [Hp Hall].
      inversion Ew; subst. split; [lia|]. intros Hr Hint. specialize (Hall Hr Hint). lia.
    + destruct (m <=? n + 1).
      * inversion Ew; subst. split; [change (@len subst []) with 0; lia|]. intros _ Hint. discriminate.
      * destruct (watch clk shuffle f e4 (GLoop l c' (n + 1))) as [[[[ts2 ys2] e5] r5]|] eqn:E4; [|discriminate].
        destruct (IH f ltac:(lia) e4 l c' (n + 1) ts2 ys2 e5 r5 Hrun4 Hok' Hdk' E4) as [Hp Hall].
        inversion Ew; subst. split; [lia|]. intros Hr Hint. specialize (Hall Hr Hint). lia.
    + inversion Ew; subst. split; [change (@len subst []) with 0; lia|discriminate].
  - rewrite Hext in H. inversion H; subst. split; [unfold len; lia|discriminate].
Qed.

Lemma cost f e sv a ts ys e' r :
  valid shuffle e a -> solve_watched clk shuffle f e sv a = Some (ts, ys, e', r) ->
  let n := Z.of_nat (iterations clk shuffle f e (GInit sv a)) in
  n <= 2 * len ts + len ys + 1 /\
  (r = None -> e_interrupt e' = None -> ts <> [] -> n = 2 * len ts + len ys - 1).
Proof.
  intros Hv H. pose proof (the_run clk shuffle f e sv a ys e' r Hv) as Hrun.
  specialize (Hrun ltac:(rewrite watched_same, H; reflexivity)).
  destruct Hv as (Hs & Hn & _ & Ho).
  unfold solve_watched in H. destruct f as [|f']; [discriminate|]. rewrite iterations_S. cbn [iterates Nat.add].
  rewrite watch_S, begin_spec in H. rewrite begin_spec. cbv zeta in *. cbn [extended app] in H.
  set (m := w_model (e_world e)) in *.
  destruct (m_solvable m); cbn [negb] in *.
  2:{ inversion H; subst. unfold len. simpl. split; [lia|contradiction]. }
  destruct (do_setup (s_compile sv) (e_world e) (x_additional a)) as [w [u|ex]] eqn:Es.
  2:{ inversion H; subst. unfold len. simpl. split; [lia|discriminate]. }
  destruct (order_facts shuffle _ _ _ _ _ sv a Hs Hn Ho Es) as (_ & Hnd & _). fold m in Hnd.
  destruct (order_of shuffle sv a m u) as [|x names] eqn:Eor.
  { inversion H; subst. unfold len. simpl. split; [lia|contradiction]. }
  destruct (watch clk shuffle f' (start_env clk e w)
     (GLoop (run_local e sv a u) (Cfg [(x :: names, [])] []) 0)) as [[[[ts1 ys1] e1] r1]|] eqn:Ew; [|discriminate].
  inversion H; subst ts1 ys1 e1 r1. clear H.
  pose proof (watch_iterations f' (start_env clk e w) (run_local e sv a u)
    (Cfg [(x :: names, [])] []) 0 ts ys e' r (start_running clk e w)) as Hwn.
  specialize (Hwn ltac:(cbn; repeat split; try assumption; discriminate) ltac:(constructor) Ew).
  unfold pending, weights, weight in Hwn. cbn [g_stack g_doms fst dget] in Hwn. destruct Hwn as [H1 H2]. split; [lia|].
  intros Hr Hint _. specialize (H2 Hr Hint). lia.
Qed.

End Counting.
