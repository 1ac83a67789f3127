(** Lemmas behind Properties_Watch.v. *)
From Coq Require Import Permutation.
From Verif Require Import Solver SolverWatch SpecFormula SpecSafe SpecSolve SpecOrder SpecWatch ExprFacts DictFacts ModelFacts
  CompileFacts CodeFacts SearchFacts LoopFacts EnumFacts SetupFacts SolveFacts MasterFacts HistoryFacts SolverProps
  OrderFacts WatchFacts.
Open Scope list_scope.
Open Scope Z_scope.

Lemma FOP_NoDup {A} (R : A -> A -> Prop) l : (forall a, ~ R a a) -> ForallOrdPairs R l -> NoDup l.
Proof.
  intros Hirr. induction 1 as [|a l Ha Hl IH]; constructor; [|assumption].
  intros Hin. rewrite Forall_forall in Ha. exact (Hirr a (Ha a Hin)).
Qed.

Section Watching.
Variable clk : nat -> Z.
Variable shuffle : list name -> list name.

Lemma watched_same f e sv a :
  solve_all clk shuffle f e sv a =
  match solve_watched clk shuffle f e sv a with Some (_, ys, e', r) => Some (ys, e', r) | None => None end.
Proof. apply watch_drain. Qed.

Section One.
Variables (f : nat) (e : env) (sv : solver) (a : args) (ts ys : list subst) (e' : env) (r : option exn).
Let m := w_model (e_world e).
Let cs := all_cons m a.
Hypothesis Hv : valid shuffle e a.
Hypothesis H : solve_watched clk shuffle f e sv a = Some (ts, ys, e', r).

Let Hs : shuffles shuffle := proj1 Hv.
Let Hn : well_named m := proj1 (proj2 Hv).
Let Hd : domains_ok m := proj1 (proj2 (proj2 Hv)).
Let Ho : objects (e_world e) cs := proj2 (proj2 (proj2 Hv)).

Lemma watched_all : solve_all clk shuffle f e sv a = Some (ys, e', r).
Proof. rewrite watched_same, H. reflexivity. Qed.

(** Either nothing is extended, or the extended assignments are those of the tree. *)
Lemma watched_cases :
  (ts = [] /\ ys = [] /\ (r <> None \/ m_solvable m = false \/ ~ has_variable m)) \/
  exists u order, let w := e_world e' in
    let i := GInfo (u_doms u) (u_cons u) (u_ad u) in
    do_setup (s_compile sv) (e_world e) (x_additional a) = (w, Ok u) /\
    order = order_of shuffle sv a m u /\
    prefix ys (enum w i order []) /\
    prefix ts (nodes w i order []) /\
    (r = None -> e_interrupt e' = None -> ts = nodes w i order []).
Proof.
  pose proof (the_run clk shuffle f e sv a ys e' r Hv watched_all) as Hrun.
  pose proof H as H'. unfold solve_watched in H'. destruct f as [|f']; [discriminate|].
  rewrite watch_S, begin_spec in H'. cbv zeta in H'. fold m in H'. cbn [extended app] in H'.
  destruct Hrun as [Hsol Hy Hr He|w ex Hsol Es Hy Hr He|w u Hsol Es Eo Hy Hr He|w u f1 ys0 r0 Hsol Es Eo Esearch Ed Hp Hf Hw].
  - left. fold m in Hsol. rewrite Hsol in H'. cbn [negb] in H'. inversion H'; subst. auto.
  - left. fold m in Hsol. rewrite Hsol, Es in H'. cbn [negb] in H'. inversion H'; subst.
    split; [reflexivity|]. split; [reflexivity|]. left. discriminate.
  - left. fold m in Hsol, Eo. rewrite Hsol, Es, Eo in H'. cbn [negb] in H'. inversion H'; subst.
    split; [reflexivity|]. split; [reflexivity|]. right. right. intros (x & d & Hx).
    destruct (order_facts shuffle _ _ _ _ _ sv a Hs Hn Ho Es) as (Hpm & _). fold m in Hpm. rewrite Eo in Hpm.
    apply Permutation_nil in Hpm.
    assert (Hin : In x (dkeys (pure_variables (m_vars m)))) by (apply pure_keys_In; now exists d).
    rewrite Hpm in Hin. destruct Hin.
  - right. exists u, (order_of shuffle sv a m u). cbv zeta. fold m in Hsol, Eo, Esearch. rewrite Hw.
    split; [exact Es|]. split; [reflexivity|].
    split; [apply (prefix_trans _ _ _ Hp); now apply (loop_search shuffle e sv a w u Hs Hn Ho Es ys0 r0)|].
    rewrite Hsol, Es in H'. cbn [negb] in H'.
    destruct (order_facts shuffle _ _ _ _ _ sv a Hs Hn Ho Es) as (_ & Hnd & _). fold m in Hnd.
    destruct (order_of shuffle sv a m u) as [|x names] eqn:Eor; [contradiction|].
    destruct (watch clk shuffle f' (start_env clk e w)
       (GLoop (run_local e sv a u) (Cfg [(x :: names, [])] []) 0)) as [[[[ts1 ys1] e1] r1]|] eqn:Ew; [|discriminate].
    inversion H'; subst ts1 ys1 e1 r1. clear H'.
    pose proof (watch_nodes clk shuffle f' (start_env clk e w) (run_local e sv a u)
      (Cfg [(x :: names, [])] []) 0 ts ys e' r (start_running clk e w)) as Hwn.
    specialize (Hwn ltac:(cbn; repeat split; try assumption; discriminate) ltac:(constructor) Ew).
    unfold remaining, frame_nodes in Hwn. cbn [g_stack g_doms flat_map fst snd dget] in Hwn. rewrite app_nil_r in Hwn.
    exact Hwn.
Qed.

Lemma watched : exists order,
  Permutation order (variables_of m) /\
  (policy_of sv a = ORDERED -> order = variables_of m) /\
  (policy_of sv a = REVERSED -> order = rev (variables_of m)) /\
  (policy_of sv a = RANDOM -> order = shuffle (variables_of m)) /\
  (ts <> [] -> visits shuffle (policy_of sv a) m cs order) /\
  (forall s, In s ys -> map fst s = order) /\
  (forall t, In t ts -> starts order t /\ consistent (e_world e') m cs t) /\
  NoDup ts /\ ForallOrdPairs (depth_first order (declared m)) ts /\
  (r = None -> e_interrupt e' = None -> m_solvable m = true ->
   forall t, starts order t -> consistent (e_world e') m cs t -> In t ts).
Proof.
  destruct watched_cases as [(-> & -> & Hno)|(u & order & Es & Eo & Hp & Hpt & Hall)].
  - exists (match policy_of sv a with REVERSED => rev (variables_of m) | RANDOM => shuffle (variables_of m) | _ => variables_of m end).
    assert (Hperm : Permutation (match policy_of sv a with REVERSED => rev (variables_of m)
       | RANDOM => shuffle (variables_of m) | _ => variables_of m end) (variables_of m)).
    { destruct (policy_of sv a); try apply Permutation_refl; try apply Hs; symmetry; apply Permutation_rev. }
    split; [exact Hperm|].
    split; [now intros ->|]. split; [now intros ->|]. split; [now intros ->|]. split; [now intros Hne|].
    split; [intros s []|]. split; [intros s []|]. split; [constructor|]. split; [constructor|].
    intros Hr _ Hsol t (x & q & Hx) _. destruct Hno as [Hno|[Hno|Hno]]; [contradiction|congruence|]. exfalso. apply Hno.
    assert (Hin : In x (variables_of m)).
    { eapply Permutation_in; [exact Hperm|]. rewrite Hx. apply in_or_app. right. now left. }
    apply variables_of_In in Hin. destruct Hin as (d & Hin). now exists x, d.
  - destruct (do_setup_spec _ _ _ _ _ Ho Es) as (_ & Hu & _).
    assert (Hk : dkeys (u_doms u) = variables_of m).
    { rewrite (ui_keys _ _ _ _ Hu). apply variables_of_pure. }
    destruct (loop_setup shuffle e sv a _ u Hs Hn Ho Es) as (_ & Hu' & Hg & Hobj & _ & Hpm).
    fold m in Hu', Hg, Hpm. fold cs in Hu', Hg, Hobj. rewrite <- Eo in Hpm.
    assert (Hiff : forall t, In t (nodes (e_world e') (GInfo (u_doms u) (u_cons u) (u_ad u)) order []) <->
      starts order t /\ consistent (e_world e') m cs t).
    { intros t. exact (nodes_iff (e_world e') m cs u order Hn Hu' (locals (e_world e') m cs Hn Hobj) Hpm t). }
    assert (Hnd : NoDup order) by exact (order_NoDup m order Hn Hpm).
    assert (Hsorted : ForallOrdPairs (depth_first order (declared m)) ts).
    { apply (prefix_FOP _ _ _ Hpt). eapply FOP_impl; [|exact (nodes_sorted (e_world e') _ order [] Hnd)].
      intros s s' _ _ [He|(p & x & q & b & c & E & Hpre & Hb & Hc & Hbef)]; [now left|right].
      exists p, x, q, b, c. repeat split; try assumption.
      assert (Hx : In x order) by (rewrite E; apply in_or_app; right; now left).
      apply (order_In m order Hpm) in Hx. destruct Hx as (d & Hx). rewrite (declared_variable m x d Hn Hx).
      now apply (loop_dom shuffle e sv a _ u Hs Hn Ho Es x d b c Hx). }
    exists order. split; [|split; [|split; [|split; [|split; [|split; [|split; [|split; [|split]]]]]]]].
    + subst order. rewrite <- Hk. now apply select_order_perm.
    + intros Hpo. subst order. unfold order_of. fold (policy_of sv a). rewrite Hpo. exact Hk.
    + intros Hpo. subst order. unfold order_of. fold (policy_of sv a). rewrite Hpo. simpl. now rewrite Hk.
    + intros Hpo. subst order. unfold order_of. fold (policy_of sv a). rewrite Hpo. simpl. now rewrite Hk.
    + intros _. subst order. destruct (do_setup_keys _ _ _ _ _ Es) as [K1 K2]. now apply select_visits.
    + intros s Hin. apply (prefix_In _ _ _ Hp) in Hin. subst order.
      now apply (loop_enum shuffle e sv a _ u Hs Hn Ho Es).
    + intros t Hin. apply Hiff. now apply (prefix_In _ _ _ Hpt).
    + revert Hsorted. apply FOP_NoDup. intros t [(q & Hq & E)|(p & x & q & b & c & E & _ & Hb & Hc & Hbef)].
      * apply Hq. apply (f_equal (@length _)) in E. rewrite app_length in E. destruct q; [reflexivity|]. simpl in E. lia.
      * assert (Hx : In x order) by (rewrite E; apply in_or_app; right; now left).
        apply (order_In m order Hpm) in Hx. destruct Hx as (d & Hx). rewrite (declared_variable m x d Hn Hx) in Hbef.
        apply (NoDup_before d b c (Hd x d Hx) Hbef). congruence.
    + exact Hsorted.
    + intros Hr Hint _ t Hst Hco. rewrite (Hall Hr Hint). apply Hiff. auto.
Qed.

End One.
End Watching.
