(** More constraints do not make the search longer. *)
From Coq Require Import Permutation.
From Verif Require Import Solver SolverWatch SpecFormula SpecSafe SpecSolve SpecOrder SpecWatch SpecPrune ExprFacts DictFacts ModelFacts
  CompileFacts CodeFacts SearchFacts LoopFacts EnumFacts SetupFacts SolveFacts MasterFacts HistoryFacts SolverProps
  OrderFacts WatchFacts WatchProps WatchCost.
Open Scope list_scope.
Open Scope Z_scope.

(** The code of a constraint after the setup does not depend on the other constraints. *)
Lemma compiled_code cmp w cs c b : (forall c', In c' cs -> c_id c' = c_id c -> c_body c' = c_body c) -> In c cs -> c_body c = CExpr b ->
  w_code (compile_all cmp w cs) (c_id c) = if cmp then Some (as_function (w_par w) b) else w_code w (c_id c).
Proof.
  intros Hid Hin Hb. destruct cmp.
  - apply in_split in Hin. destruct Hin as (pre & post & ->).
    replace (pre ++ c :: post) with ((pre ++ [c]) ++ post) by (rewrite <- app_assoc; reflexivity).
    rewrite (compile_all_app true (pre ++ [c]) post). set (w1 := compile_all true w (pre ++ [c])).
    assert (E1 : w_code w1 (c_id c) = Some (as_function (w_par w) b)).
    { unfold w1. rewrite compile_all_app. unfold compile_all at 1. cbn [fold_left compile1]. unfold ccompile. rewrite Hb. simpl.
      rewrite upd_same. now rewrite compile_all_par. }
    destruct (compile_all_code true post w1 c b) as [E|(_ & c' & _ & _ & E)]; [|exact Hb| |].
    + intros c' Hc'. apply Hid. apply in_or_app. right. now right.
    + now rewrite E.
    + rewrite E. unfold w1. now rewrite compile_all_par.
  - assert (E : forall l w0, compile_all false w0 l = w0) by (induction l as [|x l IH]; intros w0; [reflexivity|exact (IH w0)]).
    now rewrite E.
Qed.

Lemma same_list (s t : subst) : NoDup (map fst s) -> map fst s = map fst t -> same_dict s t -> s = t.
Proof.
  revert t. induction s as [|[x v] s IH]; intros [|[y v'] t] Hnd E Hsd; try discriminate; [reflexivity|].
  cbn in E. injection E as E1 E2. subst y. cbn in Hnd. inversion Hnd as [|? ? Hx Hs]; subst.
  pose proof (Hsd x) as Ex. cbn in Ex. rewrite String.eqb_refl in Ex. injection Ex as <-. f_equal.
  apply IH; [exact Hs|exact E2|]. intros z. destruct (String.eqb_spec z x) as [->|Hne].
  - rewrite (proj2 (dget_None s x) Hx). rewrite E2 in Hx. now rewrite (proj2 (dget_None t x) Hx).
  - specialize (Hsd z). cbn in Hsd. now rewrite (proj2 (String.eqb_neq z x) Hne) in Hsd.
Qed.

Lemma blind_visits shuffle p m l l' order : blind p -> visits shuffle p m l order -> visits shuffle p m l' order.
Proof. unfold blind, visits. destruct p; intros []; auto. Qed.

Section Two.
Variables (clk clk' : nat -> Z) (shuffle : list name -> list name) (f f' : nat) (e : env) (sv : solver) (a a' : args).
Variables (ts ts' ys ys' : list subst) (e1 e2 : env) (r' : option exn).
Let m := w_model (e_world e).
Let cs := all_cons m a.
Let cs' := all_cons m a'.
Hypothesis Hv : valid shuffle e a.
Hypothesis Hv' : valid shuffle e a'.
Hypothesis H : solve_watched clk shuffle f e sv a = Some (ts, ys, e1, None).
Hypothesis H' : solve_watched clk' shuffle f' e sv a' = Some (ts', ys', e2, r').
Hypothesis Hend : e_interrupt e1 = None.
Hypothesis Hsol : m_solvable m = true.
Hypothesis Hhv : has_variable m.
Hypothesis cs_incl : incl cs cs'.
Hypothesis Hpol : policy_of sv a' = policy_of sv a.
Hypothesis Hagree : forall order, visits shuffle (policy_of sv a) m cs' order -> visits shuffle (policy_of sv a) m cs order.

Lemma first_world : e_world e1 = compile_all (s_compile sv) (e_world e) cs.
Proof.
  destruct (watched_cases clk shuffle f e sv a ts ys e1 None Hv H) as [(_ & _ & [E|[E|E]])|(u & order & Es & _)];
    [contradiction|fold m in E; congruence|contradiction|].
  exact (proj1 (do_setup_spec _ _ _ _ _ (proj2 (proj2 (proj2 Hv))) Es)).
Qed.

Lemma second_world : (ts' = [] /\ ys' = []) \/ e_world e2 = compile_all (s_compile sv) (e_world e) cs'.
Proof.
  destruct (watched_cases clk' shuffle f' e sv a' ts' ys' e2 r' Hv' H') as [(E1 & E2 & _)|(u & order & Es & _)]; [auto|right].
  exact (proj1 (do_setup_spec _ _ _ _ _ (proj2 (proj2 (proj2 Hv'))) Es)).
Qed.

Lemma same_eval c s : e_world e2 = compile_all (s_compile sv) (e_world e) cs' -> In c cs -> ceval (e_world e2) c s = ceval (e_world e1) c s.
Proof.
  intros E2 Hc. rewrite E2, first_world. apply ceval_code; [now rewrite !compile_all_par|]. intros b Hb.
  pose proof (proj1 (proj2 (proj2 (proj2 Hv)))) as Hid. pose proof (proj1 (proj2 (proj2 (proj2 Hv')))) as Hid'.
  rewrite (compiled_code (s_compile sv) (e_world e) cs' c b (fun c' Hc' Ei => Hid' c' c Hc' (cs_incl c Hc) Ei) (cs_incl c Hc) Hb).
  now rewrite (compiled_code (s_compile sv) (e_world e) cs c b (fun c' Hc' Ei => Hid c' c Hc' Hc Ei) Hc Hb).
Qed.

Lemma tried_incl : incl ts' ts.
Proof.
  intros t Ht. destruct second_world as [[E _]|E2]; [rewrite E in Ht; destruct Ht|].
  destruct (watched clk shuffle f e sv a ts ys e1 None Hv H) as (order & Hp & _ & _ & _ & Hvis & _ & _ & _ & _ & Hall).
  destruct (watched clk' shuffle f' e sv a' ts' ys' e2 r' Hv' H') as (order' & Hp' & _ & _ & _ & Hvis' & _ & Hts' & _).
  fold m in Hp, Hvis, Hall, Hp', Hvis', Hts'. specialize (Hall eq_refl Hend Hsol).
  destruct (Hts' t Ht) as [Hst (C1 & C2 & C3)].
  assert (Hne : ts <> []).
  { intros E. destruct Hhv as (x & d & Hx).
    assert (Hin : In x order).
    { apply (Permutation_in x (Permutation_sym Hp)). apply variables_of_In. now exists d. }
    destruct order as [|y q]; [destruct Hin|].
    assert (Hnil : In [] ts); [|rewrite E in Hnil; destruct Hnil].
    apply Hall; [now exists y, q|]. split; [intros ? ? []|]. split.
    - intros c _ [(z & Hz) _] Hm. destruct (Hm z Hz).
    - intros c xs ? ? ? _ _ _ _ _ E0. discriminate. }
  assert (Eo : order' = order).
  { apply (visits_unique shuffle (policy_of sv a) m cs); [exact (proj1 (proj1 (proj2 Hv)))| |now apply Hvis].
    apply Hagree. rewrite <- Hpol. apply Hvis'. intros E. rewrite E in Ht. destruct Ht. }
  subst order'. apply Hall; [exact Hst|]. split; [exact C1|]. split.
  - intros c Hc Hcon Hm. unfold evaluates_true. rewrite <- (same_eval c t E2 Hc). apply C2; [now apply cs_incl|exact Hcon|exact Hm].
  - intros c xs x y v Hc. apply C3. now apply cs_incl.
Qed.

Lemma found_incl : incl ys' ys.
Proof.
  intros s Hs. destruct second_world as [[_ E]|E2]; [rewrite E in Hs; destruct Hs|].
  pose proof (watched_all clk shuffle f e sv a ts ys e1 None H) as HA.
  pose proof (watched_all clk' shuffle f' e sv a' ts' ys' e2 r' H') as HA'.
  destruct (sound clk' shuffle f' e sv a' ys' e2 r' Hv' HA' s Hs) as [Has Hcs].
  destruct (exhaustive clk shuffle f e sv a ys e1 None Hv HA Hsol Hhv eq_refl Hend s) as (s0 & Hs0 & Hsd).
  { split; [exact Has|]. intros c Hc Hcon. unfold evaluates_true. rewrite <- (same_eval c s E2 Hc). apply Hcs; [now apply cs_incl|exact Hcon]. }
  pose proof (visited clk shuffle f e sv a ys e1 None s0 Hv HA Hs0) as V0.
  pose proof (visited clk' shuffle f' e sv a' ys' e2 r' s Hv' HA' Hs) as V1. fold m in V0, V1.
  assert (Ek : map fst s0 = map fst s).
  { apply (visits_unique shuffle (policy_of sv a) m cs); [exact (proj1 (proj1 (proj2 Hv)))|exact V0|].
    apply Hagree. rewrite <- Hpol. exact V1. }
  rewrite <- (same_list s0 s); [exact Hs0| |exact Ek|exact Hsd].
  rewrite Ek. exact (proj1 Has).
Qed.

Lemma shorter_agree : incl ts' ts /\ incl ys' ys /\ len ts' <= len ts /\ len ys' <= len ys /\
  (r' = None -> e_interrupt e2 = None -> (iterations clk' shuffle f' e (GInit sv a') <= iterations clk shuffle f e (GInit sv a))%nat).
Proof.
  pose proof (watched_all clk' shuffle f' e sv a' ts' ys' e2 r' H') as HA'.
  destruct (watched clk' shuffle f' e sv a' ts' ys' e2 r' Hv' H') as (order' & Hp' & _ & _ & _ & _ & _ & _ & Hnd & _ & Hall').
  assert (H1 : len ts' <= len ts).
  { pose proof (NoDup_incl_length Hnd tried_incl). unfold len. lia. }
  assert (Hndy : NoDup ys').
  { refine (FOP_NoDup _ _ _ (distinct clk' shuffle f' e sv a' ys' e2 r' Hv' HA')); intros s Hne; apply Hne; intros x; reflexivity. }
  assert (H2 : len ys' <= len ys).
  { pose proof (NoDup_incl_length Hndy found_incl). unfold len. lia. }
  split; [exact tried_incl|]. split; [exact found_incl|]. split; [exact H1|]. split; [exact H2|]. intros Hr Hi.
  assert (Hne : ts' <> []).
  { intros E. destruct Hhv as (x & d & Hx).
    assert (Hin : In x order').
    { apply (Permutation_in x (Permutation_sym Hp')). apply variables_of_In. now exists d. }
    destruct order' as [|y q]; [destruct Hin|].
    assert (Hnil : In [] ts'); [|rewrite E in Hnil; destruct Hnil].
    apply (Hall' Hr Hi Hsol); [now exists y, q|]. split; [intros ? ? []|]. split.
    - intros c _ [(z & Hz) _] Hm. destruct (Hm z Hz).
    - intros c xs ? ? ? _ _ _ _ _ E0. discriminate. }
  assert (Hne1 : ts <> []).
  { intros E. apply Hne. apply incl_l_nil. rewrite <- E. exact tried_incl. }
  pose proof (proj2 (cost clk shuffle f e sv a ts ys e1 None Hv H) eq_refl Hend Hne1).
  pose proof (proj2 (cost clk' shuffle f' e sv a' ts' ys' e2 r' Hv' H') Hr Hi Hne). lia.
Qed.
End Two.

Lemma shorter clk clk' shuffle f f' e sv a a' ts ts' ys ys' e1 e2 r' :
  let m := w_model (e_world e) in
  valid shuffle e a -> valid shuffle e a' ->
  solve_watched clk shuffle f e sv a = Some (ts, ys, e1, None) ->
  solve_watched clk' shuffle f' e sv a' = Some (ts', ys', e2, r') ->
  e_interrupt e1 = None -> m_solvable m = true -> has_variable m ->
  incl (all_cons m a) (all_cons m a') -> policy_of sv a' = policy_of sv a -> blind (policy_of sv a) ->
  incl ts' ts /\ incl ys' ys /\ len ts' <= len ts /\ len ys' <= len ys /\
  (r' = None -> e_interrupt e2 = None -> (iterations clk' shuffle f' e (GInit sv a') <= iterations clk shuffle f e (GInit sv a))%nat).
Proof.
  intros m Hv Hv' H H' Hend Hsol Hhv Hi Hpol Hb.
  exact (shorter_agree clk clk' shuffle f f' e sv a a' ts ts' ys ys' e1 e2 r' Hv Hv' H H' Hend Hsol Hhv Hi Hpol
    (fun order => blind_visits shuffle _ m _ _ order Hb)).
Qed.
