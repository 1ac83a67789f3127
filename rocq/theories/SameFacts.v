(** The order and the repetition of constraints do not matter. *)
From Coq Require Import Permutation.
From Verif Require Import Solver SolverWatch SpecFormula SpecSafe SpecSolve SpecOrder SpecWatch SpecPrune ExprFacts DictFacts ModelFacts
  CompileFacts CodeFacts SearchFacts LoopFacts EnumFacts SetupFacts SolveFacts MasterFacts HistoryFacts SolverProps
  OrderFacts WatchFacts WatchProps WatchCost PruneFacts.
Open Scope list_scope.
Open Scope Z_scope.

Lemma FOP_unique {A} (R : A -> A -> Prop) : (forall a b, R a b -> R b a -> False) ->
  forall l l', ForallOrdPairs R l -> ForallOrdPairs R l' -> incl l l' -> incl l' l -> l = l'.
Proof.
  intros Has. assert (Hir : forall a, ~ R a a) by (intros a Ha; exact (Has a a Ha Ha)).
  induction l as [|a l IH]; intros [|b l'] H H' Hi Hi'; [reflexivity|destruct (Hi' b (or_introl eq_refl))|destruct (Hi a (or_introl eq_refl))|].
  pose proof (FOP_NoDup R _ Hir H) as Hnd. pose proof (FOP_NoDup R _ Hir H') as Hnd'.
  inversion H as [|? ? Ha Hl]; inversion H' as [|? ? Hb Hl']; subst. rewrite Forall_forall in Ha, Hb.
  assert (E : a = b).
  { destruct (Hi a (or_introl eq_refl)) as [E|Hin]; [auto|]. destruct (Hi' b (or_introl eq_refl)) as [E|Hin']; [auto|].
    destruct (Has a b (Ha b Hin') (Hb a Hin)). }
  subst b. f_equal. inversion Hnd; inversion Hnd'; subst. apply IH; auto.
  - intros x Hx. destruct (Hi x (or_intror Hx)) as [E|]; [subst x; contradiction|assumption].
  - intros x Hx. destruct (Hi' x (or_intror Hx)) as [E|]; [subst x; contradiction|assumption].
Qed.

Lemma before_asym d a b : NoDup d -> before d a b -> before d b a -> False.
Proof.
  intros Hnd (l1 & l2 & l3 & E1) (k1 & k2 & k3 & E2). revert d Hnd k1 E1 E2.
  induction l1 as [|x l1 IH]; intros d Hnd k1 E1 E2; subst d.
  - destruct k1 as [|y k1]; cbn in E2; injection E2 as Ex Ee.
    + subst b. inversion Hnd as [|? ? Hx _]; subst. apply Hx. apply in_or_app. right. now left.
    + subst y. inversion Hnd as [|? ? Hx _]; subst. apply Hx. rewrite Ee. apply in_or_app. right. right. apply in_or_app. right. now left.
  - destruct k1 as [|y k1]; cbn in E2; injection E2 as Ex Ee.
    + subst x. inversion Hnd as [|? ? Hx _]; subst. apply Hx. apply in_or_app. right. right. apply in_or_app. right. now left.
    + inversion Hnd as [|? ? _ Hnd']; subst. exact (IH _ Hnd' k1 eq_refl Ee).
Qed.

Lemma split_cases {A} (p q p' q' : list A) x x' : p ++ x :: q = p' ++ x' :: q' -> (x = x' /\ p = p') \/ In x p' \/ In x' p.
Proof.
  revert p'. induction p as [|y p IH]; intros [|y' p'] E; cbn in E; injection E as E1 E2; subst; auto.
  - right. left. now left.
  - right. right. now left.
  - destruct (IH p' E2) as [[-> ->]|[H|H]]; [auto|right; left; now right|right; right; now right].
Qed.

Lemma lex_asym order dm s s' : (forall x, NoDup (dm x)) -> lex_before order dm s s' -> lex_before order dm s' s -> False.
Proof.
  intros Hnd (p & x & q & a & b & E & Hp & Ha & Hb & Hab) (p' & x' & q' & a' & b' & E' & Hp' & Ha' & Hb' & Hab').
  rewrite E in E'. destruct (split_cases _ _ _ _ _ _ E') as [[<- _]|[Hin|Hin]].
  - rewrite Ha in Hb'. rewrite Hb in Ha'. injection Hb' as <-. injection Ha' as <-. exact (before_asym _ _ _ (Hnd x) Hab Hab').
  - specialize (Hp' x Hin). rewrite Ha, Hb in Hp'. injection Hp' as <-. exact (NoDup_before _ _ _ (Hnd x) Hab eq_refl).
  - specialize (Hp x' Hin). rewrite Ha', Hb' in Hp. injection Hp as <-. exact (NoDup_before _ _ _ (Hnd x') Hab' eq_refl).
Qed.

Lemma ext_lex order dm (s t : subst) : (forall x, NoDup (dm x)) -> lex_before order dm s (s ++ t) \/ lex_before order dm (s ++ t) s -> False.
Proof.
  intros Hnd. assert (Hget : forall x v, dget s x = Some v -> dget (s ++ t) x = Some v).
  { intros x v. induction s as [|[y u] l IH]; cbn; [discriminate|]. destruct (String.eqb x y); auto. }
  intros [(p & x & q & a & b & _ & _ & Ha & Hb & Hab)|(p & x & q & a & b & _ & _ & Ha & Hb & Hab)].
  - rewrite (Hget x a Ha) in Hb. injection Hb as <-. exact (NoDup_before _ _ _ (Hnd x) Hab eq_refl).
  - rewrite (Hget x b Hb) in Ha. injection Ha as <-. exact (NoDup_before _ _ _ (Hnd x) Hab eq_refl).
Qed.

Lemma depth_asym order dm s s' : (forall x, NoDup (dm x)) -> depth_first order dm s s' -> depth_first order dm s' s -> False.
Proof.
  intros Hnd [(t & Ht & E)|Hl] [(t' & Ht' & E')|Hl'].
  - rewrite E in E'. apply (f_equal (@length _)) in E'. rewrite !app_length in E'. destruct t; [contradiction|]. cbn in E'. lia.
  - rewrite E in Hl'. apply (ext_lex order dm s t Hnd). now right.
  - rewrite E' in Hl. apply (ext_lex order dm s' t' Hnd). now right.
  - exact (lex_asym order dm s s' Hnd Hl Hl').
Qed.

Lemma tally_perm {A} (P : A -> Prop) l l' n : Permutation l l' -> tally P l n -> tally P l' n.
Proof.
  intros Hp. revert n. induction Hp as [|x l l' Hp IH|x y l|l l' l'' _ IH1 _ IH2]; intros n H; auto.
  - inversion H; subst; constructor; auto.
  - inversion H as [|? ? k Hy Hk|? ? k Hy Hk]; subst; inversion Hk as [|? ? k' Hx Hk'|? ? k' Hx Hk']; subst.
    + now repeat constructor.
    + apply tally_no; [assumption|]. now constructor.
    + apply tally_yes; [assumption|]. now apply tally_no.
    + now do 2 (apply tally_no; [assumption|]).
Qed.

Lemma perm_visits shuffle p m l l' order : Permutation l l' -> p <> GROUPS -> visits shuffle p m l order -> visits shuffle p m l' order.
Proof.
  intros Hp Hg. unfold visits. destruct p; auto; try contradiction.
  - intros (key & Hk & Hs). exists key. split; [|exact Hs]. intros x. exact (tally_perm _ _ _ _ Hp (Hk x)).
  - intros (key & Hk & Hs). exists key. split; [|exact Hs]. intros x. exact (tally_perm _ _ _ _ Hp (Hk x)).
Qed.

Section Two.
Variables (clk clk' : nat -> Z) (shuffle : list name -> list name) (f f' : nat) (e : env) (sv : solver) (a a' : args).
Variables (ts ts' ys ys' : list subst) (e1 e2 : env).
Let m := w_model (e_world e).
Hypothesis Hv : valid shuffle e a.
Hypothesis Hv' : valid shuffle e a'.
Hypothesis H : solve_watched clk shuffle f e sv a = Some (ts, ys, e1, None).
Hypothesis H' : solve_watched clk' shuffle f' e sv a' = Some (ts', ys', e2, None).
Hypothesis Hend : e_interrupt e1 = None.
Hypothesis Hend' : e_interrupt e2 = None.
Hypothesis Hsol : m_solvable m = true.
Hypothesis Hhv : has_variable m.
Hypothesis Hsame : forall c, In c (all_cons m a) <-> In c (all_cons m a').
Hypothesis Hpol : policy_of sv a' = policy_of sv a.
Hypothesis Hagree : forall order, visits shuffle (policy_of sv a) m (all_cons m a) order <-> visits shuffle (policy_of sv a) m (all_cons m a') order.

Lemma same_agree : ts' = ts /\ ys' = ys /\ iterations clk' shuffle f' e (GInit sv a') = iterations clk shuffle f e (GInit sv a).
Proof.
  assert (Hagree' : forall order, visits shuffle (policy_of sv a') m (all_cons m a) order -> visits shuffle (policy_of sv a') m (all_cons m a') order)
    by (rewrite Hpol; intros order; apply Hagree).
  destruct (shorter_agree clk clk' shuffle f f' e sv a a' ts ts' ys ys' e1 e2 None Hv Hv' H H' Hend Hsol Hhv (fun c => proj1 (Hsame c)) Hpol (fun order => proj2 (Hagree order)))
    as (I1 & I2 & _ & _ & I3).
  destruct (shorter_agree clk' clk shuffle f' f e sv a' a ts' ts ys' ys e2 e1 None Hv' Hv H' H Hend' Hsol Hhv (fun c => proj2 (Hsame c)) (eq_sym Hpol) Hagree')
    as (J1 & J2 & _ & _ & J3).
  pose proof (watched_all clk shuffle f e sv a ts ys e1 None H) as HA.
  pose proof (watched_all clk' shuffle f' e sv a' ts' ys' e2 None H') as HA'.
  pose proof (proj1 (proj2 Hv)) as Hn. fold m in Hn.
  pose proof (proj1 (proj2 (proj2 Hv))) as Hdo. fold m in Hdo.
  assert (HndD : forall x, NoDup (declared m x)).
  { intros x. unfold declared. destruct (dget (m_vars m) x) as [[d|p]|] eqn:E; try constructor.
    apply (Hdo x d). apply dget_In in E. exact E. }
  destruct (watched clk shuffle f e sv a ts ys e1 None Hv H) as (order & _ & _ & _ & _ & Hvis & Hk & _ & _ & Hsort & _).
  destruct (watched clk' shuffle f' e sv a' ts' ys' e2 None Hv' H') as (order' & _ & _ & _ & _ & Hvis' & Hk' & _ & _ & Hsort' & _).
  fold m in Hvis, Hsort, Hvis', Hsort'.
  split; [|split; [|apply Nat.le_antisymm; [now apply I3|now apply J3]]].
  - destruct ts as [|t0 tl] eqn:Ets; [now apply incl_l_nil|].
    destruct ts' as [|t1 tl'] eqn:Ets'; [symmetry; now apply incl_l_nil|].
    assert (Eo : order' = order).
    { apply (visits_unique shuffle (policy_of sv a) m (all_cons m a)); [exact (proj1 Hn)| |apply Hvis; discriminate].
      specialize (Hvis' ltac:(discriminate)). rewrite Hpol in Hvis'. apply Hagree; exact Hvis'. }
    subst order'. exact (FOP_unique _ (fun s s' => depth_asym order (declared m) s s' HndD) _ _ Hsort' Hsort I1 J1).
  - destruct (ordered clk shuffle f e sv a ys e1 None Hv HA) as (o & _ & _ & _ & _ & Ko & So).
    destruct (ordered clk' shuffle f' e sv a' ys' e2 None Hv' HA') as (o' & _ & _ & _ & _ & Ko' & So').
    fold m in So, So'.
    destruct ys as [|s0 yl] eqn:Eys; [now apply incl_l_nil|].
    assert (Eo : o' = o).
    { rewrite <- (Ko s0 (or_introl eq_refl)). symmetry. apply Ko'. apply J2. now left. }
    subst o'. exact (FOP_unique _ (fun s s' => lex_asym o (declared m) s s' HndD) _ _ So' So I2 J2).
Qed.
End Two.

Lemma same_search clk clk' shuffle f f' e sv a a' ts ts' ys ys' e1 e2 :
  let m := w_model (e_world e) in
  valid shuffle e a -> valid shuffle e a' ->
  solve_watched clk shuffle f e sv a = Some (ts, ys, e1, None) ->
  solve_watched clk' shuffle f' e sv a' = Some (ts', ys', e2, None) ->
  e_interrupt e1 = None -> e_interrupt e2 = None -> m_solvable m = true -> has_variable m ->
  (forall c, In c (all_cons m a) <-> In c (all_cons m a')) -> policy_of sv a' = policy_of sv a -> blind (policy_of sv a) ->
  ts' = ts /\ ys' = ys /\
  iterations clk' shuffle f' e (GInit sv a') = iterations clk shuffle f e (GInit sv a).
Proof.
  intros m Hv Hv' H H' Hend Hend' Hsol Hhv Hs Hpol Hb.
  refine (same_agree clk clk' shuffle f f' e sv a a' ts ts' ys ys' e1 e2 Hv Hv' H H' Hend Hend' Hsol Hhv Hs Hpol _).
  intros order. split; apply blind_visits; exact Hb.
Qed.

Lemma permuted_search clk clk' shuffle f f' e sv a a' ts ts' ys ys' e1 e2 :
  let m := w_model (e_world e) in
  valid shuffle e a -> valid shuffle e a' ->
  solve_watched clk shuffle f e sv a = Some (ts, ys, e1, None) ->
  solve_watched clk' shuffle f' e sv a' = Some (ts', ys', e2, None) ->
  e_interrupt e1 = None -> e_interrupt e2 = None -> m_solvable m = true -> has_variable m ->
  Permutation (x_additional a) (x_additional a') -> policy_of sv a' = policy_of sv a -> policy_of sv a <> GROUPS ->
  ts' = ts /\ ys' = ys /\
  iterations clk' shuffle f' e (GInit sv a') = iterations clk shuffle f e (GInit sv a).
Proof.
  intros m Hv Hv' H H' Hend Hend' Hsol Hhv Hp Hpol Hb.
  assert (Hq : Permutation (all_cons m a) (all_cons m a')) by (apply Permutation_app_head; exact Hp).
  refine (same_agree clk clk' shuffle f f' e sv a a' ts ts' ys ys' e1 e2 Hv Hv' H H' Hend Hend' Hsol Hhv _ Hpol _).
  - intros c. split; apply Permutation_in; [exact Hq|exact (Permutation_sym Hq)].
  - intros order. split; apply perm_visits; try exact Hb; [exact Hq|exact (Permutation_sym Hq)].
Qed.
