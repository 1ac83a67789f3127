(** The bounds of CostSpace.v are reached if no constraint excludes anything. *)
From Coq Require Import Permutation.
From Verif Require Import Solver SolverWatch SpecFormula SpecSafe SpecSolve SpecOrder SpecWatch ExprFacts DictFacts ModelFacts
  CompileFacts CodeFacts SearchFacts LoopFacts EnumFacts SetupFacts SolveFacts MasterFacts HistoryFacts SolverProps
  WatchFacts WatchProps WatchCost SpecSpace CostSpace PuzzleFacts PruneFacts.
Open Scope list_scope.
Open Scope Z_scope.

Section Lists.
Variable dm : name -> list Z.

Lemma NoDup_flat x L d : NoDup L -> NoDup d -> NoDup (flat_map (fun v : Z => map (cons (x, v)) L) d : list subst).
Proof.
  intros HL. induction 1 as [|v d Hv Hd IH]; [constructor|]. cbn [flat_map]. apply NoDup_app_intro.
  - apply FinFun.Injective_map_NoDup; [|exact HL]. intros s t E. now injection E.
  - exact IH.
  - intros s Hs Hs'. apply in_map_iff in Hs. destruct Hs as (t & <- & _). apply in_flat_map in Hs'.
    destruct Hs' as (v' & Hv' & Hs'). apply in_map_iff in Hs'. destruct Hs' as (t' & E & _). injection E as <- _. contradiction.
Qed.

Lemma partials_NoDup order : (forall x, NoDup (dm x)) -> NoDup (partials dm order).
Proof.
  intros H. induction order as [|x order IH]; [constructor|]. cbn [partials]. constructor; [|now apply NoDup_flat].
  intros Hin. apply in_flat_map in Hin. destruct Hin as (v & _ & Hin). apply in_map_iff in Hin. destruct Hin as (t & E & _). discriminate.
Qed.
Lemma fulls_NoDup order : (forall x, NoDup (dm x)) -> NoDup (fulls dm order).
Proof. intros H. induction order as [|x order IH]; [repeat constructor; intros []|]. cbn [fulls]. now apply NoDup_flat. Qed.

Lemma partials_inv order : forall t, In t (partials dm order) -> starts order t /\ forall x v, In (x, v) t -> In v (dm x).
Proof.
  induction order as [|x order IH]; intros t Ht; [destruct Ht|]. destruct Ht as [<-|Ht]; [split; [now exists x, order|intros ? ? []]|].
  apply in_flat_map in Ht. destruct Ht as (v & Hv & Ht). apply in_map_iff in Ht. destruct Ht as (t' & <- & Ht).
  destruct (IH t' Ht) as [(y & q & E) Hd]. split; [exists y, q; cbn; now rewrite E|].
  intros z u [E'|Hin]; [injection E' as <- <-; exact Hv|now apply Hd].
Qed.
Lemma fulls_inv order : forall t, In t (fulls dm order) -> map fst t = order /\ forall x v, In (x, v) t -> In v (dm x).
Proof.
  induction order as [|x order IH]; intros t Ht; [destruct Ht as [<-|[]]; split; [reflexivity|intros ? ? []]|].
  apply in_flat_map in Ht. destruct Ht as (v & Hv & Ht). apply in_map_iff in Ht. destruct Ht as (t' & <- & Ht).
  destruct (IH t' Ht) as [E Hd]. split; [cbn; now rewrite E|].
  intros z u [E'|Hin]; [injection E' as <- <-; exact Hv|now apply Hd].
Qed.
End Lists.

Section Run.
Variables (clk : nat -> Z) (shuffle : list name -> list name) (f : nat) (e : env) (sv : solver) (a : args).
Variables (ts ys : list subst) (e' : env) (r : option exn).
Let m := w_model (e_world e).
Let cs := all_cons m a.
Hypothesis Hv : valid shuffle e a.
Hypothesis H : solve_watched clk shuffle f e sv a = Some (ts, ys, e', r).
Hypothesis Hun : unlimited sv a.
Hypothesis Hsol : m_solvable m = true.
Hypothesis Hhv : has_variable m.
Hypothesis Hidle : idle (e_world e') m cs.

Lemma solve_exact : exists order, Permutation order (variables_of m) /\ visits shuffle (policy_of sv a) m cs order /\
  r = None /\ len ts = tree (sizes m order) /\ len ys = space (sizes m order) /\
  Z.of_nat (iterations clk shuffle f e (GInit sv a)) = 2 * tree (sizes m order) + space (sizes m order) - 1.
Proof.
  pose proof (watched_all clk shuffle f e sv a ts ys e' r H) as HA.
  pose proof (proj1 (proj2 Hv)) as Hn. fold m in Hn.
  pose proof (proj1 (proj2 (proj2 Hv))) as Hdo. fold m in Hdo.
  destruct Hidle as [Hexp Htrue].
  assert (Hnr : no_raise (ceval (e_world e')) m cs).
  { intros c s Hc Hcc Hdm Hm. exists true. now apply Htrue. }
  assert (Hgr : groups_ok m cs).
  { intros c xs Hc Hb. destruct (Hexp c xs Hc Hb). }
  destruct (unlimited_end clk shuffle f e sv a ys e' r Hv HA Hun Hnr Hgr) as [Hr Hi].
  destruct (watched clk shuffle f e sv a ts ys e' r Hv H) as (order & Hp & _ & _ & _ & Hvis & Hk & Ht & Hnd & _ & Hall).
  fold m in Hp, Hvis, Ht, Hall. fold cs in Hvis, Ht, Hall. specialize (Hall Hr Hi Hsol).
  assert (HndD : forall x, NoDup (declared m x)).
  { intros x. unfold declared. destruct (dget (m_vars m) x) as [[d|p]|] eqn:E; try constructor.
    apply (Hdo x d). apply dget_In in E. exact E. }
  assert (Hord : forall x, In x order <-> exists d, is_variable m x d).
  { intros x. rewrite <- variables_of_In. split; apply Permutation_in; [exact Hp|now apply Permutation_sym]. }
  assert (Hdecl : forall x v, In x order -> In v (declared m x) -> exists d, is_variable m x d /\ In v d).
  { intros x v Hx Hvd. apply Hord in Hx. destruct Hx as (d & Hx). exists d. split; [exact Hx|]. now rewrite (declared_variable m x d Hn Hx) in Hvd. }
  assert (Hts : incl (partials (declared m) order) ts).
  { intros t Hin. destruct (partials_inv (declared m) order t Hin) as [Hst Hd]. apply Hall; [exact Hst|].
    assert (Hdm : forall x v, In (x, v) t -> exists d, is_variable m x d /\ In v d).
    { intros x v Hx. apply Hdecl; [|now apply Hd]. destruct Hst as (y & q & ->). apply in_or_app. left. apply (in_map fst) in Hx. exact Hx. }
    split; [exact Hdm|]. split.
    - intros c Hc Hcc Hm. now apply Htrue.
    - intros c xs x y v Hc Hb. destruct (Hexp c xs Hc Hb). }
  assert (Hys : incl (fulls (declared m) order) ys).
  { intros t Hin. destruct (fulls_inv (declared m) order t Hin) as [Ek Hd].
    assert (Hdm : forall x v, In (x, v) t -> exists d, is_variable m x d /\ In v d).
    { intros x v Hx. apply Hdecl; [|now apply Hd]. rewrite <- Ek. apply (in_map fst) in Hx. exact Hx. }
    assert (Hno : NoDup (map fst t)).
    { rewrite Ek. apply (Permutation_NoDup (Permutation_sym Hp)). rewrite <- variables_of_pure. apply pure_NoDup. exact (proj1 Hn). }
    destruct (exhaustive clk shuffle f e sv a ys e' r Hv HA Hsol Hhv Hr Hi t) as (s & Hs & Hsd).
    { split; [split; [exact Hno|split]|].
      - intros x. rewrite Ek. apply Hord.
      - intros x v d Hx Hxd. specialize (Hd x v Hx). fold m in Hxd. now rewrite (declared_variable m x d Hn Hxd) in Hd.
      - intros c Hc Hcc. apply Htrue; [exact Hc|exact Hcc|exact Hdm|]. intros x Hx. rewrite Ek. apply Hord. now apply (proj2 Hcc). }
    rewrite <- (same_list s t); [exact Hs| | |exact Hsd].
    - rewrite (Hk s Hs), <- Ek. exact Hno.
    - rewrite Ek. now apply Hk. }
  assert (H1 : len ts = tree (sizes m order)).
  { pose proof (NoDup_incl_length (partials_NoDup (declared m) order HndD) Hts) as Hl.
    pose proof (partials_length (declared m) order) as E.
    assert (len ts <= tree (sizes m order)).
    { apply partials_bound; [exact Hnd|]. intros t Hin. destruct (Ht t Hin) as [Hst (Hdm & _)]. split; [exact Hst|].
      intros x v Hx. destruct (Hdm x v Hx) as (d & Hxd & Hvd). now rewrite (declared_variable m x d Hn Hxd). }
    unfold sizes, domain_size, len in *. lia. }
  assert (H2 : len ys = space (sizes m order)).
  { pose proof (NoDup_incl_length (fulls_NoDup (declared m) order HndD) Hys) as Hl.
    pose proof (fulls_length (declared m) order) as E.
    assert (len ys <= space (sizes m order)).
    { apply fulls_bound; [refine (FOP_NoDup _ _ _ (distinct clk shuffle f e sv a ys e' r Hv HA)); intros s Hne; apply Hne; intros x; reflexivity|]. intros s Hin. split; [now apply Hk|].
      intros x v Hx. destruct (sound clk shuffle f e sv a ys e' r Hv HA s Hin) as [(_ & Hkeys & Hdm) _].
      destruct (proj1 (Hkeys x) (in_map fst _ _ Hx)) as (d & Hxd). pose proof (Hdm x v d Hx Hxd) as Hvd. now rewrite (declared_variable m x d Hn Hxd). }
    unfold sizes, domain_size, len in *. lia. }
  assert (Hne : ts <> []).
  { intros E. destruct Hhv as (x & d & Hx).
    assert (Hin : In x order) by (apply Hord; now exists d).
    destruct order as [|y q]; [destruct Hin|].
    assert (Hnil : In [] ts) by (apply Hts; now left). rewrite E in Hnil. destruct Hnil. }
  exists order. split; [exact Hp|]. split; [now apply Hvis|]. split; [exact Hr|]. split; [exact H1|]. split; [exact H2|].
  pose proof (proj2 (cost clk shuffle f e sv a ts ys e' r Hv H) Hr Hi Hne) as Hc. rewrite Hc. lia.
Qed.
End Run.
