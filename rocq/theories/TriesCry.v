(** The digits tried by CryptarithmSolver. *)
From Coq Require Import Permutation.
From Verif Require Import CryWatch SpecCryptarithm SpecDigits SpecPuzzle SpecFormula SpecSafe SpecSolve SpecWatch NameFacts DictFacts
  ExprFacts ExprProps PuzzleFacts PuzzleUserFacts SolverProps WatchCost CryptarithmFacts TriesFacts.
From Verif Require GraphFacts TriesGraph.
Open Scope list_scope.
Open Scope Z_scope.

(** ** Arrangements *)

Fixpoint drop (a : Z) (l : list Z) : list Z :=
  match l with [] => [] | b :: q => if a =? b then q else b :: drop a q end.
Fixpoint pick (k : nat) (l : list Z) : list (list Z) :=
  match k with O => [[]] | S k' => flat_map (fun a => map (cons a) (pick k' (drop a l))) l end.

Lemma drop_In a b l : In b (drop a l) -> In b l.
Proof. induction l as [|c l IH]; cbn; [auto|]. destruct (Z.eqb_spec a c); cbn; tauto. Qed.
Lemma drop_NoDup a l : NoDup l -> NoDup (drop a l) /\ ~ In a (drop a l).
Proof.
  induction 1 as [|c l Hc Hl IH]; cbn; [split; [constructor|intros []]|]. destruct (Z.eqb_spec a c) as [->|Hne]; [now split|].
  destruct IH as [H1 H2]. split; [constructor; [intros H; apply Hc; now apply drop_In in H|exact H1]|]. intros [E|H]; [congruence|contradiction].
Qed.
Lemma drop_length a l : In a l -> length (drop a l) = (length l - 1)%nat.
Proof.
  induction l as [|c l IH]; [contradiction|]. intros [->|H]; cbn; [rewrite Z.eqb_refl; lia|]. destruct (Z.eqb_spec a c); [lia|]. cbn. rewrite (IH H).
  destruct l; [contradiction|]. cbn. lia.
Qed.
Lemma pick_spec k : forall l q, NoDup l -> In q (pick k l) -> length q = k /\ NoDup q /\ incl q l.
Proof.
  induction k as [|k IH]; intros l q Hl Hq; cbn in Hq.
  - destruct Hq as [<-|[]]. split; [reflexivity|]. split; [constructor|intros x []].
  - apply in_flat_map in Hq. destruct Hq as (a & Ha & Hq). apply in_map_iff in Hq. destruct Hq as (p & <- & Hp).
    destruct (drop_NoDup a l Hl) as [H1 H2]. destruct (IH _ _ H1 Hp) as (E & Hn & Hi). split; [cbn; now rewrite E|]. split.
    + constructor; [|exact Hn]. intros H. apply H2. now apply Hi.
    + intros x [<-|Hx]; [exact Ha|]. apply (drop_In a). now apply Hi.
Qed.
Lemma pick_length k : forall l, length (pick k l) = falling (length l) k.
Proof.
  induction k as [|k IH]; intros l; [reflexivity|]. cbn [pick falling].
  assert (H : forall l', incl l' l -> length (flat_map (fun a => map (cons a) (pick k (drop a l))) l') = (length l' * falling (length l - 1) k)%nat).
  { induction l' as [|a l' IHl]; intros Hi; [reflexivity|]. cbn. rewrite app_length, map_length, IH, drop_length by (apply Hi; now left).
    rewrite IHl; [lia|]. intros x Hx. apply Hi. now right. }
  apply H. apply incl_refl.
Qed.
Lemma pick_NoDup k : forall l, NoDup l -> NoDup (pick k l).
Proof.
  induction k as [|k IH]; intros l Hl; [repeat constructor; intros []|]. cbn [pick].
  assert (H : forall l', NoDup l' -> NoDup (flat_map (fun a => map (cons a) (pick k (drop a l))) l')).
  { induction 1 as [|a l' Ha Hl' IHl]; [constructor|]. cbn. apply NoDup_app_intro; [|exact IHl|].
    - apply FinFun.Injective_map_NoDup; [intros p q E; congruence|]. apply IH. now apply drop_NoDup.
    - intros q Hq Hq'. apply in_map_iff in Hq. destruct Hq as (p & <- & _). apply in_flat_map in Hq'. destruct Hq' as (b & Hb & Hq').
      apply in_map_iff in Hq'. destruct Hq' as (p' & E & _). injection E as -> _. contradiction. }
  now apply H.
Qed.

(** ** The names of an equation *)

Lemma equation_keeps q : words_ok (equation_words q) -> depends_on_each q ->
  forall ex, build (qform q) = Ok (OExpr ex) -> incl (fvars (qform q)) (vars ex).
Proof.
  intros Hok Hdep ex Hb x Hx. destruct (in_dec string_dec x (vars ex)) as [H|Hn]; [exact H|exfalso].
  destruct (qform_class q Hok) as (_ & _ & _ & Hv). apply Hv in Hx. apply (letter_of_has _ _ Hok) in Hx.
  destruct (Hdep x Hx) as (a & a' & Hdiff & Ht & Hf). apply (true_holds a q Hok) in Ht. rewrite (true_holds a' q Hok) in Hf.
  destruct (qform_meaning (fun _ => 0) a q) as (v & Hm & Hiff). destruct (qform_meaning (fun _ => 0) a' q) as (v' & Hm' & Hiff').
  set (bd := fun b : assignment => map (fun y => (y, b y)) (fvars (qform q))).
  assert (Hbd : forall b, binds (bd b) b (fvars (qform q))) by (intros b y Hy; now apply dget_map_fun).
  pose proof (build_meaning _ a (bd a) _ v _ (Hbd a) Hm Hb) as E. pose proof (build_meaning _ a' (bd a') _ v' _ (Hbd a') Hm' Hb) as E'.
  cbn [oval] in E, E'. rewrite (evaluate_agree _ (bd a) (bd a') ex) in E.
  - assert (v = v') by congruence. subst v'. tauto.
  - intros y Hy. assert (Hyv : In y (vars ex)) by now apply vars_occurs.
    assert (Hyf : In y (fvars (qform q))) by exact (build_vars _ _ y Hb Hyv).
    rewrite (Hbd a y Hyf), (Hbd a' y Hyf). f_equal. apply Hdiff. intros ->. contradiction.
Qed.

Lemma each_depends q : words_ok (equation_words q) -> depends_on_each q -> (exists x, letter_of q x) -> depends_in q.
Proof.
  intros Hok Hdep (x & Hx). destruct (Hdep x Hx) as (a & a' & _ & Ht & Hf). apply (true_holds a q Hok) in Ht. rewrite (true_holds a' q Hok) in Hf.
  destruct q as [e r f]. cbn [holds equation_words depends_in] in *.
  assert (He := fun b => value_evalue b e (fun w H => Hok w (in_or_app _ _ _ (or_introl H)))).
  assert (Hf' := fun b => value_evalue b f (fun w H => Hok w (in_or_app _ _ _ (or_intror H)))).
  destruct (Z.eq_dec (evalue a e) (evalue a' e)) as [E|E].
  - destruct (Z.eq_dec (evalue a f) (evalue a' f)) as [E'|E']; [rewrite E, E' in Ht; contradiction|].
    right. exists a, a', (evalue a f), (evalue a' f). split; [now apply Hf'|]. split; [now apply Hf'|exact E'].
  - left. exists a, a', (evalue a e), (evalue a' e). split; [now apply He|]. split; [now apply He|exact E].
Qed.

Section Cry.
Variables (s : string) (q : equation) (order : list name -> list name) (avoid : bool).
Hypothesis Ht : text_equation s q.
Hypothesis Hdep : depends_on_each q.
Hypothesis Hsome : exists x, letter_of q x.
Hypothesis Hord : shuffles order.
Let P0 : nat -> Z := fun _ => 0.
Let ws := equation_words q.
Let letters := order (dedup (cry_letters s)).
Let dom (x : name) : list Z := if memb x (cry_nonzero s) then tl digits_domain else digits_domain.
Let Vs : dict (list Z) := flat_map (fun x => [(x, dom x)]) letters.
Let Cs : list pbody := [PDiff letters; PForm (qform q)].

Let Hwd : cry_words s = map up ws := proj1 (proj2 (equation_text s q Ht)).
Let Hok : words_ok ws := proj2 (proj2 (equation_text s q Ht)).
Let Hnc : not_consts (qform q) := depends_not_consts q Hok (each_depends q Hok Hdep Hsome).
Let Hev : forall xs, (forall x, letter_in ws x -> In x xs) -> eval_source xs (mod_source s) = Ok (qform q) :=
  fun xs Hx => eval_equation s q xs Ht Hx.

Lemma d_letters x : In x letters <-> letter_of q x.
Proof. exact (c_letters s ws order Hwd Hok Hord x). Qed.

Lemma d_names : names_of Vs = letters.
Proof. unfold Vs. clear. induction letters as [|x l IH]; [reflexivity|]. cbn. f_equal. exact IH. Qed.

Lemma d_fvars x : In x (fvars (qform q)) <-> letter_of q x.
Proof. destruct (qform_class q Hok) as (_ & _ & _ & Hv). rewrite Hv. symmetry. exact (letter_of_has ws x Hok). Qed.

Lemma d_keeps : keeps_names Cs.
Proof. intros f ex [Hf|[Hf|[]]] Hb; [discriminate|]. injection Hf as <-. now apply equation_keeps. Qed.

Lemma d_solvable w : built P0 w Vs Cs -> m_solvable (w_model w) = true.
Proof.
  intros Hb. destruct (m_solvable (w_model w)) eqn:E; [reflexivity|exfalso]. destruct (b_solv _ _ _ _ Hb E) as (p & [<-|[<-|[]]] & Hno).
  - apply (Hno (fun x => Z.of_nat (GraphFacts.pos x letters))). intros x y Hx Hy Hne Ev. apply Nat2Z.inj in Ev.
    destruct (GraphFacts.pos_spec [] [] x _ Hx) as [_ E1], (GraphFacts.pos_spec [] [] y _ Hy) as [_ E2]. congruence.
  - destruct Hsome as (x & Hx). destruct (Hdep x Hx) as (a & _ & _ & Hta & _). apply (true_holds a q Hok) in Hta.
    destruct (qform_meaning P0 a q) as (v & Hv & Hiff). apply (Hno a). exists v. split; [exact Hv|now apply Hiff].
Qed.

Section Order.
Variable l : list name.
Hypothesis Hl : Permutation l letters.

Lemma tried_digits t : SpecWatch.starts l t -> (tried P0 Vs Cs t <-> digits_for q l t).
Proof.
  intros Hst. pose proof Hst as (x0 & rest & El).
  assert (Hnl : NoDup l) by (apply (Permutation_NoDup (Permutation_sym Hl)); exact (c_NoDup s order Hord)).
  assert (HN : NoDup (names_of t)) by (rewrite El in Hnl; now apply NoDup_app_inv in Hnl).
  assert (Hin : forall x v, In (x, v) t -> letter_of q x).
  { intros x v Hx. apply d_letters, (Permutation_in _ Hl). rewrite El. apply in_or_app. left. apply (in_map fst) in Hx. exact Hx. }
  split.
  - intros (Hd & _ & Hdiff). split; [exact Hst|]. split.
    + intros x v Hx. destruct (Hd x v Hx) as (d & Hxd & Hv). apply (c_In s ws order Hwd Hok Hord) in Hxd. destruct Hxd as [_ ->].
      now apply (c_dom s ws Hwd Hok).
    + assert (Hgen : forall t', incl t' t -> NoDup (names_of t') -> NoDup (map snd t')).
      { induction t' as [|[x v] t' IH]; intros Hi Hn; [constructor|]. inversion Hn as [|? ? Hx Hn']; subst. cbn. constructor.
        - intros Hv. apply in_map_iff in Hv. destruct Hv as ([y v'] & Ev & Hy). cbn in Ev. subst v'.
          assert (G1 : In (x, v) t) by (apply Hi; now left). assert (G2 : In (y, v) t) by (apply Hi; now right).
          apply (Hdiff letters x y v); [now left|apply d_letters; now apply (Hin x v)|apply d_letters; now apply (Hin y v)| | |].
          + intros ->. apply Hx. apply (in_map fst) in Hy. exact Hy.
          + now apply dget_NoDup.
          + now apply dget_NoDup.
        - apply IH; [intros z Hz; apply Hi; now right|exact Hn']. }
      apply Hgen; [intros z Hz; exact Hz|exact HN].
  - intros (_ & Hd & Hnd). split; [|split].
    + intros x v Hx. exists (dom x). split; [apply (c_In s ws order Hwd Hok Hord); split; [exact (Hin x v Hx)|reflexivity]|].
      apply (c_dom s ws Hwd Hok). now apply Hd.
    + intros f [Hf|[Hf|[]]] Hb; [discriminate|]. injection Hf as <-. exfalso.
      assert (Hx0 : In x0 (map fst t)).
      { apply Hb, d_fvars, d_letters, (Permutation_in _ Hl). rewrite El. apply in_or_app. right. now left. }
      rewrite El in Hnl. apply NoDup_remove_2 in Hnl. apply Hnl. apply in_or_app. now left.
    + intros xs x y v _ _ _ Hne Gx Gy. apply dget_In in Gx, Gy. apply Hne.
      apply (f_equal fst (x := (x, v)) (y := (y, v))). apply (NoDup_map_inj snd t Hnd); auto.
Qed.
End Order.

Lemma cry_tries clk shuffle f o ts ys r i : shuffles shuffle ->
  cry_watched clk shuffle f order s avoid o = Some (ts, ys, r, i) ->
  exists l, NoDup l /\ (forall x, In x l <-> letter_of q x) /\ NoDup ts /\
    (forall t, In t ts -> digits_for q l t) /\ (i = None -> forall t, digits_for q l t -> In t ts).
Proof.
  intros Hs H. unfold cry_watched in H.
  pose proof (over_describes s ws q order avoid Hwd Hok (fun w Hw => Hw) Hev Hnc Hsome Hord) as Hdesc.
  pose proof (d_adds _ _ _ _ _ _ Hdesc) as Ha.
  destruct (TriesGraph.puzzle_watched_inv clk shuffle f _ _ Vs Cs _ ts ys r i Ha H) as (e & e' & _ & Hb & Hrun & ->).
  destruct Hdesc as [_ HV Hsafe _ _ _].
  set (sv := options_solver MIN_BOUND o) in *.
  destruct (new_solver_lims (arg_or (o_policy o) MIN_BOUND) (o_timeout o) (o_limit o) (o_compile o)) as [Hto Hli].
  destruct (t_tries P0 clk shuffle f e sv Vs Cs ts ys e' r Hb Hs HV (fun _ => Hsafe) Hto Hli d_keeps Hrun (d_solvable _ Hb))
    as (l & Hp & _ & _ & Htr & Hn & Hall).
  rewrite d_names in Hp. exists l. split; [apply (Permutation_NoDup (Permutation_sym Hp)); exact (c_NoDup s order Hord)|].
  split; [|split; [exact Hn|split]].
  - intros x. rewrite <- d_letters. split; intros Hx; [exact (Permutation_in _ Hp Hx)|exact (Permutation_in _ (Permutation_sym Hp) Hx)].
  - intros t Hin. destruct (Htr t Hin) as [H1 H2]. now apply (tried_digits l Hp).
  - intros Hi t Hd. pose proof (proj1 Hd) as H1. apply Hall; [exact Hi|exact H1|]. now apply (tried_digits l Hp).
Qed.

Lemma cry_cost clk shuffle f o ts ys r i k : shuffles shuffle ->
  cry_watched clk shuffle f order s avoid o = Some (ts, ys, r, i) -> i = None ->
  (exists l, NoDup l /\ (forall x, In x l <-> letter_of q x) /\ length l = S k) ->
  (2 * falling 9 k <= S (cry_iterations clk shuffle f order s avoid o))%nat.
Proof.
  intros Hs H Hi (l' & Hl' & Hin' & Hlen'). destruct (cry_tries clk shuffle f o ts ys r i Hs H) as (l & Hl & Hin & Hnd & _ & Hall). specialize (Hall Hi).
  assert (Hlen : length l = S k).
  { rewrite <- Hlen'. apply Permutation_length, NoDup_Permutation; auto. intros x. rewrite Hin, Hin'. reflexivity. }
  assert (Hk : length (firstn k l) = k) by (apply firstn_length_le; lia).
  assert (Hz : NoDup (zrange 1 10)) by apply zrange_NoDup.
  assert (Hfst : forall p : list Z, length p = k -> map fst (combine (firstn k l) p) = firstn k l /\ map snd (combine (firstn k l) p) = p).
  { assert (G : forall (p : list Z) (m : list name), length p = length m -> map fst (combine m p) = m /\ map snd (combine m p) = p).
    { clear. induction p as [|v p IH]; intros [|x m] E; try discriminate; [now split|].
      cbn. injection E as E. destruct (IH m E) as [E1 E2]. now rewrite E1, E2. }
    intros p Hp. apply G. transitivity k; [exact Hp|symmetry; exact Hk]. }
  assert (HA : (falling 9 k <= length ts)%nat).
  { change 9%nat with (length (zrange 1 10)). rewrite <- pick_length, <- (map_length (combine (firstn k l))). apply NoDup_incl_length.
    - assert (HP := pick_NoDup k _ Hz). assert (HL : forall p, In p (pick k (zrange 1 10)) -> length p = k) by (intros p Hp; now apply (pick_spec k _ p Hz)).
      induction (pick k (zrange 1 10)) as [|p A IH]; [constructor|]. inversion HP as [|? ? Hp HP']; subst. cbn. constructor.
      + intros Hx. apply in_map_iff in Hx. destruct Hx as (p' & E & Hp'). apply (f_equal (map snd)) in E.
        rewrite (proj2 (Hfst p' (HL p' (or_intror Hp')))), (proj2 (Hfst p (HL p (or_introl eq_refl)))) in E. subst. contradiction.
      + apply IH; [exact HP'|]. intros p' Hp'. apply HL. now right.
    - intros t Hx. apply in_map_iff in Hx. destruct Hx as (p & <- & Hp). destruct (pick_spec k _ p Hz Hp) as (E & Hn & Hi'). destruct (Hfst p E) as [E1 E2].
      apply Hall. split; [|split].
      + rewrite E1. destruct (skipn k l) as [|x rest] eqn:Es; [pose proof (skipn_length k l) as Eq; rewrite Es, Hlen in Eq; cbn [length] in Eq; lia|].
        exists x, rest. rewrite <- Es. symmetry. apply firstn_skipn.
      + intros x v Hx. apply in_combine_r, Hi', zrange_In in Hx. split; lia.
      + now rewrite E2. }
  unfold cry_watched in H.
  pose proof (over_describes s ws q order avoid Hwd Hok (fun w Hw => Hw) Hev Hnc Hsome Hord) as Hdesc.
  pose proof (d_adds _ _ _ _ _ _ Hdesc) as Ha.
  destruct (TriesGraph.puzzle_watched_inv clk shuffle f _ _ Vs Cs _ ts ys r i Ha H) as (e & e' & Ec & Hb & Hrun & Ei).
  destruct Hdesc as [_ HV Hsafe _ _ _].
  unfold cry_iterations, puzzle_iterations. rewrite Ec.
  set (sv := options_solver MIN_BOUND o) in *.
  destruct (new_solver_lims (arg_or (o_policy o) MIN_BOUND) (o_timeout o) (o_limit o) (o_compile o)) as [Hto Hli].
  pose proof (t_none P0 clk shuffle f e sv Vs Cs ts ys e' r Hb Hs HV (fun _ => Hsafe) Hto Hli Hrun) as Hr.
  destruct (cost clk shuffle f e sv no_args ts ys e' r (built_valid P0 e Vs Cs shuffle Hb Hs) Hrun) as [_ Hcost].
  assert (Hnil : digits_for q l []).
  { split; [|split; [intros x v []|constructor]]. destruct l as [|x rest]; [discriminate|]. now exists x, rest. }
  apply Hall in Hnil. cbv zeta in Hcost. specialize (Hcost Hr ltac:(congruence) ltac:(intros ->; contradiction)). unfold len in Hcost. lia.
Qed.
End Cry.
