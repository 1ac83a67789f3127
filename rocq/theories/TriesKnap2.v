(** The constraints of a KnapsackOptimizer on partial selections. *)
From Coq Require Import Permutation.
From Verif Require Import SolverWatch KnapsackWatch SpecPuzzle Nonogram Queens SpecSafe SpecSolve SpecOptimize SpecWatch SpecBound ExprFacts ExprProps DictFacts
  CodeFacts ModelFacts SafeFacts CompileFacts SetupFacts LoopFacts MasterFacts SolverProps SolverMore OptimizeFacts OptimizeRun OptimizeProps
  OptimizeMore NameFacts PuzzleFacts NonogramFacts SpecFormula SpecKnapsack KnapsackFacts BoundFacts BoundProps SpecSelections TriesKnap.
Open Scope list_scope.
Open Scope Z_scope.

Lemma weighted_occurs x xs cs o : build (weighted xs cs) = Ok o -> ooccurs x o ->
  exists i, nth_error xs i = Some x /\ nth i cs 0 <> 0.
Proof.
  unfold weighted. cbn [build]. intros Hb Hx.
  assert (Hgen : forall xs cs acc,
    (fix go (acc : operand) (l : list formula) : res operand :=
       match l with
       | [] => Ok acc
       | g :: l' => let! o := build g in let! a := py_op UAdd acc o in go a l'
       end) acc (map (fun p => FBin UMul (FVar (fst p)) (FInt (snd p))) (combine xs cs)) = Ok o ->
    ooccurs x acc \/ exists i, nth_error xs i = Some x /\ nth i cs 0 <> 0).
  { clear Hb xs cs. induction xs as [|y xs IH]; intros [|c cs] acc Hb; try (cbn in Hb; injection Hb as ->; left; exact Hx).
    cbn [combine map fst snd] in Hb. apply bind_Ok in Hb. destruct Hb as (o1 & H1 & Hb). apply bind_Ok in Hb. destruct Hb as (acc' & H2 & Hb).
    destruct (IH cs acc' Hb) as [H|(i & Hi & Hc)]; [|right; exists (S i); split; assumption].
    destruct (py_op_occurs x _ _ _ _ H2 H) as [H'|H']; [now left|]. right. exists 0%nat.
    cbn [build] in H1. cbn [bind] in H1. pose proof (mul_occurs x y c) as Hm. rewrite H1 in Hm. destruct (Hm H') as [-> Hc]. split; [reflexivity|exact Hc]. }
  destruct (Hgen xs cs (OInt 0) Hb) as [[]|H]. exact H.
Qed.

Lemma keeps_one f x a a' v v' : (forall y, y <> x -> a y = a' y) -> meaning (fun _ => 0) a f = Some v -> meaning (fun _ => 0) a' f = Some v' -> v <> v' ->
  forall ex, build f = Ok (OExpr ex) -> In x (vars ex).
Proof.
  intros Hdiff Hm Hm' Hne ex Hb. destruct (in_dec string_dec x (vars ex)) as [H|Hn]; [exact H|exfalso].
  set (bd := fun b : assignment => map (fun y => (y, b y)) (fvars f)).
  assert (Hbd : forall b, binds (bd b) b (fvars f)) by (intros b y Hy; now apply dget_map_fun).
  pose proof (build_meaning _ a (bd a) _ v _ (Hbd a) Hm Hb) as E. pose proof (build_meaning _ a' (bd a') _ v' _ (Hbd a') Hm' Hb) as E'.
  cbn [oval] in E, E'. rewrite (evaluate_agree _ (bd a) (bd a') ex) in E; [congruence|].
  intros y Hy. assert (Hyv : In y (vars ex)) by now apply vars_occurs.
  assert (Hyf : In y (fvars f)) by exact (build_vars _ _ y Hb Hyv).
  rewrite (Hbd a y Hyf), (Hbd a' y Hyf). f_equal. apply Hdiff. intros ->. contradiction.
Qed.

Lemma total_agree (f g : nat -> Z) l : forall cs, (forall k i, nth_error l k = Some i -> nth k cs 0 <> 0 -> f i = g i) ->
  total (map f l) cs = total (map g l) cs.
Proof.
  induction l as [|i l IH]; intros [|c cs] H; try reflexivity. cbn. rewrite (IH cs) by (intros k j Hk; exact (H (S k) j Hk)).
  destruct (Z.eq_dec c 0) as [->|Hc]; [lia|]. now rewrite (H 0%nat i eq_refl Hc).
Qed.

Lemma total_zeros {A} (l : list A) : forall cs, total (map (fun _ => 0) l) cs = 0.
Proof. induction l as [|x l IH]; intros [|c cs]; try reflexivity. cbn. now rewrite IH. Qed.

Section K.
Variables (values caps : list Z) (ws : list (list Z)).
Hypothesis Hne : values <> [].
Let P0 := fun _ : nat => 0.
Let n := length values.
Let xs := xs_ values.
Let fc := f_cap values ws.

Lemma seq_nth_error k i : nth_error (seq 0 n) k = Some i -> i = k /\ (k < n)%nat.
Proof.
  intros H. assert (Hk : (k < n)%nat). { rewrite <- (seq_length n 0). apply nth_error_Some. congruence. }
  split; [|exact Hk]. rewrite (nth_error_nth' (seq 0 n) 0%nat) in H by (rewrite seq_length; exact Hk). rewrite seq_nth in H by exact Hk. cbn in H. congruence.
Qed.
Lemma xs_nth i : (i < n)%nat -> nth_error xs i = Some (item i).
Proof.
  intros Hi. unfold xs, xs_. rewrite nth_error_map. fold n. rewrite (nth_error_nth' (seq 0 n) 0%nat) by (rewrite seq_length; exact Hi).
  rewrite seq_nth by exact Hi. reflexivity.
Qed.
Lemma xs_inv i x : nth_error xs i = Some x -> (i < n)%nat /\ x = item i.
Proof.
  intros H. assert (Hi : (i < n)%nat). { unfold n. rewrite <- xs_length. apply nth_error_Some. unfold xs in H. congruence. }
  split; [exact Hi|]. rewrite xs_nth in H by exact Hi. congruence.
Qed.
Lemma xs_items : xs = items n. Proof. reflexivity. Qed.
Lemma val_chosen t : map (val t) xs = map (chosen t) (seq 0 n).
Proof. unfold xs, xs_. rewrite map_map. reflexivity. Qed.

Lemma cap_meaning a q : meaning P0 a (fc q) = Some (if total (map a xs) (column (fst q) ws) <=? snd q then 1 else 0).
Proof.
  change (match meaning P0 a (weighted xs (column (fst q) ws)) with Some v => arith ULe v (snd q) | None => None end = Some (if total (map a xs) (column (fst q) ws) <=? snd q then 1 else 0)).
  rewrite weighted_meaning. reflexivity.
Qed.
Lemma cap_sat a q : sat P0 a (PForm (fc q)) <-> total (map a xs) (column (fst q) ws) <= snd q.
Proof.
  unfold sat. rewrite cap_meaning. destruct (Z.leb_spec (total (map a xs) (column (fst q) ws)) (snd q)) as [H|H].
  - split; [auto|]. intros _. exists 1. split; [reflexivity|discriminate].
  - split; [|lia]. intros (v & E & Hv). injection E as <-. contradiction.
Qed.
Lemma CK_In p : In p (CK values caps ws) <-> exists j, (j < length caps)%nat /\ p = PForm (fc (j, nth j caps 0)).
Proof.
  unfold CK. rewrite (enumerate_seq caps 0), flat_map_map, in_flat_map. split.
  - intros (j & Hj & [<-|[]]). apply in_seq in Hj. exists j. split; [lia|reflexivity].
  - intros (j & Hj & ->). exists j. split; [apply in_seq; lia|now left].
Qed.

(** One item with a weight can make the load as large or as small as one likes. *)
Lemma one_item i j c : (i < n)%nat -> nth i (column j ws) 0 <> 0 -> exists a a', (forall y, y <> item i -> a y = a' y) /\
  total (map a xs) (column j ws) > c /\ total (map a' xs) (column j ws) <= c.
Proof.
  intros Hi Hw. set (w := nth i (column j ws) 0) in *. set (k := (Z.abs c + 1) * Z.sgn w).
  exists (fun x => if String.eqb x (item i) then k else 0), (fun x => if String.eqb x (item i) then - k else 0).
  split; [intros y Hy; destruct (String.eqb_spec y (item i)); [contradiction|reflexivity]|].
  rewrite !(total_change (fun _ => 0) xs (item i) _ (xs_NoDup values) (column j ws) i (xs_nth i Hi)), !total_zeros. fold w.
  assert (Hk : k * w = (Z.abs c + 1) * Z.abs w). { unfold k. destruct w; cbn [Z.sgn Z.abs]; nia. }
  assert (1 <= Z.abs w) by lia. nia.
Qed.

Lemma cap_vars q ex i : build (fc q) = Ok (OExpr ex) -> (i < n)%nat -> (In (item i) (vars ex) <-> nth i (column (fst q) ws) 0 <> 0).
Proof.
  intros Hb Hi. split.
  - intros Hx. apply vars_occurs in Hx. unfold fc, f_cap in Hb. cbn [build] in Hb. apply bind_Ok in Hb. destruct Hb as (o1 & H1 & Hb). cbn [bind] in Hb.
    destruct (py_op_occurs (item i) _ _ _ _ Hb Hx) as [H|[]].
    destruct (weighted_occurs _ _ _ _ H1 H) as (k & Hk & Hc). apply xs_inv in Hk. destruct Hk as [_ Hk]. unfold item in Hk. apply name1_inj in Hk. now subst.
  - intros Hw. destruct (one_item i (fst q) (snd q) Hi Hw) as (a & a' & Hd & H1 & H2).
    apply (keeps_one (fc q) (item i) a a' 0 1 Hd); [| |discriminate|exact Hb].
    + change (meaning P0 a (fc q) = Some 0). rewrite cap_meaning. destruct (Z.leb_spec (total (map a xs) (column (fst q) ws)) (snd q)); [lia|reflexivity].
    + change (meaning P0 a' (fc q) = Some 1). rewrite cap_meaning. destruct (Z.leb_spec (total (map a' xs) (column (fst q) ws)) (snd q)); [reflexivity|lia].
Qed.

Lemma prefix_packing s x v q : NoDup (map fst (s ++ (x, v) :: q)) -> partial_packing n caps ws (s ++ (x, v) :: q) -> partial_packing n caps ws s.
Proof.
  intros Hnd [H1 H2]. split; [intros y u Hy; apply (H1 y); apply in_or_app; now left|]. intros j Hj Hw.
  assert (Hw' : weighed n ws (s ++ (x, v) :: q) j).
  { intros i Hi Hc. rewrite map_app. apply in_or_app. left. now apply Hw. }
  specialize (H2 j Hj Hw'). rewrite (total_agree (chosen s) (chosen (s ++ (x, v) :: q))); [exact H2|].
  intros k i Hk Hc. apply seq_nth_error in Hk. destruct Hk as [-> Hk]. pose proof (Hw k Hk Hc) as Hin.
  unfold chosen. apply dget_val in Hin. rewrite Hin. apply dget_In in Hin. rewrite (dget_NoDup _ (item k) (val s (item k)) Hnd); [reflexivity|]. apply in_or_app. now left.
Qed.

Section Call.
Variables (clk : nat -> Z) (shuffle : list name -> list name) (f : nat) (e : env) (sv : solver) (o : expr) (vs : list visit) (e' : env) (r : option exn).
Hypothesis Hb : built P0 (e_world e) (VK values) (CK values caps ws).
Hypothesis Hs : shuffles shuffle.
Hypothesis Ho : build (weighted xs values) = Ok (OExpr o).
Hypothesis Hto : s_timeout sv <> LInfinity.
Hypothesis Hli : s_limit sv <> LInfinity.
Let m := w_model (e_world e).
Let cs := all_cons m no_args.
Let ob := Objective o true.
Let os := [OObj ob].
Hypothesis Hrun : optimize_watched clk shuffle f e sv os no_args = Some (vs, e', r).

Let Hall : optimize_all clk shuffle f e sv os no_args = Some (found vs, e', r).
Proof. rewrite observed_same, Hrun. reflexivity. Qed.
Let Hoo : ~ In OOther os. Proof. intros [E|[]]; discriminate. Qed.

Lemma s_none : r = None.
Proof. exact (proj1 (k_ends values caps ws clk shuffle e sv o Hb Hs Ho Hto Hli f (found vs) e' r Hall)). Qed.

Lemma s_unsolvable : m_solvable m = false -> vs = [].
Proof.
  intros Hsol. pose proof Hrun as H'. unfold optimize_watched in H'.
  destruct (make_constraints os (e_world e)) as [wA [oms|ex]] eqn:Emk; [|now injection H' as <- _ _].
  destruct (made_facts shuffle e os no_args (k_valid values caps ws shuffle e o Hb Hs Ho) wA oms Emk) as ((aux & (Em & _)) & _).
  destruct f as [|f']; [discriminate|]. rewrite observe_S, begin_spec in H'. cbv zeta in H'. cbn [extended map app set_world e_world] in H'.
  rewrite Em in H'. cbn [m_solvable] in H'. fold m in H'. rewrite Hsol in H'. cbn [negb] in H'. now injection H' as <- _ _.
Qed.

Lemma s_solvable t : partial_packing n caps ws t -> m_solvable m = true.
Proof.
  intros [_ H2]. destruct (m_solvable m) eqn:E; [reflexivity|exfalso]. destruct (b_solv _ _ _ _ Hb E) as (p & Hp & Hno).
  apply CK_In in Hp. destruct Hp as (j & Hj & ->).
  destruct (Forall_Exists_dec (fun i => nth i (column j ws) 0 = 0) (fun i => Z.eq_dec _ 0) (seq 0 n)) as [Hz|Hz].
  - apply (Hno (val t)). apply cap_sat. cbn [fst snd]. rewrite val_chosen. apply H2; [exact Hj|]. intros i Hi Hc. exfalso. apply Hc.
    rewrite Forall_forall in Hz. apply Hz. apply in_seq. lia.
  - apply Exists_exists in Hz. destruct Hz as (i & Hi & Hc). apply in_seq in Hi. destruct (one_item i j (nth j caps 0) ltac:(lia) Hc) as (_ & a & _ & _ & Ha).
    apply (Hno a). apply cap_sat. exact Ha.
Qed.

Lemma s_consistent t : m_solvable m = true -> (forall x, In x (map fst t) -> In x xs) ->
  (consistent (e_world e') m cs t <-> partial_packing n caps ws t).
Proof.
  intros Hsol Hxs.
  assert (Hcs : cs = m_cons m) by (unfold cs, all_cons; cbn [x_additional no_args]; now rewrite app_nil_r).
  assert (Hdom : selection t <-> forall x v, In (x, v) t -> exists d, is_variable m x d /\ In v d).
  { split.
    - intros H x v Hx. exists [0; 1]. split.
      + apply (k_var values caps ws e Hb). split; [|reflexivity]. apply Hxs. change x with (fst (x, v)). now apply in_map.
      + destruct (H x v Hx) as [-> | ->]; cbn; auto.
    - intros H x v Hx. destruct (H x v Hx) as (d & Hd & Hv). apply (k_var values caps ws e Hb) in Hd. destruct Hd as [_ ->]. destruct Hv as [E|[E|[]]]; auto. }
  assert (Hholds : forall c, In c cs -> (forall x v, In (x, v) t -> exists d, is_variable m x d /\ In v d) ->
    (forall x, mentions c x -> In x (map fst t)) -> (evaluates_true (e_world e') t c <-> holds P0 t c)).
  { intros c Hc Hd Hm. rewrite <- (b_par _ _ _ _ Hb).
    apply (opt_holds clk shuffle f e sv os no_args (found vs) e' r c t (k_valid values caps ws shuffle e o Hb Hs Ho) Hall s_none Hoo Hsol
      (k_hasvar values caps ws Hne e Hb) (k_faithful values caps ws e sv Hb) (k_noerror values caps ws e Hb) Hc
      (b_concerns P0 e _ _ Hb c Hsol Hc) Hd Hm). }
  assert (Hment : forall c j, In c cs -> realizes c (PForm (fc (j, nth j caps 0))) -> (forall x, mentions c x -> In x (map fst t)) <-> weighed n ws t j).
  { intros c j Hc (ex & Eb & Ef). split.
    - intros H i Hi Hw. apply H. apply mentions_vars. unfold c_vars. rewrite Eb. apply (cap_vars (j, nth j caps 0) ex i Ef Hi). exact Hw.
    - intros H x Hx. assert (Hx' : In x (c_vars c)) by now apply mentions_vars.
      assert (Hin : In x xs). { rewrite Hcs in Hc. pose proof (b_closed _ _ _ _ Hb c x Hc Hx') as Hin. now rewrite VK_names in Hin. }
      apply xs_In in Hin. destruct Hin as (i & Hi & ->). apply (H i Hi). unfold c_vars in Hx'. rewrite Eb in Hx'. exact (proj1 (cap_vars (j, nth j caps 0) ex i Ef Hi) Hx'). }
  assert (Hsat : forall c j, In c cs -> realizes c (PForm (fc (j, nth j caps 0))) -> In (PForm (fc (j, nth j caps 0))) (CK values caps ws) ->
    (forall x, mentions c x -> In x (map fst t)) -> (holds P0 t c <-> total (map (chosen t) (seq 0 n)) (column j ws) <= nth j caps 0)).
  { intros c j Hc Hr Hp Hm. rewrite (holds_sat P0 t (val t) c _ Hr (b_pdef _ _ _ _ Hb _ Hp)).
    - rewrite cap_sat. cbn [fst snd]. now rewrite val_chosen.
    - intros x Hx. apply dget_val. apply Hm. now apply mentions_vars. }
  split.
  - intros (H1 & H2 & _). split; [now apply Hdom|]. intros j Hj Hw.
    assert (Hp : In (PForm (fc (j, nth j caps 0))) (CK values caps ws)) by (apply CK_In; eauto).
    destruct (b_into _ _ _ _ Hb _ Hp) as [(c & Hc & Hr)|[H|[E _]]]; [| |fold m in E; congruence].
    + fold m in Hc. rewrite <- Hcs in Hc. pose proof (proj2 (Hment c j Hc Hr) Hw) as Hm. apply (Hsat c j Hc Hr Hp Hm). apply (Hholds c Hc H1 Hm).
      exact (H2 c Hc (b_concerns P0 e _ _ Hb c Hsol Hc) Hm).
    + specialize (H (val t)). apply cap_sat in H. cbn [fst snd] in H. now rewrite val_chosen in H.
  - intros [H1 H2]. pose proof (proj1 Hdom H1) as Hd. split; [exact Hd|].
    assert (Hfrom : forall c, In c cs -> exists j, (j < length caps)%nat /\ realizes c (PForm (fc (j, nth j caps 0)))).
    { intros c Hc. rewrite Hcs in Hc. destruct (b_from _ _ _ _ Hb c Hc (b_some _ _ _ _ Hb Hsol c Hc)) as (p & Hp & Hr). apply CK_In in Hp. destruct Hp as (j & Hj & ->). eauto. }
    split.
    + intros c Hc _ Hm. destruct (Hfrom c Hc) as (j & Hj & Hr). apply (Hholds c Hc Hd Hm).
      apply (Hsat c j Hc Hr); [apply CK_In; eauto|exact Hm|]. apply H2; [exact Hj|]. now apply (Hment c j Hc Hr).
    + intros c l x y v Hc Eb. destruct (Hfrom c Hc) as (j & _ & (ex & E & _)). congruence.
Qed.

Lemma several_values : several ob -> ~ lonely values.
Proof.
  intros (x & y & Hxy & Hx & Hy) Hl.
  destruct (weighted_occurs x xs values (OExpr o) Ho Hx) as (i & Hi & Hvi). destruct (weighted_occurs y xs values (OExpr o) Ho Hy) as (j & Hj & Hvj).
  pose proof (Hl i j Hvi Hvj). subst j. congruence.
Qed.

Lemma open_undetermined t s x u q : open_value values t -> t = s ++ (x, u) :: q -> ~ determined ob (s ++ [(x, u)]).
Proof.
  intros (i & Hv & Hn) -> Hd. apply Hn.
  assert (Hi : (i < length values)%nat). { destruct (Nat.lt_ge_cases i (length values)) as [H|H]; [exact H|]. rewrite nth_overflow in Hv by exact H. contradiction. }
  assert (Hoc : occurs (item i) o) by exact (o_occurs values o Ho i Hi Hv).
  specialize (Hd (item i) Hoc). rewrite map_app in *. apply in_app_or in Hd. apply in_or_app. destruct Hd as [Hd|Hd]; [now left|right].
  destruct Hd as [Hd|[]]. left. exact Hd.
Qed.

Lemma s_tries : exists order, Permutation order (items n) /\ (policy_of sv no_args = ORDERED -> order = items n) /\
  (policy_of sv no_args = REVERSED -> order = rev (items n)) /\ NoDup (tried vs) /\
  (forall t, In t (tried vs) -> SpecWatch.starts order t /\ partial_packing n caps ws t) /\
  (e_interrupt e' = None -> forall t, SpecWatch.starts order t -> partial_packing n caps ws t -> open_value values t \/ lonely values -> In t (tried vs)).
Proof.
  assert (Hvar : variables_of m = items n).
  { unfold variables_of, m. rewrite (b_vars _ _ _ _ Hb). change (items n) with (xs_ values). rewrite <- (VK_names values). unfold names_of. generalize (VK values). clear.
    induction d as [|[x d] l IH]; cbn; [reflexivity|]. now rewrite IH. }
  destruct (bounding clk shuffle f e sv os no_args vs e' r (k_valid values caps ws shuffle e o Hb Hs Ho) Hrun (k_obj values sv o Ho))
    as (order & Hp & H1 & H2 & _ & H3 & _ & Hnd & _ & Hev & Hin).
  fold m in Hp, H1, H2, Hev, Hin. fold cs in Hev, Hin. rewrite Hvar in Hp, H1, H2. exists order. split; [exact Hp|]. split; [exact H1|]. split; [exact H2|]. split; [exact Hnd|].
  assert (Hst : forall t, SpecWatch.starts order t -> NoDup (map fst t) /\ forall x, In x (map fst t) -> In x xs).
  { intros t (x & q & E). split.
    - assert (Hno : NoDup order) by (apply (Permutation_NoDup (Permutation_sym Hp)); exact (xs_NoDup values)). rewrite E in Hno. now apply NoDup_app_inv in Hno.
    - intros y Hy. rewrite xs_items. apply (Permutation_in y Hp). rewrite E. apply in_or_app. now left. }
  split.
  - intros t Ht. pose proof (H3 t Ht) as Hs'. split; [exact Hs'|].
    destruct (m_solvable m) eqn:Hsol; [|rewrite (s_unsolvable Hsol) in Ht; contradiction].
    apply (s_consistent t Hsol (proj2 (Hst t Hs'))). apply tried_In in Ht. apply in_split in Ht. destruct Ht as (pre & post & E). exact (proj1 (Hev pre _ post t E (or_introl eq_refl))).
  - intros Hi.
    assert (Hlen : forall k t, (length t < k)%nat -> SpecWatch.starts order t -> partial_packing n caps ws t -> open_value values t \/ lonely values -> In t (tried vs)).
    { induction k as [|k IH]; intros t Hk Hs' Hpp Hop; [lia|]. pose proof (s_solvable t Hpp) as Hsol.
      apply (Hin s_none Hi Hsol (k_total values caps ws e o Hb Ho) t); [now apply (s_consistent t Hsol (proj2 (Hst t Hs')))| |exact Hs'].
      intros s x u q E.
      assert (Hss : In s (tried vs)).
      { apply IH.
        - rewrite E, app_length in Hk. cbn in Hk. lia.
        - destruct Hs' as (y & q' & E'). exists x, (map fst q ++ y :: q'). rewrite E', E, map_app. cbn [map fst]. rewrite <- app_assoc. reflexivity.
        - rewrite E in Hpp. apply (prefix_packing s x u q); [|exact Hpp]. rewrite <- E. apply (Hst t Hs').
        - destruct Hop as [(i & Hv & Hn)|Hop]; [left|now right]. exists i. split; [exact Hv|]. intros H. apply Hn. rewrite E, map_app. apply in_or_app. now left. }
      apply tried_In in Hss. apply in_split in Hss. destruct Hss as (pre & mid & Evs). exists pre, mid. split; [exact Evs|].
      intros o' [Eo|[]] Hsev _ Hdet. injection Eo as <-. exfalso. destruct Hop as [Hop|Hop]; [exact (open_undetermined t s x u q Hop E Hdet)|exact (several_values Hsev Hop)]. }
    intros t. exact (Hlen (S (length t)) t (Nat.lt_succ_diag_r _)).
Qed.
End Call.
End K.
