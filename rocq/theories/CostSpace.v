(** Bounds for the number of iterations of the search by the sizes of the domains. *)
From Coq Require Import Permutation Sorted.
From Verif Require Import Solver SolverWatch SpecFormula SpecSafe SpecSolve SpecOrder SpecWatch ExprFacts DictFacts ModelFacts
  CompileFacts CodeFacts SearchFacts LoopFacts EnumFacts SetupFacts SolveFacts MasterFacts HistoryFacts SolverProps
  WatchFacts WatchProps WatchCost SpecSpace.
Open Scope list_scope.
Open Scope Z_scope.

(** ** The assignments *)

Section Lists.
Variable dm : name -> list Z.

Fixpoint partials (order : list name) : list subst :=
  match order with
  | [] => []
  | x :: order' => [] :: flat_map (fun v => map (cons (x, v)) (partials order')) (dm x)
  end.
Fixpoint fulls (order : list name) : list subst :=
  match order with
  | [] => [[]]
  | x :: order' => flat_map (fun v => map (cons (x, v)) (fulls order')) (dm x)
  end.

Lemma partials_In order : forall t, SpecWatch.starts order t -> (forall x v, In (x, v) t -> In v (dm x)) -> In t (partials order).
Proof.
  induction order as [|x order IH]; intros t (y & q & E) Ht; [destruct (map fst t); discriminate|].
  destruct t as [|[z v] t]; [now left|]. cbn in E. injection E as <- E. cbn [partials]. right.
  apply in_flat_map. exists v. split; [apply Ht; now left|]. apply in_map. apply IH; [exists y, q; exact E|].
  intros a b Hab. apply Ht. now right.
Qed.

Lemma fulls_In order : forall t, map fst t = order -> (forall x v, In (x, v) t -> In v (dm x)) -> In t (fulls order).
Proof.
  induction order as [|x order IH]; intros [|[z v] t] E Ht; try discriminate; [now left|]. cbn in E. injection E as -> E.
  cbn [fulls]. apply in_flat_map. exists v. split; [apply Ht; now left|]. apply in_map. apply IH; [exact E|].
  intros a b Hab. apply Ht. now right.
Qed.

Lemma flat_map_len {A B} (g : A -> list B) n l : (forall a, Z.of_nat (length (g a)) = n) -> Z.of_nat (length (flat_map g l)) = Z.of_nat (length l) * n.
Proof. intros H. induction l as [|a l IH]; [reflexivity|]. cbn [flat_map length]. rewrite app_length, Nat2Z.inj_add, IH, H. lia. Qed.

Lemma partials_length order : Z.of_nat (length (partials order)) = tree (map (fun x => len (dm x)) order).
Proof.
  induction order as [|x order IH]; [reflexivity|]. cbn [partials tree map length]. rewrite Nat2Z.inj_succ.
  rewrite (flat_map_len _ (tree (map (fun x => len (dm x)) order))); [unfold len; lia|]. intros v. now rewrite map_length.
Qed.
Lemma fulls_length order : Z.of_nat (length (fulls order)) = space (map (fun x => len (dm x)) order).
Proof.
  induction order as [|x order IH]; [reflexivity|]. cbn [fulls space map].
  rewrite (flat_map_len _ (space (map (fun x => len (dm x)) order))); [unfold len; lia|]. intros v. now rewrite map_length.
Qed.

Lemma partials_bound order ts : NoDup ts -> (forall t, In t ts -> SpecWatch.starts order t /\ forall x v, In (x, v) t -> In v (dm x)) ->
  len ts <= tree (map (fun x => len (dm x)) order).
Proof.
  intros Hnd H. assert (Hl : (length ts <= length (partials order))%nat).
  { apply NoDup_incl_length; [exact Hnd|]. intros t Ht. destruct (H t Ht). now apply partials_In. }
  rewrite <- partials_length. unfold len. apply Nat2Z.inj_le. exact Hl.
Qed.
Lemma fulls_bound order ys : NoDup ys -> (forall t, In t ys -> map fst t = order /\ forall x v, In (x, v) t -> In v (dm x)) ->
  len ys <= space (map (fun x => len (dm x)) order).
Proof.
  intros Hnd H. assert (Hl : (length ys <= length (fulls order))%nat).
  { apply NoDup_incl_length; [exact Hnd|]. intros t Ht. destruct (H t Ht). now apply fulls_In. }
  rewrite <- fulls_length. unfold len. apply Nat2Z.inj_le. exact Hl.
Qed.
End Lists.

(** ** Ascending sizes are best *)

Definition positive (l : list Z) : Prop := forall d, In d l -> 0 <= d.

Lemma tree_positive l : positive l -> 0 <= tree l.
Proof.
  induction l as [|d l IH]; intros H; [simpl; lia|]. cbn [tree]. assert (0 <= d) by (apply H; now left).
  assert (0 <= tree l) by (apply IH; intros x Hx; apply H; now right). nia.
Qed.

Fixpoint insert (x : Z) (l : list Z) : list Z :=
  match l with [] => [x] | y :: l' => if x <=? y then x :: y :: l' else y :: insert x l' end.
Fixpoint isort (l : list Z) : list Z := match l with [] => [] | x :: l' => insert x (isort l') end.

Lemma insert_perm x l : Permutation (insert x l) (x :: l).
Proof.
  induction l as [|y l IH]; [reflexivity|]. cbn [insert]. destruct (x <=? y); [reflexivity|].
  rewrite IH. apply perm_swap.
Qed.
Lemma isort_perm l : Permutation (isort l) l.
Proof. induction l as [|x l IH]; [reflexivity|]. cbn [isort]. rewrite insert_perm. now constructor. Qed.

Lemma insert_sorted x l : StronglySorted Z.le l -> StronglySorted Z.le (insert x l).
Proof.
  induction 1 as [|y l Hl IH Hy]; [repeat constructor|]. cbn [insert]. destruct (Z.leb_spec x y).
  - constructor; [now constructor|]. constructor; [assumption|]. rewrite Forall_forall in *. intros z Hz. specialize (Hy z Hz). lia.
  - constructor; [exact IH|]. rewrite Forall_forall in *. intros z Hz. apply (Permutation_in z (insert_perm x l)) in Hz.
    destruct Hz as [<-|Hz]; [lia|now apply Hy].
Qed.
Lemma isort_sorted l : StronglySorted Z.le (isort l).
Proof. induction l as [|x l IH]; [constructor|]. cbn [isort]. now apply insert_sorted. Qed.

Lemma sorted_unique l : forall l', StronglySorted Z.le l -> StronglySorted Z.le l' -> Permutation l l' -> l = l'.
Proof.
  induction l as [|x l IH]; intros l' H H' Hp; [apply Permutation_nil in Hp; now subst|].
  destruct l' as [|y l']; [apply Permutation_sym, Permutation_nil in Hp; discriminate|].
  inversion H as [|? ? Hl Hx]; inversion H' as [|? ? Hl' Hy]; subst. rewrite Forall_forall in Hx, Hy.
  assert (E : x = y).
  { assert (Hix : In x (y :: l')) by (apply (Permutation_in x Hp); now left).
    assert (Hiy : In y (x :: l)) by (apply (Permutation_in y (Permutation_sym Hp)); now left).
    destruct Hix as [|Hix]; [auto|]. destruct Hiy as [|Hiy]; [auto|]. specialize (Hx y Hiy). specialize (Hy x Hix). lia. }
  subst y. f_equal. apply IH; [exact Hl|exact Hl'|]. now apply Permutation_cons_inv in Hp.
Qed.

Lemma insert_tree x l : 0 <= x -> positive l -> tree (insert x l) <= tree (x :: l).
Proof.
  intros Hx. induction l as [|y l IH]; intros Hp; [cbn; lia|]. cbn [insert]. destruct (Z.leb_spec x y); [lia|].
  assert (Hl : positive l) by (intros z Hz; apply Hp; now right). assert (Hy : 0 <= y) by (apply Hp; now left).
  specialize (IH Hl). cbn [tree] in *. pose proof (tree_positive l Hl). nia.
Qed.

Lemma isort_tree l : positive l -> tree (isort l) <= tree l.
Proof.
  induction l as [|x l IH]; intros Hp; [cbn; lia|]. cbn [isort].
  assert (Hl : positive l) by (intros z Hz; apply Hp; now right). assert (Hx : 0 <= x) by (apply Hp; now left).
  assert (Hl' : positive (isort l)) by (intros z Hz; apply Hl; exact (Permutation_in z (isort_perm l) Hz)).
  pose proof (insert_tree x (isort l) Hx Hl'). specialize (IH Hl). cbn [tree] in *. nia.
Qed.

Lemma tree_ascending l l' : positive l -> StronglySorted Z.le l -> Permutation l l' -> tree l <= tree l'.
Proof.
  intros Hp Hs Hpm. assert (Hp' : positive l') by (intros z Hz; apply Hp; exact (Permutation_in z (Permutation_sym Hpm) Hz)).
  rewrite (sorted_unique l (isort l') Hs (isort_sorted l')); [now apply isort_tree|]. rewrite isort_perm. exact Hpm.
Qed.

Lemma space_perm l l' : Permutation l l' -> space l = space l'.
Proof. induction 1; cbn [space]; lia. Qed.

Lemma sizes_positive m order : positive (sizes m order).
Proof. intros d Hd. apply in_map_iff in Hd. destruct Hd as (x & <- & _). unfold domain_size, len. lia. Qed.

Lemma sorts_sizes m names order : sorts Z.lt (domain_size m) names order -> StronglySorted Z.le (sizes m order).
Proof.
  intros [_ H]. assert (Hle : forall x y, comes order x y -> domain_size m x <= domain_size m y).
  { intros x y Hc. destruct (H x y Hc) as [|[-> _]]; lia. }
  clear H. induction order as [|x order IH]; [constructor|]. cbn. constructor.
  - apply IH. intros a b (l1 & l2 & l3 & ->). apply Hle. exists (x :: l1), l2, l3. reflexivity.
  - apply Forall_forall. intros d Hd. apply in_map_iff in Hd. destruct Hd as (y & <- & Hy). apply Hle.
    apply in_split in Hy. destruct Hy as (l1 & l2 & ->). exists [], l1, l2. reflexivity.
Qed.

(** ** The search *)

Section Run.
Variables (clk : nat -> Z) (shuffle : list name -> list name) (f : nat) (e : env) (sv : solver) (a : args).
Variables (ts ys : list subst) (e' : env) (r : option exn).
Let m := w_model (e_world e).
Let cs := all_cons m a.
Hypothesis Hv : valid shuffle e a.
Hypothesis H : solve_watched clk shuffle f e sv a = Some (ts, ys, e', r).
Let n := Z.of_nat (iterations clk shuffle f e (GInit sv a)).

Lemma solve_space : exists order, Permutation order (variables_of m) /\ (ts <> [] -> visits shuffle (policy_of sv a) m cs order) /\
  len ts <= tree (sizes m order) /\ len ys <= space (sizes m order) /\ n <= 2 * tree (sizes m order) + space (sizes m order) + 1.
Proof.
  destruct (watched clk shuffle f e sv a ts ys e' r Hv H) as (order & Hp & _ & _ & _ & Hvis & Hk & Ht & Hnd & _).
  pose proof (watched_all clk shuffle f e sv a ts ys e' r H) as Hall.
  pose proof (proj1 (proj2 Hv)) as Hn.
  assert (H1 : len ts <= tree (sizes m order)).
  { apply partials_bound; [exact Hnd|]. intros t Hin. destruct (Ht t Hin) as [Hst (Hdm & _)]. split; [exact Hst|].
    intros x v Hx. destruct (Hdm x v Hx) as (d & Hxd & Hvd). now rewrite (declared_variable m x d Hn Hxd). }
  assert (H2 : len ys <= space (sizes m order)).
  { apply fulls_bound; [refine (FOP_NoDup _ _ _ (distinct clk shuffle f e sv a ys e' r Hv Hall)); intros s Hne; apply Hne; intros x; reflexivity|]. intros s Hin. split; [now apply Hk|].
    intros x v Hx. destruct (sound clk shuffle f e sv a ys e' r Hv Hall s Hin) as [(_ & Hkeys & Hdm) _].
    destruct (proj1 (Hkeys x) (in_map fst _ _ Hx)) as (d & Hxd). pose proof (Hdm x v d Hx Hxd) as Hvd. now rewrite (declared_variable m x d Hn Hxd). }
  exists order. split; [exact Hp|]. split; [exact Hvis|]. split; [exact H1|]. split; [exact H2|].
  destruct (cost clk shuffle f e sv a ts ys e' r Hv H) as [H3 _]. fold n in H3. lia.
Qed.

Lemma solve_ascending : policy_of sv a = MIN_BOUND -> forall order, Permutation order (variables_of m) ->
  len ts <= tree (sizes m order) /\ n <= 2 * tree (sizes m order) + space (sizes m order) + 1.
Proof.
  intros Hpo order' Hp'. destruct solve_space as (order & Hp & Hvis & H1 & H2 & _).
  destruct (cost clk shuffle f e sv a ts ys e' r Hv H) as [H3 _]. fold n in H3.
  assert (Hpm : Permutation (sizes m order) (sizes m order')).
  { apply Permutation_map. now rewrite Hp, Hp'. }
  assert (Ht : len ts <= tree (sizes m order')).
  { destruct ts as [|t0 ts0] eqn:Ets.
    - apply (tree_positive _ (sizes_positive m order')).
    - specialize (Hvis ltac:(discriminate)). rewrite Hpo in Hvis. cbn in Hvis.
      pose proof (tree_ascending _ _ (sizes_positive m order) (sorts_sizes m _ order Hvis) Hpm). lia. }
  rewrite (space_perm _ _ Hpm) in H2. split; [exact Ht|lia].
Qed.
End Run.
