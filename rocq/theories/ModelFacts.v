(** Invariants of the Model class (C10-C14). *)
From Verif Require Import Dec DecFacts Model ExprFacts DictFacts.
Open Scope list_scope.
Open Scope Z_scope.

Definition keys (w : world) : list name := dkeys (m_vars (w_model w)).

(** Shape of the names in a model with [n] entries. *)
Definition name_shape (n : nat) (x : name) : Prop :=
  good_name x = true \/ exists k, (k < n)%nat /\ (x = "_v" ++ str_nat k \/ x = "_p" ++ str_nat k)%string.

Definition inv (w : world) : Prop :=
  NoDup (keys w) /\
  (forall x, In x (keys w) -> name_shape (length (m_vars (w_model w))) x) /\
  (forall c x, In c (m_cons (w_model w)) -> In x (c_vars c) -> In x (keys w)).

Lemma inv_init : inv init_world.
Proof. repeat split; simpl; try contradiction. constructor. Qed.

Lemma name_shape_mono n m x : (n <= m)%nat -> name_shape n x -> name_shape m x.
Proof. intros H [Hg|(k & Hk & Hx)]; [left; assumption|right; exists k; split; [lia|assumption]]. Qed.

Lemma auto_fresh w prefix :
  inv w -> (prefix = "_v" \/ prefix = "_p")%string ->
  ~ In (prefix ++ str_nat (length (m_vars (w_model w))))%string (keys w).
Proof.
  intros (_ & Hsh & _) Hp Hin. apply Hsh in Hin. destruct Hin as [Hg|(k & Hk & Hx)].
  - destruct Hp; subst; discriminate.
  - assert (Heq : str_nat (length (m_vars (w_model w))) = str_nat k).
    { destruct Hp; subst prefix; destruct Hx as [Hx|Hx]; simpl in Hx; inversion Hx; reflexivity. }
    apply str_nat_inj in Heq. lia.
Qed.

Lemma choose_name_fresh w prefix nm x :
  inv w -> (prefix = "_v" \/ prefix = "_p")%string ->
  choose_name (w_model w) prefix nm = Ok x ->
  ~ In x (keys w) /\ name_shape (S (length (m_vars (w_model w)))) x.
Proof.
  intros Hi Hp H. unfold choose_name in H. destruct nm as [y|].
  - destruct (good_name y) eqn:Hg; [|discriminate].
    destruct (dmem (m_vars (w_model w)) y) eqn:Hm; [discriminate|]. inversion H; subst.
    split; [now apply dmem_false in Hm|now left].
  - inversion H; subst. split; [now apply auto_fresh|].
    right. exists (length (m_vars (w_model w))). split; [lia|]. destruct Hp; subst; auto.
Qed.

Lemma inv_add_entry w w' x info :
  inv w -> ~ In x (keys w) -> name_shape (S (length (m_vars (w_model w)))) x ->
  m_vars (w_model w') = dset (m_vars (w_model w)) x info ->
  m_cons (w_model w') = m_cons (w_model w) -> inv w'.
Proof.
  intros (Hnd & Hsh & Hc) Hx Hs Hv Hcons. unfold inv, keys in *. rewrite Hv, Hcons.
  split; [now apply dset_NoDup|]. split.
  - intros y Hy. rewrite dset_new by assumption. rewrite app_length. simpl. rewrite Nat.add_1_r.
    apply dset_In_keys in Hy. destruct Hy as [->|Hy]; [assumption|].
    eapply name_shape_mono; [|now apply Hsh]. lia.
  - intros c y Hin Hy. apply dset_In_keys. right. eapply Hc; eauto.
Qed.

Lemma inv_same_model w w' : inv w -> w_model w' = w_model w -> inv w'.
Proof. intros H E. unfold inv, keys in *. now rewrite E. Qed.

Lemma inv_add_int d nm w : inv w -> inv (fst (add_int_variable d nm w)).
Proof.
  intros H. unfold add_int_variable. destruct (has_dup d); [assumption|].
  destruct (choose_name (w_model w) "_v" nm) as [x|] eqn:E; [|assumption].
  apply choose_name_fresh in E; [|assumption|auto]. destruct E as [Hx Hs].
  eapply inv_add_entry; [exact H|exact Hx|exact Hs|reflexivity|reflexivity].
Qed.

Lemma inv_add_parameter v nm w : inv w -> inv (fst (add_parameter v nm w)).
Proof.
  intros H. unfold add_parameter.
  destruct (choose_name (w_model w) "_p" nm) as [x|] eqn:E; [|assumption].
  apply choose_name_fresh in E; [|assumption|auto]. destruct E as [Hx Hs].
  eapply inv_add_entry; [exact H|exact Hx|exact Hs|reflexivity|reflexivity].
Qed.

Lemma inv_add_obj c w : inv w -> inv (fst (add_constraint_obj c w)).
Proof.
  intros H. unfold add_constraint_obj.
  assert (Happ : forall m w1, inv w1 -> w_model w1 = m ->
     inv (fst (if forallb (fun x => dmem (m_vars m) x) (c_vars c)
               then (set_model w1 (Model (m_vars m) (m_cons m ++ [c]) (m_solvable m)), Ok tt)
               else (w1, Err ValueError)))).
  { intros m w1 (Hnd & Hsh & Hc) <-. destruct (forallb _ (c_vars c)) eqn:Hf; [|repeat split; assumption].
    unfold inv, keys; simpl. repeat split; try assumption.
    intros c' x Hin Hx. apply in_app_iff in Hin. destruct Hin as [Hin|[<-|[]]]; [eapply Hc; eauto|].
    rewrite forallb_forall in Hf. now apply dmem_In, Hf. }
  destruct (c_vars c) as [|x xs] eqn:Ev; [|now apply Happ].
  destruct (ceval w c []) as [[|]|]; try assumption.
  apply Happ; [|reflexivity]. destruct H as (Hnd & Hsh & Hc). repeat split; assumption.
Qed.

Lemma new_constraint_model w b : w_model (snd (new_constraint w b)) = w_model w.
Proof. reflexivity. Qed.

Lemma ccompile_model w c : w_model (ccompile w c) = w_model w.
Proof. unfold ccompile. destruct (c_body c); reflexivity. Qed.

Lemma inv_step a w : inv w -> inv (fst (run_api a w)).
Proof.
  intros H. destruct a; simpl.
  - now apply inv_add_int.
  - now apply inv_add_int.
  - now apply inv_add_parameter.
  - destruct a; simpl; try assumption; apply inv_add_obj; try assumption;
      (eapply inv_same_model; [exact H|reflexivity]).
  - apply inv_add_obj. eapply inv_same_model; [exact H|reflexivity].
  - assumption.
  - eapply inv_same_model; [exact H|reflexivity].
  - eapply inv_same_model; [exact H|reflexivity].
  - eapply inv_same_model; [exact H|]. apply ccompile_model.
Qed.

Lemma inv_history h : forall w, inv w -> inv (run_history h w).
Proof. induction h as [|a h IH]; intros w H; [assumption|]. simpl. now apply IH, inv_step. Qed.

Lemma inv_reachable h : inv (run_history h init_world).
Proof. apply inv_history, inv_init. Qed.

Lemma run_history_app h1 h2 : forall w, run_history (h1 ++ h2) w = run_history h2 (run_history h1 w).
Proof. induction h1 as [|a h1 IH]; intros w; [reflexivity|]. simpl. apply IH. Qed.

(** ** C10 *)

Lemma names_unique h : NoDup (dkeys (m_vars (w_model (run_history h init_world)))).
Proof. apply inv_reachable. Qed.

Lemma has_dup_false d : has_dup d = false <-> NoDup d.
Proof.
  assert (Hz : forall v l, zmem v l = true <-> In v l).
  { intros v l. induction l as [|x l IH]; simpl; [split; [discriminate|contradiction]|].
    rewrite orb_true_iff, IH, Z.eqb_eq. split; intros [|]; auto. }
  induction d as [|v d IH]; simpl; [split; [constructor|reflexivity]|].
  rewrite orb_false_iff, IH. split.
  - intros [H1 H2]. constructor; [|assumption]. intros Hin. apply Hz in Hin. congruence.
  - intros H. inversion H; subst. split; [|assumption]. destruct (zmem v d) eqn:E; [|reflexivity].
    apply Hz in E. contradiction.
Qed.

Lemma auto_variable h d :
  NoDup d ->
  let w := run_history h init_world in
  exists x, snd (add_int_variable d None w) = Ok (Var x) /\
            ~ In x (dkeys (m_vars (w_model w))) /\
            m_vars (w_model (fst (add_int_variable d None w))) = m_vars (w_model w) ++ [(x, VVar d)].
Proof.
  intros Hd w. pose proof (inv_reachable h) as Hi. fold w in Hi.
  unfold add_int_variable. rewrite (proj2 (has_dup_false d) Hd). simpl.
  pose proof (auto_fresh w "_v" Hi (or_introl eq_refl)) as Hf.
  eexists. split; [reflexivity|]. split; [exact Hf|]. now apply dset_new.
Qed.

Lemma auto_parameter h v :
  let w := run_history h init_world in
  exists x p, snd (add_parameter v None w) = Ok (Param p x) /\
            ~ In x (dkeys (m_vars (w_model w))) /\
            m_vars (w_model (fst (add_parameter v None w))) = m_vars (w_model w) ++ [(x, VPar p)] /\
            w_par (fst (add_parameter v None w)) p = v.
Proof.
  intros w. pose proof (inv_reachable h) as Hi. fold w in Hi.
  unfold add_parameter. simpl.
  pose proof (auto_fresh w "_p" Hi (or_intror eq_refl)) as Hf.
  do 2 eexists. split; [reflexivity|]. split; [exact Hf|]. split; [now apply dset_new|].
  unfold upd. now rewrite Nat.eqb_refl.
Qed.

Lemma duplicate_rejected w x d v :
  In x (dkeys (m_vars (w_model w))) ->
  snd (add_int_variable d (Some x) w) = Err ValueError /\
  snd (add_parameter v (Some x) w) = Err ValueError.
Proof.
  intros H. apply dmem_In in H. unfold add_int_variable, add_parameter, choose_name. rewrite H.
  split.
  - destruct (has_dup d); [reflexivity|]. destruct (good_name x); reflexivity.
  - destruct (good_name x); reflexivity.
Qed.

Lemma entry_stable_step a w x info :
  inv w -> dget (m_vars (w_model w)) x = Some info ->
  dget (m_vars (w_model (fst (run_api a w)))) x = Some info.
Proof.
  intros Hi H.
  assert (Hx : In x (keys w)) by (apply dget_Some; eauto).
  assert (Hadd : forall y i, ~ In y (keys w) -> dget (dset (m_vars (w_model w)) y i) x = Some info).
  { intros y i Hy. rewrite dget_dset_ne; [assumption|]. intros ->. contradiction. }
  assert (Hint : forall d nm, dget (m_vars (w_model (fst (add_int_variable d nm w)))) x = Some info).
  { intros d nm. unfold add_int_variable. destruct (has_dup d); [assumption|].
    destruct (choose_name (w_model w) "_v" nm) as [y|] eqn:E; [|assumption]. simpl.
    apply Hadd. eapply choose_name_fresh; [exact Hi| |exact E]. auto. }
  assert (Hobj : forall c w', w_model w' = w_model w ->
     dget (m_vars (w_model (fst (add_constraint_obj c w')))) x = Some info).
  { intros c w' E. unfold add_constraint_obj. rewrite E. destruct (c_vars c).
    - destruct (ceval w' c []) as [[|]|]; simpl; rewrite ?E; assumption.
    - destruct (forallb _ _); simpl; rewrite ?E; assumption. }
  destruct a; simpl.
  - apply Hint.
  - apply Hint.
  - unfold add_parameter. destruct (choose_name (w_model w) "_p" nm) as [y|] eqn:E; [|assumption]. simpl.
    apply Hadd. eapply choose_name_fresh; [exact Hi| |exact E]. auto.
  - destruct a; simpl; try assumption; now apply Hobj.
  - now apply Hobj.
  - assumption.
  - assumption.
  - assumption.
  - now rewrite ccompile_model.
Qed.

Lemma entry_stable h1 h2 x info :
  dget (m_vars (w_model (run_history h1 init_world))) x = Some info ->
  dget (m_vars (w_model (run_history (h1 ++ h2) init_world))) x = Some info.
Proof.
  rewrite run_history_app. pose proof (inv_reachable h1) as Hi. revert Hi.
  generalize (run_history h1 init_world) as w. induction h2 as [|a h2 IH]; intros w Hi H; [assumption|].
  simpl. apply IH; [now apply inv_step|]. now apply entry_stable_step.
Qed.

(** ** C11 *)

Lemma constraints_declared h c x :
  In c (m_cons (w_model (run_history h init_world))) -> In x (c_vars c) ->
  In x (dkeys (m_vars (w_model (run_history h init_world)))).
Proof. destruct (inv_reachable h) as (_ & _ & H). apply H. Qed.

(** ** C12 *)

Lemma failing_call_add_obj c w e :
  snd (add_constraint_obj c w) = Err e -> fst (add_constraint_obj c w) = w.
Proof.
  unfold add_constraint_obj. destruct (c_vars c) as [|x xs].
  - destruct (ceval w c []) as [[|]|]; simpl; try discriminate. reflexivity.
  - destruct (forallb _ _); simpl; [discriminate|reflexivity].
Qed.

Lemma failing_call a w e :
  snd (run_api a w) = Err e ->
  w_model (fst (run_api a w)) = w_model w /\ forall p, w_par (fst (run_api a w)) p = w_par w p.
Proof.
  assert (Hint : forall d nm, snd (add_int_variable d nm w) = Err e -> fst (add_int_variable d nm w) = w).
  { intros d nm. unfold add_int_variable. destruct (has_dup d); [reflexivity|].
    destruct (choose_name (w_model w) "_v" nm); [discriminate|reflexivity]. }
  assert (Hd : forall (r : world * res expr), snd (drop r) = Err e -> snd r = Err e).
  { intros [w' [a'|e']]; simpl; congruence. }
  destruct a; simpl; intros H; try discriminate.
  - apply Hd in H. apply Hint in H. rewrite H. auto.
  - apply Hd in H. apply Hint in H. unfold add_bool_variable. rewrite H. auto.
  - apply Hd in H. unfold add_parameter in *.
    destruct (choose_name (w_model w) "_p" nm); [discriminate|]. auto.
  - destruct a; simpl in *; try (apply failing_call_add_obj in H; rewrite H; auto). auto.
  - unfold add_all_different_constraint in *. simpl in *. apply failing_call_add_obj in H. rewrite H. auto.
Qed.

(** ** C13 *)

Lemma const_expr_call w e v :
  (forall x, ~ In x (vars e)) -> evaluate (w_par w) [] e = Ok v ->
  let r := add_constraint (AExpr e) w in
  snd r = Ok tt /\ m_vars (w_model (fst r)) = m_vars (w_model w) /\
  if v =? 0 then m_solvable (w_model (fst r)) = false else w_model (fst r) = w_model w.
Proof.
  intros Hv He. assert (Hnil : vars e = []).
  { destruct (vars e) as [|x l]; [reflexivity|]. exfalso. apply (Hv x). now left. }
  simpl. unfold add_constraint_obj, c_vars, ceval. simpl. rewrite Hnil.
  unfold upd. rewrite Nat.eqb_refl. rewrite He. simpl. unfold truthy.
  destruct (v =? 0); simpl; auto.
Qed.

Lemma const_bool_call w b :
  let r := add_constraint (ABool b) w in
  snd r = Ok tt /\ m_vars (w_model (fst r)) = m_vars (w_model w) /\
  if b then w_model (fst r) = w_model w else m_solvable (w_model (fst r)) = false.
Proof. destruct b; simpl; auto. Qed.

Lemma unsolvable_step a w :
  m_solvable (w_model w) = false -> m_solvable (w_model (fst (run_api a w))) = false.
Proof.
  intros H.
  assert (Hint : forall d nm, m_solvable (w_model (fst (add_int_variable d nm w))) = false).
  { intros d nm. unfold add_int_variable. destruct (has_dup d); [assumption|].
    destruct (choose_name (w_model w) "_v" nm); assumption. }
  assert (Hobj : forall c w', w_model w' = w_model w ->
     m_solvable (w_model (fst (add_constraint_obj c w'))) = false).
  { intros c w' E. unfold add_constraint_obj. rewrite E. destruct (c_vars c).
    - destruct (ceval w' c []) as [[|]|]; simpl; rewrite ?E; auto.
    - destruct (forallb _ _); simpl; rewrite ?E; assumption. }
  destruct a; simpl.
  - apply Hint.
  - apply Hint.
  - unfold add_parameter. destruct (choose_name (w_model w) "_p" nm); assumption.
  - destruct a; simpl; auto.
  - now apply Hobj.
  - assumption.
  - assumption.
  - assumption.
  - now rewrite ccompile_model.
Qed.

Lemma unsolvable_forever h : forall w,
  m_solvable (w_model w) = false -> m_solvable (w_model (run_history h w)) = false.
Proof. induction h as [|a h IH]; intros w H; [assumption|]. simpl. now apply IH, unsolvable_step. Qed.

(** ** C14 *)

Lemma set_solvable_refuted : exists w b,
  m_solvable (w_model (fst (set_solvable b w))) <> b.
Proof. exists init_world, false. discriminate. Qed.
