(** Facts about dictionaries. *)
From Verif Require Import Py ExprFacts.
Open Scope list_scope.
Open Scope Z_scope.

Lemma eqb_refl_s (x : name) : String.eqb x x = true.
Proof. apply String.eqb_refl. Qed.

Lemma dget_dset {A} (d : dict A) x a y :
  dget (dset d x a) y = if String.eqb y x then Some a else dget d y.
Proof.
  induction d as [|[z b] d IH]; simpl.
  - destruct (String.eqb_spec y x); reflexivity.
  - destruct (String.eqb_spec x z) as [->|Hxz]; simpl.
    + destruct (String.eqb_spec y z); reflexivity.
    + destruct (String.eqb_spec y z) as [->|Hyz].
      * destruct (String.eqb_spec z x); [congruence|reflexivity].
      * exact IH.
Qed.

Lemma dget_dset_eq {A} (d : dict A) x a : dget (dset d x a) x = Some a.
Proof. now rewrite dget_dset, eqb_refl_s. Qed.

Lemma dget_dset_ne {A} (d : dict A) x a y : y <> x -> dget (dset d x a) y = dget d y.
Proof. intros H. rewrite dget_dset. destruct (String.eqb_spec y x); [contradiction|reflexivity]. Qed.

Lemma dget_In {A} (d : dict A) x a : dget d x = Some a -> In (x, a) d.
Proof.
  induction d as [|[y b] d IH]; simpl; [discriminate|].
  destruct (String.eqb_spec x y) as [->|]; intros H; [left; congruence|right; auto].
Qed.

Lemma dget_None {A} (d : dict A) x : dget d x = None <-> ~ In x (dkeys d).
Proof.
  induction d as [|[y b] d IH]; simpl; [tauto|].
  destruct (String.eqb_spec x y) as [->|H].
  - split; [discriminate|]. intros H. exfalso. auto.
  - rewrite IH. split; intros Hn; [intros [E|E]; [congruence|auto]|tauto].
Qed.

Lemma dmem_In {A} (d : dict A) x : dmem d x = true <-> In x (dkeys d).
Proof.
  unfold dmem. destruct (dget d x) eqn:E.
  - split; [|reflexivity]. intros _. destruct (in_dec string_dec x (dkeys d)); [assumption|].
    apply dget_None in n. congruence.
  - split; [discriminate|]. intros H. apply dget_None in E. contradiction.
Qed.

Lemma dmem_false {A} (d : dict A) x : dmem d x = false <-> ~ In x (dkeys d).
Proof. rewrite <- dmem_In. destruct (dmem d x); split; congruence. Qed.

Lemma dget_Some {A} (d : dict A) x : In x (dkeys d) <-> exists a, dget d x = Some a.
Proof.
  rewrite <- dmem_In. unfold dmem. destruct (dget d x); split; eauto; try discriminate.
  intros [a H]; discriminate.
Qed.

Lemma dget_NoDup {A} (d : dict A) x a : NoDup (dkeys d) -> (dget d x = Some a <-> In (x, a) d).
Proof.
  intros Hnd. split; [apply dget_In|]. induction d as [|[y b] d IH]; simpl; [contradiction|].
  inversion Hnd as [|? ? Hy Hnd']; subst. intros [E|Hin].
  - inversion E; subst. now rewrite eqb_refl_s.
  - destruct (String.eqb_spec x y) as [->|]; [|now apply IH].
    exfalso. apply Hy. apply in_map_iff. exists (y, a). auto.
Qed.

Lemma dset_new {A} (d : dict A) x a : ~ In x (dkeys d) -> dset d x a = d ++ [(x, a)].
Proof.
  induction d as [|[y b] d IH]; simpl; [reflexivity|]. intros H.
  destruct (String.eqb_spec x y) as [->|]; [exfalso; auto|]. now rewrite IH by auto.
Qed.

Lemma dkeys_dset {A} (d : dict A) x a :
  dkeys (dset d x a) = if dmem d x then dkeys d else dkeys d ++ [x].
Proof.
  destruct (dmem d x) eqn:E.
  - induction d as [|[y b] d IH]; [discriminate|]. unfold dmem in E. simpl in *.
    destruct (String.eqb_spec x y) as [->|]; simpl; [reflexivity|]. f_equal. apply IH.
    unfold dmem. exact E.
  - apply dmem_false in E. rewrite dset_new by assumption. unfold dkeys. now rewrite map_app.
Qed.

Lemma dset_In_keys {A} (d : dict A) x a y : In y (dkeys (dset d x a)) <-> y = x \/ In y (dkeys d).
Proof.
  rewrite dkeys_dset. destruct (dmem d x) eqn:E.
  - apply dmem_In in E. split; [auto|]. intros [->|]; assumption.
  - rewrite in_app_iff. simpl. split; [intros [|[->|[]]]; auto|intros [->|]; auto].
Qed.

Lemma dset_NoDup {A} (d : dict A) x a : NoDup (dkeys d) -> NoDup (dkeys (dset d x a)).
Proof.
  intros H. rewrite dkeys_dset. destruct (dmem d x) eqn:E; [assumption|].
  apply dmem_false in E. now apply NoDup_snoc.
Qed.

Lemma dget_app {A} (d d' : dict A) x :
  dget (d ++ d') x = match dget d x with Some a => Some a | None => dget d' x end.
Proof.
  induction d as [|[y b] d IH]; simpl; [reflexivity|]. destruct (String.eqb x y); [reflexivity|exact IH].
Qed.

Lemma dget_ddel {A} (d : dict A) x y : NoDup (dkeys d) ->
  dget (ddel d x) y = if String.eqb y x then None else dget d y.
Proof.
  induction d as [|[z b] d IH]; simpl; intros Hnd; [destruct (String.eqb y x); reflexivity|].
  inversion Hnd as [|? ? Hz Hnd']; subst.
  destruct (String.eqb_spec x z) as [->|Hxz].
  - destruct (String.eqb_spec y z) as [E|]; [|reflexivity]. subst. now apply dget_None.
  - simpl. destruct (String.eqb_spec y z) as [Hyz|].
    + subst. destruct (String.eqb_spec z x); [congruence|reflexivity].
    + now apply IH.
Qed.

Lemma ddel_In_keys {A} (d : dict A) x y : In y (dkeys (ddel d x)) -> In y (dkeys d).
Proof.
  induction d as [|[z b] d IH]; simpl; [tauto|]. destruct (String.eqb x z); simpl; tauto.
Qed.

Lemma ddel_NoDup {A} (d : dict A) x : NoDup (dkeys d) -> NoDup (dkeys (ddel d x)).
Proof.
  induction d as [|[z b] d IH]; simpl; intros H; [constructor|]. inversion H; subst.
  destruct (String.eqb x z); [assumption|]. simpl. constructor; [|auto].
  intros Hin. apply ddel_In_keys in Hin. contradiction.
Qed.

Lemma dset_dset {A} (d : dict A) x a b : dset (dset d x a) x b = dset d x b.
Proof.
  induction d as [|[y c] d IH]; simpl; [now rewrite eqb_refl_s|].
  destruct (String.eqb x y) eqn:E; simpl; rewrite E; [reflexivity|]. now rewrite IH.
Qed.
