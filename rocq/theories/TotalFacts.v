(** Expressions without partial operators evaluate whenever their variables are bound. *)
From Verif Require Import Solver SpecFormula SpecSafe SpecSolve ExprFacts DictFacts CodeFacts.
Open Scope list_scope.
Open Scope Z_scope.

Lemma total_evaluates ps (s : subst) e : total e = true ->
  (forall x, In x (vars e) -> exists v, dget s x = Some v) -> exists v, evaluate ps s e = Ok v.
Proof.
  assert (Hd : forall x l, In x (dedup l) <-> In x l) by (intros; apply dedup_In).
  induction e as [z|y|p y|e IH|e IH|e IH|o l r IHl IHr|es c IH|es c IH] using expr_ind'; cbn [total vars evaluate]; intros Ht Hv.
  - eexists; reflexivity.
  - destruct (Hv y (or_introl eq_refl)) as (v & ->). eexists; reflexivity.
  - eexists; reflexivity.
  - destruct IH as (v & ->); [assumption|intros x Hx; apply Hv; now apply Hd|eexists; reflexivity].
  - destruct IH as (v & ->); [assumption|intros x Hx; apply Hv; now apply Hd|eexists; reflexivity].
  - destruct IH as (v & ->); [assumption|intros x Hx; apply Hv; now apply Hd|eexists; reflexivity].
  - apply andb_true_iff in Ht. destruct Ht as [Ht Hr]. apply andb_true_iff in Ht. destruct Ht as [Ho Hl].
    destruct IHl as (a & ->); [assumption| |].
    { intros x Hx. apply Hv. apply Hd. apply in_or_app. now left. }
    destruct IHr as (b & ->); [assumption| |].
    { intros x Hx. apply Hv. apply Hd. apply in_or_app. now right. }
    destruct o; try discriminate; simpl; eexists; reflexivity.
  - revert c Ht Hv. induction es as [|e es IHes]; intros c Ht Hv; [eexists; reflexivity|]. simpl in Ht. apply andb_true_iff in Ht.
    destruct Ht as [H1 H2]. inversion IH as [|? ? Pe Pes]; subst. destruct Pe as (v & ->); [assumption| |].
    { intros x Hx. apply Hv. apply Hd. simpl. apply in_or_app. now left. }
    apply IHes; try assumption. intros x Hx. apply Hv. apply Hd. simpl. apply in_or_app. right. now apply Hd.
  - revert c Ht Hv. induction es as [|e es IHes]; intros c Ht Hv; [eexists; reflexivity|]. simpl in Ht. apply andb_true_iff in Ht.
    destruct Ht as [H1 H2]. inversion IH as [|? ? Pe Pes]; subst. destruct Pe as (v & ->); [assumption| |].
    { intros x Hx. apply Hv. apply Hd. simpl. apply in_or_app. now left. }
    apply IHes; try assumption. intros x Hx. apply Hv. apply Hd. simpl. apply in_or_app. right. now apply Hd.
Qed.

Lemma no_error_total ps m cs :
  (forall c e, In c cs -> c_body c = CExpr e -> total e = true) -> no_error ps m cs.
Proof.
  intros H c e s Hc Hb Hcc Hd Hall. apply total_evaluates; [eauto|]. intros x Hx. apply dget_Some. apply Hall.
  apply mentions_vars. unfold c_vars. now rewrite Hb.
Qed.
