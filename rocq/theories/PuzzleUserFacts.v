(** What the proofs about a puzzle class establish. *)
From Verif Require Import SpecPuzzle SpecSafe SpecSolve Puzzle ExprFacts ExprProps DictFacts PuzzleFacts.
Open Scope list_scope.
Open Scope Z_scope.

Definition P0 : nat -> Z := fun _ => 0.
Lemma flat_nil {A B} (l : list A) : flat_map (fun _ => @nil B) l = [].
Proof. induction l; [reflexivity|exact IHl]. Qed.

(** What the proofs about a puzzle class establish (the premises of [puzzle_exactly]). *)
Record describes {A B} (init : op A) (obj : A) (V : dict (list Z)) (C : list pbody) (decode : A -> subst -> res B) (ok : B -> Prop) : Prop := Describes {
  d_adds : adds P0 [] init obj V C;
  d_vars : V <> [];
  d_safe : forall p, In p C -> p_safe p;
  d_dec : forall s, good_solution P0 V C s -> exists b, decode obj s = Ok b /\ ok b;
  d_inj : forall s s' b, good_solution P0 V C s -> good_solution P0 V C s' -> decode obj s = Ok b -> decode obj s' = Ok b ->
    forall x, In x (names_of V) -> val s x = val s' x;
  d_all : forall b, ok b -> exists a, (forall x d, In (x, d) V -> In (a x) d) /\ (forall p, In p C -> sat P0 a p) /\
    forall s, (forall x, In x (names_of V) -> dget s x = Some (a x)) -> decode obj s = Ok b
}.

Lemma describes_exactly {A B} clk shuffle (init : op A) (obj : A) (V : dict (list Z)) C (decode : A -> subst -> res B) pol t l cmp ok :
  describes init obj V C decode ok -> shuffles shuffle ->
  exactly (fun fuel => puzzle_run clk shuffle fuel init decode (new_solver pol t l cmp)) ok t l.
Proof. intros [H1 H2 H3 H4 H5 H6] Hs. eapply puzzle_exactly; eauto. Qed.

Lemma meaning_agree a a' : forall f, (forall x, In x (fvars f) -> a x = a' x) -> meaning P0 a f = meaning P0 a' f.
Proof.
  fix IH 1. intros [n|x|p x|g|g|u g h|gs] H; cbn [meaning fvars] in *.
  - reflexivity.
  - f_equal. apply H. now left.
  - reflexivity.
  - now rewrite (IH g H).
  - now rewrite (IH g H).
  - rewrite (IH g), (IH h); [reflexivity| |]; intros x Hx; apply H; apply in_or_app; auto.
  - revert H. induction gs as [|g gs IHg]; intros H; [reflexivity|].
    rewrite (IH g), IHg; [reflexivity| |]; intros x Hx; apply H; cbn [flat_map]; apply in_or_app; auto.
Qed.

Lemma sat_agree a a' p : (forall x, In x (p_names p) -> a x = a' x) -> sat P0 a p -> sat P0 a' p.
Proof.
  intros H. destruct p as [f|xs]; cbn [sat p_names] in *.
  - now rewrite (meaning_agree a a' f H).
  - intros Hd x y Hx Hy Hne. rewrite <- !H by assumption. now apply Hd.
Qed.
