(** Operations that add to a model which has other variables already. *)
From Verif Require Import SpecPuzzle SpecSafe SpecSolve Puzzle ExprFacts ExprProps DictFacts PuzzleFacts PuzzleRel PuzzleUserFacts
  PuzzleUser SpecPuzzleUser PuzzleUserRel.
Open Scope list_scope.
Open Scope Z_scope.

Definition apart {A B} (v : dict A) (w : dict B) : Prop := forall x, In x (names_of v) -> ~ In x (names_of w).

Lemma apart_app {A B} (u : dict A) (v w : dict B) : apart u (v ++ w) <-> apart u v /\ apart u w.
Proof.
  unfold apart. split.
  - intros H. split; intros x Hx Hin; apply (H x Hx); rewrite names_app, in_app_iff; auto.
  - intros [H1 H2] x Hx. rewrite names_app, in_app_iff. intros [H|H]; [now apply (H1 x)|now apply (H2 x)].
Qed.

Lemma adds_radds {B} P vs (p : op B) r V C : adds P vs p r V C -> forall dom cmp vs0, apart vs0 V ->
  radds dom cmp P (vs0 ++ vs) p r V C.
Proof.
  induction 1 as [B vs b|A B vs p k r1 r2 V1 C1 V2 C2 _ H1 _ H2|B vs p p' r V C _ H E|vs x d Hg Hx Hd|vs f H1 H2 H3 H4 H5|vs xs H]; intros dom cmp vs0 Ha.
  - apply radds_ret.
  - apply apart_app in Ha. destruct Ha as [Ha1 Ha2]. eapply radds_bind; [now apply H1|]. rewrite <- app_assoc. now apply H2.
  - intros w ps Hb. rewrite <- E. now apply H.
  - apply radds_var; auto. rewrite names_app, in_app_iff. intros [Hi|Hi]; [|contradiction]. apply (Ha x Hi). now left.
  - apply radds_form; auto.
    + intros n Hn. split; [exact H5|]. now apply (comparison_of_ints f n H5 H1).
    + intros x Hx. rewrite names_app, in_app_iff. right. now apply H2.
    + destruct (H3 (fun _ => 0)) as (v & Hv). exists (fun _ => 0), v. exact Hv.
  - apply radds_diff. intros x Hx. rewrite names_app, in_app_iff. right. now apply H.
Qed.

(** If a name is taken, ValueError is raised. *)
Lemma taken_dec {A B} (v : dict A) (w : dict B) : apart v w \/ exists x, In x (names_of v) /\ In x (names_of w).
Proof.
  unfold apart. generalize (names_of w). intros l. induction (names_of v) as [|x xs IH]; [left; intros x []|].
  destruct IH as [IH|(y & H1 & H2)]; [|right; exists y; split; [now right|exact H2]].
  destruct (in_dec string_dec x l) as [Hi|Hi]; [right; exists x; split; [now left|exact Hi]|].
  left. intros y [<-|Hy]; [exact Hi|now apply IH].
Qed.

Lemma adds_taken {B} P vs (p : op B) r V C : adds P vs p r V C -> forall dom cmp vs0 w ps, rbuilt dom cmp P w (vs0 ++ vs) ps ->
  (exists x, In x (names_of vs0) /\ In x (names_of V)) -> exists w', p w = (w', Err ValueError).
Proof.
  induction 1 as [B vs b|A B vs p k r1 r2 V1 C1 V2 C2 HA1 H1 _ H2|B vs p p' r V C _ H E|vs x d Hg Hx Hd|vs f H1 H2 H3 H4 H5|vs xs H]; intros dom cmp vs0 w ps Hb (y & Hy & Hv);
    try (destruct Hv; fail).
  - destruct (taken_dec vs0 V1) as [Ha|Ht].
    + destruct (adds_radds _ _ _ _ _ _ HA1 dom cmp vs0 Ha w ps Hb) as (w1 & E1 & Hb1). rewrite <- app_assoc in Hb1.
      destruct (H2 dom cmp vs0 w1 _ Hb1) as (w2 & E2).
      { exists y. split; [exact Hy|]. rewrite names_app, in_app_iff in Hv. destruct Hv as [Hv|Hv]; [now apply Ha in Hv|exact Hv]. }
      exists w2. unfold op_bind. now rewrite E1.
    + destruct (H1 dom cmp vs0 w ps Hb Ht) as (w1 & E1). exists w1. unfold op_bind. now rewrite E1.
  - rewrite <- E. eapply H; eauto.
  - destruct Hv as [<-|[]]. cbn [fst] in Hy. unfold add_int_variable. apply has_dup_NoDup in Hd. rewrite Hd. cbn [choose_name]. rewrite Hg.
    assert (Hm : dmem (m_vars (w_model w)) x = true).
    { destruct (dmem (m_vars (w_model w)) x) eqn:Em; [reflexivity|exfalso]. apply dmem_false in Em. apply Em. rewrite (r_vars _ _ _ _ _ _ Hb), keys_vs, names_app, in_app_iff. now left. }
    rewrite Hm. eauto.
Qed.

(** The same class with other objects and results. *)
Lemma ready_wrap {A B A' B'} (init : op A) obj V C (decode : A -> subst -> res B) ok means D (wo : A -> A') (wr : B -> B') (decode' : A' -> subst -> res B') (ok' : B' -> Prop) (means' : B' -> assignment -> Prop) :
  ready init obj V C decode ok means D ->
  (forall s, decode' (wo obj) s = (let! b := decode obj s in Ok (wr b))) -> (forall b b', wr b = wr b' -> b = b') ->
  (forall b', ok' b' -> exists b, b' = wr b) -> (forall b, ok' (wr b) <-> ok b) -> (forall b a, means' (wr b) a <-> means b a) ->
  ready (op_bind init (fun o => op_ret (wo o))) (wo obj) V C decode' ok' means' D.
Proof.
  intros [[H1 H2 H3 H4 H5 H6] Hcl Hm Hu HD Hn] Hd Hi Ho Hok Hme.
  assert (Hinv : forall s b', decode' (wo obj) s = Ok b' -> exists b, b' = wr b /\ decode obj s = Ok b).
  { intros s b'. rewrite Hd. destruct (decode obj s) as [b|]; [|discriminate]. cbn. intros E. injection E as <-. eauto. }
  constructor; [constructor|exact Hcl| | |exact HD|exact Hn].
  - apply (adds_ext P0 [] (op_bind init (fun o => op_ret (wo o))) _ _ (V ++ []) V (C ++ []) C); [|reflexivity|apply app_nil_r|apply app_nil_r].
    eapply adds_bind; [exact H1|apply adds_ret].
  - exact H2.
  - exact H3.
  - intros s Hs. destruct (H4 s Hs) as (b & E & Hb). exists (wr b). rewrite Hd, E. split; [reflexivity|now apply Hok].
  - intros s s' b' Hs Hs' E E'. destruct (Hinv s b' E) as (b & -> & Eb). destruct (Hinv s' (wr b) E') as (b2 & Ew & Eb'). apply Hi in Ew. subst b2. now apply (H5 s s' b).
  - intros b' Hb'. destruct (Ho b' Hb') as (b & ->). destruct (H6 b) as (a & Ha1 & Ha2 & Ha3); [now apply Hok|]. exists a. split; [exact Ha1|]. split; [exact Ha2|].
    intros s Hs. rewrite Hd, (Ha3 s Hs). reflexivity.
  - intros s b' Hs E. destruct (Hinv s b' E) as (b & -> & Eb). apply Hme. now apply (Hm s).
  - intros b' a a' Hb' Ha Ha'. destruct (Ho b' Hb') as (b & ->). apply Hme in Ha. apply Hme in Ha'. apply (Hu b); auto. now apply Hok.
Qed.

(** A solution determines the values of the variables. *)
Lemma ready_forced {A B} (init : op A) obj V C (decode : A -> subst -> res B) ok means D b a : ready init obj V C decode ok means D -> ok b -> means b a ->
  (forall x d, In (x, d) V -> In (a x) d) /\ (forall p, In p C -> sat P0 a p) /\
  forall s, (forall x, In x (names_of V) -> dget s x = Some (a x)) -> decode obj s = Ok b.
Proof.
  intros [[H1 H2 H3 H4 H5 H6] Hcl Hm Hu HD Hnames] Hb Ha. destruct (H6 b Hb) as (a0 & Hd & Hc & Hdec).
  pose proof (adds_NoDup _ _ _ _ H1) as HND.
  set (s0 := map (fun p : name * list Z => (fst p, a0 (fst p))) V).
  assert (Hn0 : names_of s0 = names_of V) by (unfold s0, names_of; rewrite map_map; reflexivity).
  assert (Hget : forall x, In x (names_of V) -> dget s0 x = Some (a0 x)).
  { intros x Hx. apply dget_NoDup; [now rewrite Hn0|]. unfold names_of in Hx. apply in_map_iff in Hx. destruct Hx as ([y d] & <- & Hin).
    apply in_map_iff. exists (y, d). auto. }
  assert (Hval : forall x, In x (names_of V) -> val s0 x = a0 x).
  { intros x Hx. unfold val, dget_or. now rewrite (Hget x Hx). }
  assert (HinV : forall x d, In (x, d) V -> In x (names_of V)) by (intros x d Hin; apply in_map_iff; exists (x, d); auto).
  assert (Hgs : good_solution P0 V C s0).
  { split.
    - intros y d Hy. pose proof (HinV y d Hy) as Hy'. rewrite (Hget y Hy'), (Hval y Hy'). auto.
    - intros p Hp. apply (sat_agree a0 (val s0)); [|now apply Hc]. intros y Hy. symmetry. apply Hval. eapply Hcl; eauto. }
  assert (Haa : forall x, In x (names_of V) -> a x = a0 x).
  { intros x Hx. rewrite (Hu b a (val s0) Hb Ha (Hm s0 b Hgs (Hdec s0 Hget)) x Hx). now apply Hval. }
  split; [|split].
  - intros x d Hin. rewrite (Haa x (HinV x d Hin)). now apply Hd.
  - intros p Hp. apply (sat_agree a0 a); [|now apply Hc]. intros x Hx. symmetry. apply Haa. eapply Hcl; eauto.
  - intros s Hs. apply Hdec. intros x Hx. rewrite <- (Haa x Hx). now apply Hs.
Qed.
