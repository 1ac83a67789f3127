(** Models built by a sequence of declarations, and their solutions. *)
From Verif Require Import Puzzle SpecPuzzle SpecSafe SpecSolve ExprFacts ExprProps DictFacts CodeFacts ModelFacts SafeFacts CompileFacts
  SetupFacts LoopFacts MasterFacts SolverProps SolverMore SolverExtra.
Open Scope list_scope.
Open Scope Z_scope.

(** A constraint as written: a formula, or all-different. *)
Inductive pbody : Type :=
| PForm (f : formula)
| PDiff (xs : list name).

Definition sat (P : nat -> Z) (a : assignment) (p : pbody) : Prop :=
  match p with
  | PForm f => exists v, meaning P a f = Some v /\ v <> 0
  | PDiff xs => forall x y, In x xs -> In y xs -> x <> y -> a x <> a y
  end.

Definition p_names (p : pbody) : list name := match p with PForm f => fvars f | PDiff xs => xs end.

Definition p_defined (P : nat -> Z) (p : pbody) : Prop :=
  match p with PForm f => forall a, exists v, meaning P a f = Some v | PDiff _ => True end.

Definition p_safe (p : pbody) : Prop :=
  match p with PForm f => f_safe f = true | PDiff _ => True end.

Definition realizes (c : constraint) (p : pbody) : Prop :=
  match p with
  | PForm f => exists e, c_body c = CExpr e /\ build f = Ok (OExpr e)
  | PDiff xs => c_body c = CAllDiff xs
  end.

Definition names_of {A} (vs : dict A) : list name := map fst vs.

Record built (P : nat -> Z) (w : world) (vs : dict (list Z)) (ps : list pbody) : Prop := Built {
  b_par : w_par w = P;
  b_vars : m_vars (w_model w) = map (fun p => (fst p, VVar (snd p))) vs;
  b_names : NoDup (names_of vs);
  b_good : forall x, In x (names_of vs) -> good_name x = true;
  b_doms : forall x d, In (x, d) vs -> NoDup d;
  b_ids : NoDup (map c_id (m_cons (w_model w)));
  b_fresh : forall c, In c (m_cons (w_model w)) -> (c_id c < w_ncon w)%nat;
  b_code : forall c, In c (m_cons (w_model w)) -> w_code w (c_id c) = None;
  b_from : forall c, In c (m_cons (w_model w)) -> c_vars c <> [] -> exists p, In p ps /\ realizes c p;
  b_into : forall p, In p ps ->
    (exists c, In c (m_cons (w_model w)) /\ realizes c p) \/ (forall a, sat P a p) \/
    (m_solvable (w_model w) = false /\ forall a, ~ sat P a p);
  b_solv : m_solvable (w_model w) = false -> exists p, In p ps /\ forall a, ~ sat P a p;
  b_some : m_solvable (w_model w) = true -> forall c, In c (m_cons (w_model w)) -> c_vars c <> [];
  b_closed : forall c x, In c (m_cons (w_model w)) -> In x (c_vars c) -> In x (names_of vs);
  b_pdef : forall p, In p ps -> p_defined P p;
  b_expr : forall c e, In c (m_cons (w_model w)) -> c_body c = CExpr e -> exists f, In (PForm f) ps /\ build f = Ok (OExpr e)
}.

Lemma built_init : built (fun _ => 0) init_world [] [].
Proof. constructor; cbn; try reflexivity; try constructor; intros; try contradiction; discriminate. Qed.

Lemma zmem_In v l : zmem v l = true <-> In v l.
Proof.
  induction l as [|u l IH]; cbn; [split; [discriminate|contradiction]|]. rewrite orb_true_iff, IH, Z.eqb_eq. split; intros [H|H]; auto.
Qed.
Lemma has_dup_NoDup l : has_dup l = false <-> NoDup l.
Proof.
  induction l as [|v l IH]; cbn; [split; [constructor|reflexivity]|]. rewrite orb_false_iff, IH. split.
  - intros [H1 H2]. constructor; [|assumption]. intros H. apply zmem_In in H. congruence.
  - intros H. inversion H; subst. split; [|assumption]. destruct (zmem v l) eqn:E; [|reflexivity]. apply zmem_In in E. contradiction.
Qed.

Lemma NoDup_app_intro {A} (l l' : list A) : NoDup l -> NoDup l' -> (forall x, In x l -> ~ In x l') -> NoDup (l ++ l').
Proof.
  induction l as [|a l IH]; intros H1 H2 H3; [exact H2|]. inversion H1; subst. cbn. constructor.
  - intros Hin. apply in_app_or in Hin. destruct Hin as [Hin|Hin]; [contradiction|]. apply (H3 a (or_introl eq_refl) Hin).
  - apply IH; auto. intros x Hx. apply H3. now right.
Qed.

Lemma NoDup_app_inv {A} (l l' : list A) : NoDup (l ++ l') -> NoDup l /\ NoDup l' /\ forall x, In x l -> ~ In x l'.
Proof.
  induction l as [|a l IH]; cbn; intros H; [split; [constructor|split; [exact H|intros x []]]|]. inversion H; subst.
  destruct (IH H3) as (A1 & A2 & A3). split; [constructor; [intros Hin; apply H2; apply in_or_app; now left|exact A1]|]. split; [exact A2|].
  intros x [<-|Hx]; [intros Hin; apply H2; apply in_or_app; now right|now apply A3].
Qed.

Lemma keys_vs {A} (vs : dict A) (g : A -> vinfo) : dkeys (map (fun p => (fst p, g (snd p))) vs) = names_of vs.
Proof. unfold dkeys, names_of. rewrite map_map. reflexivity. Qed.

(** ** Declarations *)

Lemma built_var P vs x d : good_name x = true -> ~ In x (names_of vs) -> NoDup d -> forall w ps, built P w vs ps ->
  exists w', add_int_variable d (Some x) w = (w', Ok (Var x)) /\ built P w' (vs ++ [(x, d)]) (ps ++ []).
Proof.
  intros Hg Hx Hd w ps [Hp Hv Hn Hgo Hdo Hid Hfr Hco Hfrom Hinto Hsol Hsome Hcl Hdef Hexp]. unfold add_int_variable.
  apply has_dup_NoDup in Hd. rewrite Hd. cbn [choose_name]. rewrite Hg.
  assert (Hm : dmem (m_vars (w_model w)) x = false).
  { rewrite Hv. apply dmem_false. now rewrite keys_vs. }
  rewrite Hm. eexists. split; [reflexivity|]. rewrite app_nil_r.
  constructor; cbn; auto.
  - rewrite dset_new by (apply dmem_false; exact Hm). rewrite Hv, map_app. reflexivity.
  - unfold names_of. rewrite map_app. cbn. apply NoDup_app_intro; [exact Hn|repeat constructor; auto|]. intros y Hy [<-|[]]. contradiction.
  - unfold names_of. rewrite map_app. intros y Hy. apply in_app_or in Hy. destruct Hy as [Hy|[<-|[]]]; auto.
  - intros y d' Hy. apply in_app_or in Hy. destruct Hy as [Hy|[Hy|[]]]; [eauto|]. injection Hy as <- <-. now apply has_dup_NoDup.
  - intros c y Hc Hy. unfold names_of. rewrite map_app. apply in_or_app. left. eapply Hcl; eauto.
Qed.

(** Adding a constraint object that has just been made. *)
Lemma built_obj P w vs ps b p :
  built P w vs ps -> p_defined P p ->
  let c := fst (new_constraint w b) in
  (forall x, In x (c_vars c) -> In x (names_of vs)) ->
  (c_vars c <> [] -> realizes c p) ->
  (forall e, b = CExpr e -> exists f, p = PForm f /\ build f = Ok (OExpr e)) ->
  (c_vars c = [] -> exists v, ceval (snd (new_constraint w b)) c [] = Ok v /\
      if v then forall a, sat P a p else forall a, ~ sat P a p) ->
  exists w', add_constraint_obj c (snd (new_constraint w b)) = (w', Ok tt) /\ built P w' vs (ps ++ [p]).
Proof.
  intros [Hp Hv Hn Hgo Hdo Hid Hfr Hco Hfrom Hinto Hsol Hsome Hcl Hdef Hexp] Hpd c Hvars Hre Hbe Hconst.
  unfold add_constraint_obj. set (w1 := snd (new_constraint w b)) in *.
  assert (Hfa : forallb (fun x => dmem (m_vars (w_model w1)) x) (c_vars c) = true).
  { apply forallb_forall. intros x Hx. apply dmem_In. cbn. rewrite Hv. rewrite keys_vs. now apply Hvars. }
  assert (Hidn : ~ In (c_id c) (map c_id (m_cons (w_model w)))).
  { intros Hin. apply in_map_iff in Hin. destruct Hin as (c' & E & Hc'). apply Hfr in Hc'. cbn in E. lia. }
  assert (Hcode : forall c', In c' (m_cons (w_model w) ++ [c]) -> w_code w1 (c_id c') = None).
  { intros c' Hc'. cbn. unfold upd. destruct (Nat.eqb (c_id c') (w_ncon w)) eqn:E; [reflexivity|].
    apply in_app_or in Hc'. destruct Hc' as [Hc'|[<-|[]]]; [auto|]. cbn in E. rewrite Nat.eqb_refl in E. discriminate. }
  assert (Hfresh : forall c', In c' (m_cons (w_model w) ++ [c]) -> (c_id c' < w_ncon w1)%nat).
  { intros c' Hc'. apply in_app_or in Hc'. destruct Hc' as [Hc'|[<-|[]]]; cbn; [apply Hfr in Hc'; lia|lia]. }
  assert (Hids : NoDup (map c_id (m_cons (w_model w) ++ [c]))).
  { rewrite map_app. apply NoDup_app_intro; [exact Hid|repeat constructor; auto|]. intros y Hy [<-|[]]. contradiction. }
  assert (Hexpr : forall c' e', In c' (m_cons (w_model w) ++ [c]) -> c_body c' = CExpr e' -> exists f, In (PForm f) (ps ++ [p]) /\ build f = Ok (OExpr e')).
  { intros c' e' Hc' He'. apply in_app_or in Hc'. destruct Hc' as [Hc'|[<-|[]]].
    - destruct (Hexp c' e' Hc' He') as (f & Hf & Hbf). exists f. split; [apply in_or_app; now left|exact Hbf].
    - destruct (Hbe e' He') as (f & -> & Hbf). exists f. split; [apply in_or_app; right; now left|exact Hbf]. }
  assert (Hpdef : forall q, In q (ps ++ [p]) -> p_defined P q).
  { intros q Hq. apply in_app_or in Hq. destruct Hq as [Hq|[<-|[]]]; auto. }
  assert (Hclo : forall c' x, In c' (m_cons (w_model w) ++ [c]) -> In x (c_vars c') -> In x (names_of vs)).
  { intros c' x Hc' Hx. apply in_app_or in Hc'. destruct Hc' as [Hc'|[<-|[]]]; eauto. }
  destruct (c_vars c) as [|x0 xs0] eqn:Ec.
  - destruct (Hconst eq_refl) as (v & Hev & Hvv). rewrite Hev. destruct v.
    + eexists. split; [reflexivity|]. constructor; cbn; auto.
      * intros c' Hc'. specialize (Hfr c' Hc'). lia.
      * intros c' Hc'. apply Hcode. apply in_or_app. now left.
      * intros c' Hc' Hne. destruct (Hfrom c' Hc' Hne) as (q & Hq & Hr). exists q. split; [apply in_or_app; now left|exact Hr].
      * intros q Hq. apply in_app_or in Hq. destruct Hq as [Hq|[<-|[]]]; auto.
      * intros Hs. destruct (Hsol Hs) as (q & Hq & Hr). exists q. split; [apply in_or_app; now left|exact Hr].
      * intros c' e' Hc'. apply Hexpr. apply in_or_app. now left.
    + cbn [m_vars m_cons m_solvable forallb set_model w_model w_par w_code w_npar w_ncon] in *. eexists. split; [reflexivity|].
      constructor; cbn; auto.
      * intros c' Hc' Hne. apply in_app_or in Hc'. destruct Hc' as [Hc'|[<-|[]]]; [|contradiction].
        destruct (Hfrom c' Hc' Hne) as (q & Hq & Hr). exists q. split; [apply in_or_app; now left|exact Hr].
      * intros q Hq. apply in_app_or in Hq. destruct Hq as [Hq|[<-|[]]]; [|auto].
        destruct (Hinto q Hq) as [(c' & Hc' & Hr)|[H|[_ H]]]; auto. left. exists c'. split; [apply in_or_app; now left|exact Hr].
      * intros _. exists p. split; [apply in_or_app; right; now left|exact Hvv].
      * discriminate.
  - rewrite Hfa. eexists. split; [reflexivity|]. constructor; cbn; auto.
    + intros c' Hc' Hne. apply in_app_or in Hc'. destruct Hc' as [Hc'|[<-|[]]].
      * destruct (Hfrom c' Hc' Hne) as (q & Hq & Hr). exists q. split; [apply in_or_app; now left|exact Hr].
      * exists p. split; [apply in_or_app; right; now left|]. apply Hre. congruence.
    + intros q Hq. apply in_app_or in Hq. destruct Hq as [Hq|[<-|[]]].
      * destruct (Hinto q Hq) as [(c' & Hc' & Hr)|[H|H]]; auto. left. exists c'. split; [apply in_or_app; now left|exact Hr].
      * left. exists c. split; [apply in_or_app; right; now left|]. apply Hre. congruence.
    + intros Hs. destruct (Hsol Hs) as (q & Hq & Hr). exists q. split; [apply in_or_app; now left|exact Hr].
    + intros Hs c' Hc'. apply in_app_or in Hc'. destruct Hc' as [Hc'|[<-|[]]]; [now apply Hsome|change (c_vars c <> []); rewrite Ec; discriminate].
Qed.

(** ** Formulas *)

Lemma dget_map_fun (a : name -> Z) xs x : In x xs -> dget (map (fun y => (y, a y)) xs) x = Some (a x).
Proof.
  induction xs as [|y xs IH]; [contradiction|]. intros [->|H]; cbn.
  - now rewrite String.eqb_refl.
  - destruct (String.eqb_spec x y) as [->|]; auto.
Qed.

Lemma eval_form P a s f e v : build f = Ok (OExpr e) -> (forall x, In x (vars e) -> dget s x = Some (a x)) ->
  meaning P a f = Some v -> evaluate P s e = Ok v.
Proof.
  intros Hb Hs Hm. rewrite (evaluate_agree P s (map (fun y => (y, a y)) (fvars f))).
  - apply (build_meaning P a _ f v (OExpr e)); auto. intros x Hx. now apply dget_map_fun.
  - intros x Hx. apply vars_occurs in Hx. rewrite Hs by assumption. symmetry. apply dget_map_fun.
    apply (build_vars f (OExpr e)); assumption.
Qed.

(** The two sides of the comparison are not both Const objects. *)
Definition not_consts (f : formula) : Prop :=
  forall u g h c d, f = FBin u g h -> build g = Ok (OExpr (Const c)) -> build h = Ok (OExpr (Const d)) -> False.

Lemma comparison_of_ints f n : is_comparison f = true -> not_consts f -> build f = Ok (OInt n) -> of_ints f = true.
Proof.
  intros Hc Hn Hb. destruct f as [| | | | |u g h|]; try discriminate. cbn [is_comparison] in Hc.
  destruct (cmp_of u) as [o|] eqn:Eo; [|discriminate]. cbn [build of_ints] in *. specialize (Hn u g h).
  destruct (build g) as [a|]; [|discriminate]. destruct (build h) as [b|]; [|discriminate]. cbn [bind] in Hb.
  destruct a as [x|l], b as [y|r]; [reflexivity| | |]; exfalso.
  - destruct u; try discriminate Eo; cbn in Hb; unfold expr_cmp in Hb; destruct r; discriminate Hb.
  - destruct u; try discriminate Eo; cbn in Hb; unfold expr_cmp in Hb; destruct l; discriminate Hb.
  - assert (Hq : forall o', expr_cmp o' l (OExpr r) <> Ok (OInt n)).
    { intros o' E. unfold expr_cmp in E. destruct l as [c| | | | | | | |]; try discriminate E. destruct r as [d| | | | | | | |]; try discriminate E.
      exact (Hn c d eq_refl eq_refl eq_refl). }
    assert (Hp : forall o', is_var_param l r = true -> expr_cmp o' r (OExpr l) <> Ok (OInt n)).
    { intros o' Hv E. destruct l; try discriminate Hv. destruct r; try discriminate Hv. discriminate E. }
    destruct u; try discriminate Eo; cbn [py_op expr_op cmp_of swap_cmp] in Hb; destruct (is_var_param l r);
      ((eapply Hp; [reflexivity|exact Hb]) || (eapply Hq; exact Hb)).
Qed.

Lemma not_consts_l u x h : not_consts (FBin u (FVar x) h).
Proof. intros u' g h' c d E Hg _. injection E as _ <- _. discriminate Hg. Qed.
Lemma not_consts_r u g x : not_consts (FBin u g (FVar x)).
Proof. intros u' g' h c d E _ Hh. injection E as _ _ <-. discriminate Hh. Qed.
Lemma not_consts_int u g n : not_consts (FBin u g (FInt n)).
Proof. intros u' g' h c d E _ Hh. injection E as _ _ <-. discriminate Hh. Qed.

(** A formula that is built as a Const object takes the same value everywhere. *)
Lemma build_const P f c a v : build f = Ok (OExpr (Const c)) -> meaning P a f = Some v -> v = c.
Proof.
  intros Hb Hm. assert (E : oval P (map (fun y => (y, a y)) (fvars f)) (OExpr (Const c)) = Ok v).
  { apply (build_meaning P a _ f); auto. intros x Hx. now apply dget_map_fun. }
  cbn in E. now injection E as ->.
Qed.

Lemma built_form P vs f : not_consts f -> (forall x, In x (fvars f) -> In x (names_of vs)) -> (forall a, exists v, meaning P a f = Some v) ->
  div_ok f = true -> is_comparison f = true -> forall w ps, built P w vs ps ->
  exists w', add_formula f w = (w', Ok tt) /\ built P w' (vs ++ []) (ps ++ [PForm f]).
Proof.
  intros Hnc Hn Hd Hdiv Hc w ps Hb. rewrite app_nil_r. unfold add_formula.
  set (a0 := fun _ : name => 0). destruct (Hd a0) as (v0 & Hv0).
  destruct (build_total P a0 (map (fun y => (y, a0 y)) (fvars f)) f v0) as (o & Ho); auto.
  { intros x Hx. now apply dget_map_fun. }
  rewrite Ho. destruct o as [n|ex].
  - rewrite Hc, (comparison_of_ints f n Hc Hnc Ho). cbn [andb add_constraint]. 
    assert (Hn' : forall a, meaning P a f = Some n).
    { intros a. destruct (Hd a) as (v & Hv). assert (E : oval P (map (fun y => (y, a y)) (fvars f)) (OInt n) = Ok v).
      { apply (build_meaning P a _ f); auto. intros x Hx. now apply dget_map_fun. }
      cbn in E. congruence. }
    apply (built_obj P w vs ps (CConst (truthy n)) (PForm f) Hb Hd); cbn.
    + contradiction.
    + intros H. contradiction.
    + discriminate.
    + intros _. exists (truthy n). split; [reflexivity|]. unfold truthy. destruct (Z.eqb_spec n 0) as [->|Hne]; cbn.
      * intros a (v & Hv & Hne). rewrite Hn' in Hv. congruence.
      * intros a. exists n. auto.
  - cbn [add_constraint].
    apply (built_obj P w vs ps (CExpr ex) (PForm f) Hb Hd).
    + intros x Hx. apply Hn. apply (build_vars f (OExpr ex)); assumption.
    + intros _. exists ex. split; [reflexivity|assumption].
    + intros ex' E. injection E as <-. exists f. auto.
    + intros Hv. unfold ceval. cbn [fst snd new_constraint c_body c_id w_code w_par].
      rewrite upd_same. rewrite (b_par _ _ _ _ Hb).
      change (vars ex = []) in Hv.
      assert (He : forall a v, meaning P a f = Some v -> evaluate P [] ex = Ok v).
      { intros a v Hm. apply (eval_form P a [] f ex v Ho); auto. rewrite Hv. contradiction. }
      rewrite (He a0 v0 Hv0). exists (truthy v0). split; [reflexivity|].
      assert (Hall : forall a, meaning P a f = Some v0).
      { intros a. destruct (Hd a) as (v & Hm). rewrite Hm. pose proof (He a v Hm) as E1. rewrite (He a0 v0 Hv0) in E1. congruence. }
      unfold truthy. destruct (Z.eqb_spec v0 0) as [->|Hne]; cbn.
      * intros a (v & Hm & Hne). rewrite Hall in Hm. congruence.
      * intros a. exists v0. auto.
Qed.

Lemma built_diff P vs xs : (forall x, In x xs -> In x (names_of vs)) -> forall w ps, built P w vs ps ->
  exists w', add_all_different_constraint xs w = (w', Ok tt) /\ built P w' (vs ++ []) (ps ++ [PDiff xs]).
Proof.
  intros Hn w ps Hb. rewrite app_nil_r. unfold add_all_different_constraint.
  apply (built_obj P w vs ps (CAllDiff xs) (PDiff xs) Hb Logic.I).
  - intros x Hx. apply Hn. now apply dedup_In.
  - intros _. reflexivity.
  - discriminate.
  - intros Hv. change (dedup xs = []) in Hv. exists true. split.
    + unfold ceval. cbn [fst new_constraint c_body]. rewrite Hv. reflexivity.
    + intros a x y Hx. exfalso. apply (dedup_In xs x) in Hx. rewrite Hv in Hx. contradiction.
Qed.

(** [adds P vs p r V C]: in a model with the variables [vs], the operation [p] returns [r] and adds
    the variables [V] and the constraints [C]. *)
Inductive adds (P : nat -> Z) : forall B, dict (list Z) -> op B -> B -> dict (list Z) -> list pbody -> Prop :=
| a_ret B vs (b : B) : adds P B vs (op_ret b) b [] []
| a_bind A B vs (p : op A) (k : A -> op B) r1 r2 V1 C1 V2 C2 :
    adds P A vs p r1 V1 C1 -> adds P B (vs ++ V1) (k r1) r2 V2 C2 -> adds P B vs (op_bind p k) r2 (V1 ++ V2) (C1 ++ C2)
| a_ext B vs (p p' : op B) r V C : adds P B vs p r V C -> (forall w, p w = p' w) -> adds P B vs p' r V C
| a_var vs x d : good_name x = true -> ~ In x (names_of vs) -> NoDup d ->
    adds P expr vs (add_int_variable d (Some x)) (Var x) [(x, d)] []
| a_form vs f : not_consts f -> (forall x, In x (fvars f) -> In x (names_of vs)) -> (forall a, exists v, meaning P a f = Some v) ->
    div_ok f = true -> is_comparison f = true -> adds P unit vs (add_formula f) tt [] [PForm f]
| a_diff vs xs : (forall x, In x xs -> In x (names_of vs)) -> adds P unit vs (add_all_different_constraint xs) tt [] [PDiff xs].
Arguments adds P {B}.

Lemma adds_built {B} P vs (p : op B) r V C : adds P vs p r V C -> forall w ps, built P w vs ps ->
  exists w', p w = (w', Ok r) /\ built P w' (vs ++ V) (ps ++ C).
Proof.
  induction 1 as [B vs b|A B vs p k r1 r2 V1 C1 V2 C2 _ H1 _ H2|B vs p p' r V C _ H E|vs x d Hg Hx Hd|vs f H1 H2 H3 H4 H5|vs xs H]; intros w ps Hb.
  - exists w. rewrite !app_nil_r. split; [reflexivity|exact Hb].
  - destruct (H1 w ps Hb) as (w1 & E1 & Hb1). destruct (H2 w1 _ Hb1) as (w2 & E2 & Hb2).
    exists w2. unfold op_bind. rewrite E1. split; [exact E2|]. now rewrite !app_assoc.
  - rewrite <- E. now apply H.
  - now apply built_var.
  - now apply built_form.
  - now apply built_diff.
Qed.

Lemma adds_ret {B} P vs (b : B) : adds P vs (op_ret b) b [] [].
Proof. apply a_ret. Qed.

Lemma adds_bind {A B} P vs (p : op A) (k : A -> op B) r1 r2 V1 C1 V2 C2 :
  adds P vs p r1 V1 C1 -> adds P (vs ++ V1) (k r1) r2 V2 C2 -> adds P vs (op_bind p k) r2 (V1 ++ V2) (C1 ++ C2).
Proof. apply a_bind. Qed.

Lemma adds_for {A B} P (f : A -> op B) (r : A -> B) (V : A -> dict (list Z)) (C : A -> list pbody) : forall l vs,
  (forall l1 a l2, l = l1 ++ a :: l2 -> adds P (vs ++ flat_map V l1) (f a) (r a) (V a) (C a)) ->
  adds P vs (op_for f l) (map r l) (flat_map V l) (flat_map C l).
Proof.
  induction l as [|a l IH]; intros vs H; [apply adds_ret|]. cbn [op_for map flat_map].
  rewrite <- (app_nil_r (flat_map C l)), <- (app_nil_r (flat_map V l)).
  eapply adds_bind; [generalize (H [] a l eq_refl); cbn [flat_map]; rewrite app_nil_r; intros H0; exact H0|].
  eapply adds_bind; [|apply adds_ret].
  apply IH. intros l1 b l2 ->. rewrite <- app_assoc. apply (H (a :: l1) b l2 eq_refl).
Qed.

Lemma adds_ext {B} P vs (p p' : op B) r V V' C C' :
  adds P vs p r V C -> (forall w, p w = p' w) -> V = V' -> C = C' -> adds P vs p' r V' C'.
Proof. intros H E <- <-. exact (a_ext P B vs p p' r V C H E). Qed.

Lemma adds_var P vs x d : good_name x = true -> ~ In x (names_of vs) -> NoDup d ->
  adds P vs (add_int_variable d (Some x)) (Var x) [(x, d)] [].
Proof. apply a_var. Qed.

Lemma adds_form P vs f : not_consts f -> (forall x, In x (fvars f) -> In x (names_of vs)) -> (forall a, exists v, meaning P a f = Some v) ->
  div_ok f = true -> is_comparison f = true -> adds P vs (add_formula f) tt [] [PForm f].
Proof. apply a_form. Qed.

Lemma adds_diff P vs xs : (forall x, In x xs -> In x (names_of vs)) -> adds P vs (add_all_different_constraint xs) tt [] [PDiff xs].
Proof. apply a_diff. Qed.

(** ** Solutions of a built model *)

Definition val (s : subst) : assignment := fun x => dget_or s x 0.

Lemma dget_val s x : In x (map fst s) -> dget s x = Some (val s x).
Proof. intros H. apply dget_Some in H. destruct H as (v & Hv). unfold val, dget_or. now rewrite Hv. Qed.

Lemma holds_sat P s a c p : realizes c p -> p_defined P p -> (forall x, In x (c_vars c) -> dget s x = Some (a x)) ->
  (holds P s c <-> sat P a p).
Proof.
  intros Hr Hd Hs. destruct p as [f|xs]; cbn in *.
  - destruct Hr as (e & Hb & Hf). unfold holds, c_vars in *. rewrite Hb in *. destruct (Hd a) as (v & Hm).
    pose proof (eval_form P a s f e v Hf Hs Hm) as He. split; intros (u & H1 & H2); [exists v|exists v]; split; try assumption; congruence.
  - unfold holds, c_vars in *. rewrite Hr in *.
    assert (Hs' : forall x, In x xs -> dget s x = Some (a x)) by (intros x Hx; apply Hs; now apply dedup_In).
    split.
    + intros H x y Hx Hy Hne. destruct (H x y Hx Hy Hne) as (u & v & Hu & Hv & Huv). rewrite Hs' in Hu, Hv by assumption. congruence.
    + intros H x y Hx Hy Hne. exists (a x), (a y). split; [now apply Hs'|]. split; [now apply Hs'|]. now apply H.
Qed.

Lemma is_variable_vs P w vs ps x d : built P w vs ps -> (is_variable (w_model w) x d <-> In (x, d) vs).
Proof.
  intros H. unfold is_variable. rewrite (b_vars _ _ _ _ H), in_map_iff. split.
  - intros ([y d'] & E & Hin). cbn in E. injection E as <- <-. exact Hin.
  - intros Hin. exists (x, d). auto.
Qed.

Lemma built_valid P e vs ps shuffle : built P (e_world e) vs ps -> shuffles shuffle -> valid shuffle e no_args.
Proof.
  intros H Hs. split; [exact Hs|]. split; [split|split; [|split]].
  - rewrite (b_vars _ _ _ _ H). change (map fst (map (fun p : name * list Z => (fst p, VVar (snd p))) vs)) with (dkeys (map (fun p : name * list Z => (fst p, VVar (snd p))) vs)).
    rewrite keys_vs. apply (b_names _ _ _ _ H).
  - rewrite (b_vars _ _ _ _ H). change (map fst (map (fun p : name * list Z => (fst p, VVar (snd p))) vs)) with (dkeys (map (fun p : name * list Z => (fst p, VVar (snd p))) vs)).
    rewrite keys_vs. intros x Hx. left. now apply (b_good _ _ _ _ H).
  - intros x d Hx. apply (is_variable_vs _ _ _ _ _ _ H) in Hx. now apply (b_doms _ _ _ _ H x).
  - unfold all_cons. cbn [x_additional no_args]. rewrite app_nil_r. intros c c' Hc Hc' E. f_equal.
    pose proof (b_ids _ _ _ _ H) as Hn. clear - Hc Hc' E Hn. induction (m_cons (w_model (e_world e))) as [|c0 l IH]; [contradiction|].
    cbn in Hn. inversion Hn; subst. destruct Hc as [->|Hc], Hc' as [->|Hc']; auto.
    + exfalso. apply H1. rewrite E. now apply in_map.
    + exfalso. apply H1. rewrite <- E. now apply in_map.
  - unfold all_cons. cbn [x_additional no_args]. rewrite app_nil_r. intros c e0 f0 Hc Hb Hf. rewrite (b_code _ _ _ _ H c Hc) in Hf. discriminate.
Qed.

Section Run.
Variables (P : nat -> Z) (clk : nat -> Z) (shuffle : list name -> list name) (f : nat) (e : env) (sv : solver)
  (vs : dict (list Z)) (ps : list pbody) (ys : list subst) (e' : env) (r : option exn).
Hypothesis Hb : built P (e_world e) vs ps.
Hypothesis Hs : shuffles shuffle.
Hypothesis Hvs : vs <> [].
Hypothesis Hsafe : s_compile sv = true -> forall p, In p ps -> p_safe p.
Hypothesis Hto : s_timeout sv <> LInfinity.
Hypothesis Hli : s_limit sv <> LInfinity.
Hypothesis Hrun : solve_all clk shuffle f e sv no_args = Some (ys, e', r).
Let m := w_model (e_world e).
Let cs := all_cons m no_args.

Lemma b_cs : cs = m_cons m.
Proof. unfold cs, all_cons. apply app_nil_r. Qed.

Lemma b_valid : valid shuffle e no_args. Proof. exact (built_valid P e vs ps shuffle Hb Hs). Qed.

Lemma b_hasvar : has_variable m.
Proof.
  destruct vs as [|[x d] vs'] eqn:E; [contradiction|]. exists x, d. apply (is_variable_vs _ _ _ _ _ _ Hb). now left.
Qed.

Lemma b_faithful : m_solvable m = true -> faithful (e_world e) (s_compile sv) cs.
Proof.
  intros Hsol c ex Hc Hbd. rewrite b_cs in Hc. destruct (s_compile sv) eqn:Ecmp.
  - destruct (b_from _ _ _ _ Hb c Hc (b_some _ _ _ _ Hb Hsol c Hc)) as ([f0|xs] & Hp & Hr); cbn in Hr.
    + destruct Hr as (e1 & E1 & E2). rewrite Hbd in E1. injection E1 as <-.
      apply (f_safe_build f0 (OExpr ex) (Hsafe eq_refl _ Hp) E2).
    + congruence.
  - now apply (b_code _ _ _ _ Hb).
Qed.

Lemma b_noerror : m_solvable m = true -> no_error (w_par (e_world e)) m cs.
Proof.
  intros Hsol c ex s Hc Hbd Hcc Hd Hall. rewrite b_cs in Hc. rewrite (b_par _ _ _ _ Hb).
  destruct (b_from _ _ _ _ Hb c Hc (b_some _ _ _ _ Hb Hsol c Hc)) as ([f0|xs] & Hp & Hr); cbn in Hr; [|congruence].
  destruct Hr as (e1 & E1 & E2). rewrite Hbd in E1. injection E1 as <-.
  destruct (b_pdef _ _ _ _ Hb _ Hp (val s)) as (v & Hv). exists v. apply (eval_form P (val s) s f0 ex v E2); auto.
  intros x Hx. apply dget_val. apply Hall. apply mentions_vars. unfold c_vars. now rewrite Hbd.
Qed.

Lemma b_groups : m_solvable m = true -> groups_ok m cs.
Proof.
  intros Hsol c xs Hc Hbd. rewrite b_cs in Hc. split.
  - destruct (c_vars c) as [|x l] eqn:E; [exfalso; now apply (b_some _ _ _ _ Hb Hsol c Hc)|].
    exists x. apply mentions_vars. rewrite E. now left.
  - intros x Hx. apply mentions_vars in Hx. apply (b_closed _ _ _ _ Hb c x Hc) in Hx. unfold names_of in Hx.
    apply in_map_iff in Hx. destruct Hx as ([y d] & E & Hin). cbn in E. subst y. exists d. now apply (is_variable_vs _ _ _ _ _ _ Hb).
Qed.

Lemma b_concerns c : m_solvable m = true -> In c cs -> concerns m c.
Proof.
  intros Hsol Hc. rewrite b_cs in Hc. split.
  - destruct (c_vars c) as [|x l] eqn:E; [exfalso; now apply (b_some _ _ _ _ Hb Hsol c Hc)|].
    exists x. apply mentions_vars. rewrite E. now left.
  - intros x Hx. apply mentions_vars in Hx. apply (b_closed _ _ _ _ Hb c x Hc) in Hx. unfold names_of in Hx.
    apply in_map_iff in Hx. destruct Hx as ([y d] & E & Hin). cbn in E. subst y. exists d. now apply (is_variable_vs _ _ _ _ _ _ Hb).
Qed.

Lemma b_unsolvable : m_solvable m = false -> ys = [] /\ r = None /\ e_interrupt e' = None.
Proof.
  intros Hsol. destruct (run_cases _ _ _ _ _ _ _ _ _ b_valid Hrun) as [(-> & Hi & _ & Hc)|(C & _)]; [|fold m in C; congruence].
  fold m in Hc. destruct Hc as [(_ & -> & _)|[(C & _)|(C & _)]]; try congruence. auto.
Qed.

Lemma b_no_exception : r = None.
Proof.
  destruct (m_solvable m) eqn:Hsol; [|now apply b_unsolvable].
  destruct r as [ex|] eqn:Er; [exfalso|reflexivity].
  destruct (exceptions_propagate clk shuffle f e sv no_args ys e' ex b_valid Hrun) as [_ [H|[[H _]|[_ [H|H]]]]].
  - fold m cs in H. pose proof (proj1 (proj2 (proj2 (proj2 b_valid)))) as Hid. fold m cs in Hid.
    destruct H as (c & s & Hc & Hcc & Hd & Hall & He).
    destruct (run_cases _ _ _ _ _ _ _ _ _ b_valid Hrun) as [(_ & _ & _ & Hcs)|(_ & _ & _ & u & order & ys0 & r0 & Es & Eo & Hw & _)].
    + fold m cs in Hcs. destruct Hcs as [(C & _)|[(_ & C & _)|(_ & _ & _ & ex' & E & [[_ C]|[C _]])]]; try congruence.
      * now apply C, b_hasvar.
      * destruct C as (c1 & s1 & Hc1 & Hcc1 & Hd1 & Hall1 & He1).
        destruct (holds_iff _ _ _ _ c1 s1 Hid (b_faithful Hsol) (b_noerror Hsol) Hc1 Hcc1 Hd1 Hall1) as (b & Hb' & _). congruence.
      * now apply C, b_groups.
    + fold m cs in Hw. rewrite Hw in He.
      destruct (holds_iff _ _ _ _ c s Hid (b_faithful Hsol) (b_noerror Hsol) Hc Hcc Hd Hall) as (b & Hb' & _). congruence.
  - now apply H, b_groups.
  - contradiction.
  - contradiction.
Qed.

Lemma b_sound s : In s ys ->
  NoDup (map fst s) /\ (forall x, In x (map fst s) <-> In x (names_of vs)) /\
  (forall x d, In (x, d) vs -> dget s x = Some (val s x) /\ In (val s x) d) /\
  (forall p, In p ps -> sat P (val s) p).
Proof.
  intros Hin. destruct (m_solvable m) eqn:Hsol; [|destruct (b_unsolvable Hsol) as (E & _); rewrite E in Hin; contradiction].
  destruct (solutions_hold clk shuffle f e sv no_args ys e' r b_valid (b_faithful Hsol) (b_noerror Hsol) Hrun) as [H _].
  destruct (H s Hin) as [(Hnd & Hdom & Hval) Hc]. fold m cs in Hc, Hdom, Hval. rewrite (b_par _ _ _ _ Hb) in Hc.
  assert (Hk : forall x, In x (map fst s) <-> In x (names_of vs)).
  { intros x. rewrite Hdom. unfold names_of. rewrite in_map_iff. split.
    - intros (d & Hd). apply (is_variable_vs _ _ _ _ _ _ Hb) in Hd. exists (x, d). auto.
    - intros ([y d] & E & Hd). cbn in E. subst y. exists d. now apply (is_variable_vs _ _ _ _ _ _ Hb). }
  split; [exact Hnd|]. split; [exact Hk|]. split.
  - intros x d Hx. assert (Hg : dget s x = Some (val s x)).
    { apply dget_val. apply Hk. unfold names_of. change x with (fst (x, d)). now apply in_map. }
    split; [exact Hg|]. apply (Hval x (val s x) d); [now apply dget_In|now apply (is_variable_vs _ _ _ _ _ _ Hb)].
  - intros p Hp. destruct (b_into _ _ _ _ Hb p Hp) as [(c & Hcin & Hr)|[Ht|[E _]]]; [|apply Ht|fold m in E; congruence].
    fold m in Hcin. rewrite <- b_cs in Hcin. apply (holds_sat P s (val s) c p Hr (b_pdef _ _ _ _ Hb p Hp)).
    + intros x Hx. apply dget_val. apply Hdom. apply (b_concerns c Hsol Hcin). now apply mentions_vars.
    + apply Hc; [exact Hcin|now apply b_concerns].
Qed.

Lemma b_complete (a : assignment) : e_interrupt e' = None -> (forall x d, In (x, d) vs -> In (a x) d) ->
  (forall p, In p ps -> sat P a p) -> exists s, In s ys /\ forall x, In x (names_of vs) -> dget s x = Some (a x).
Proof.
  intros Hi Hd Hsat. destruct (m_solvable m) eqn:Hsol.
  2:{ exfalso. destruct (b_solv _ _ _ _ Hb Hsol) as (p & Hp & Hn). apply (Hn a). now apply Hsat. }
  set (t := map (fun y => (y, a y)) (names_of vs)).
  assert (Hkeys : map fst t = names_of vs) by (unfold t; rewrite map_map; apply map_id).
  assert (Hget : forall x, In x (names_of vs) -> dget t x = Some (a x)) by (intros x Hx; now apply dget_map_fun).
  pose proof (proj1 (proj2 (proj2 (proj2 b_valid)))) as Hid. fold m cs in Hid.
  destruct (run_cases _ _ _ _ _ _ _ _ _ b_valid Hrun) as [(_ & _ & _ & Hcs)|(_ & _ & _ & u & order & ys0 & r0 & Es & Eo & Hw & _)].
  { exfalso. fold m cs in Hcs. pose proof b_no_exception as Hnx. destruct Hcs as [(C & _)|[(_ & C & _)|(_ & _ & _ & ex' & E & _)]]; try congruence.
    now apply C, b_hasvar. }
  fold m cs in Hw.
  destruct (exhaustive clk shuffle f e sv no_args ys e' r b_valid Hrun Hsol b_hasvar b_no_exception Hi t) as (s & Hin & Hsame).
  - fold m cs. rewrite Hw. apply (solves_holds (e_world e) (s_compile sv) cs m t Hid (b_faithful Hsol) (b_noerror Hsol)).
    rewrite (b_par _ _ _ _ Hb). split.
    + split; [rewrite Hkeys; apply (b_names _ _ _ _ Hb)|]. split.
      * intros x. rewrite Hkeys. unfold names_of. rewrite in_map_iff. split.
        -- intros ([y d] & E & Hx). cbn in E. subst y. exists d. now apply (is_variable_vs _ _ _ _ _ _ Hb).
        -- intros (d & Hx). apply (is_variable_vs _ _ _ _ _ _ Hb) in Hx. exists (x, d). auto.
      * intros x v d Hx Hv. apply (is_variable_vs _ _ _ _ _ _ Hb) in Hv. unfold t in Hx. apply in_map_iff in Hx.
        destruct Hx as (y & E & Hy). injection E as <- <-. now apply Hd.
    + intros c Hc Hcc. rewrite b_cs in Hc. destruct (b_from _ _ _ _ Hb c Hc (b_some _ _ _ _ Hb Hsol c Hc)) as (p & Hp & Hr).
      apply (holds_sat P t a c p Hr (b_pdef _ _ _ _ Hb p Hp)); [|now apply Hsat].
      intros x Hx. apply Hget. exact (b_closed _ _ _ _ Hb c x Hc Hx).
  - exists s. split; [exact Hin|]. intros x Hx. rewrite (Hsame x). now apply Hget.
Qed.

Lemma b_distinct : ForallOrdPairs (fun s s' => exists x, In x (names_of vs) /\ val s x <> val s' x) ys.
Proof.
  pose proof (distinct clk shuffle f e sv no_args ys e' r b_valid Hrun) as H.
  assert (Hk : forall s, In s ys -> forall x, In x (map fst s) <-> In x (names_of vs)) by (intros s Hin; apply (b_sound s Hin)).
  clear - H Hk. induction ys as [|s l IH]; [constructor|]. inversion H; subst. constructor.
  - rewrite Forall_forall in *. intros s' Hs'. specialize (H2 s' Hs').
    assert (Hdec : (exists x, In x (names_of vs) /\ val s x <> val s' x) \/ (forall x, In x (names_of vs) -> val s x = val s' x)).
    { clear. induction (names_of vs) as [|x xs IHx]; [right; intros x []|]. destruct (Z.eq_dec (val s x) (val s' x)) as [E|E].
      - destruct IHx as [(y & Hy & Hne)|Ha]; [left; exists y; split; [now right|exact Hne]|right; intros y [<-|Hy]; auto].
      - left. exists x. split; [now left|exact E]. }
    destruct Hdec as [Hd|Hd]; [exact Hd|exfalso]. apply H2. intros x.
    destruct (in_dec string_dec x (names_of vs)) as [Hx|Hx].
    + rewrite (dget_val s x), (dget_val s' x); [f_equal; now apply Hd| |]; apply Hk; auto; [now right|now left].
    + assert (E1 : dget s x = None) by (destruct (dget s x) eqn:E; [exfalso; apply Hx, (Hk s (or_introl eq_refl)); apply dget_Some; eauto|reflexivity]).
      assert (E2 : dget s' x = None) by (destruct (dget s' x) eqn:E; [exfalso; apply Hx, (Hk s' (or_intror Hs')); apply dget_Some; eauto|reflexivity]).
      congruence.
  - apply IH; [assumption|]. intros s' Hs'. apply Hk. now right.
Qed.

Lemma b_limit n : s_limit sv = LNum n -> 1 <= n -> len ys <= n.
Proof.
  intros Hl Hn. destruct (run_cases _ _ _ _ _ _ _ _ _ b_valid Hrun) as [(E & _)|(_ & _ & _ & u & order & ys0 & r0 & _ & _ & _ & _ & _ & _ & Hf & _)].
  { rewrite E. cbn. lia. }
  assert (Hll : l_limit (run_local e sv no_args u) = LNum n) by exact Hl.
  destruct Hf as [_ _ _ _ Hlb _ _|k E _ _ _ H1 H2|t _ _ _ Hlb _|_ E _ _|E _ _ _].
  - destruct (Hlb n Hll) as [E|[E|(k & w & s & ex & E)]]; [rewrite E; cbn; lia|lia|discriminate].
  - rewrite Hll in E; injection E as <-; lia.
  - destruct (Hlb n Hll) as [E|[E|(k & w & s & ex & E)]]; [rewrite E; cbn; lia|lia|discriminate].
  - rewrite E. cbn. lia.
  - congruence.
Qed.

Lemma b_finished : s_timeout sv = LNone -> s_limit sv = LNone -> e_interrupt e' = None.
Proof.
  intros H1 H2. pose proof (interrupts clk shuffle f e sv no_args ys e' r b_valid Hrun) as H.
  destruct (e_interrupt e') as [[|]|]; [| |reflexivity].
  - destruct H as (_ & n & E & _). unfold limit_of in E. cbn in E. congruence.
  - destruct H as (_ & t & j & E & _). unfold timeout_of in E. cbn in E. congruence.
Qed.

End Run.

Lemma built_terminates P clk shuffle e sv vs ps : built P (e_world e) vs ps -> shuffles shuffle ->
  exists f r, solve_all clk shuffle f e sv no_args = Some r.
Proof.
  intros Hb Hs. destruct (built_valid P e vs ps shuffle Hb Hs) as (_ & H1 & _ & H2).
  exact (run_terminates clk shuffle e sv no_args passive Hs H1 H2).
Qed.

Lemma adds_construct {A} (p : op A) r V C : adds (fun _ => 0) [] p r V C ->
  exists e, construct p = Ok (r, e) /\ built (fun _ => 0) (e_world e) V C.
Proof.
  intros H. destruct (adds_built _ _ _ _ _ _ H init_world [] built_init) as (w & E & Hb). exists (new_env w). unfold construct. rewrite E. split; [reflexivity|exact Hb].
Qed.

(** ** Puzzles *)

Definition good_solution (P : nat -> Z) (vs : dict (list Z)) (ps : list pbody) (s : subst) : Prop :=
  (forall x d, In (x, d) vs -> dget s x = Some (val s x) /\ In (val s x) d) /\ (forall p, In p ps -> sat P (val s) p).

Lemma mapM_Forall2 {A B} (f : A -> res B) l : (forall a, In a l -> exists b, f a = Ok b) ->
  exists bs, mapM f l = Ok bs /\ Forall2 (fun a b => f a = Ok b) l bs.
Proof.
  induction l as [|a l IH]; intros H; [exists []; split; [reflexivity|constructor]|].
  destruct (H a (or_introl eq_refl)) as (b & Hb). destruct IH as (bs & E & Hf); [intros a' Ha'; apply H; now right|].
  exists (b :: bs). cbn. rewrite Hb. cbn. rewrite E. split; [reflexivity|]. now constructor.
Qed.

Lemma Forall2_In_r {A B} (R : A -> B -> Prop) l l' b : Forall2 R l l' -> In b l' -> exists a, In a l /\ R a b.
Proof. induction 1 as [|a b' l l' H _ IH]; [contradiction|]. intros [->|Hb]; [exists a; split; [now left|exact H]|]. destruct (IH Hb) as (a' & Ha & Hr). exists a'. split; [now right|exact Hr]. Qed.
Lemma Forall2_In_l {A B} (R : A -> B -> Prop) l l' a : Forall2 R l l' -> In a l -> exists b, In b l' /\ R a b.
Proof. induction 1 as [|a' b l l' H _ IH]; [contradiction|]. intros [->|Ha]; [exists b; split; [now left|exact H]|]. destruct (IH Ha) as (b' & Hb & Hr). exists b'. split; [now right|exact Hr]. Qed.

Lemma new_solver_lims p t l c : s_timeout (new_solver p t l c) <> LInfinity /\ s_limit (new_solver p t l c) <> LInfinity.
Proof. destruct t, l; cbn; split; discriminate. Qed.

Lemma puzzle_exactly {A B} clk shuffle (init : op A) (obj : A) V C (decode : A -> subst -> res B) pol t l cmp (ok : B -> Prop) :
  let P := fun _ : nat => 0 in
  adds P [] init obj V C -> V <> [] -> shuffles shuffle -> (forall p, In p C -> p_safe p) ->
  (forall s, good_solution P V C s -> exists b, decode obj s = Ok b /\ ok b) ->
  (forall s s' b, good_solution P V C s -> good_solution P V C s' -> decode obj s = Ok b -> decode obj s' = Ok b ->
     forall x, In x (names_of V) -> val s x = val s' x) ->
  (forall b, ok b -> exists a, (forall x d, In (x, d) V -> In (a x) d) /\ (forall p, In p C -> sat P a p) /\
     forall s, (forall x, In x (names_of V) -> dget s x = Some (a x)) -> decode obj s = Ok b) ->
  exactly (fun fuel => puzzle_run clk shuffle fuel init decode (new_solver pol t l cmp)) ok t l.
Proof.
  intros P Hadds HV Hs Hsafe Hdec Hinj Hall. destruct (adds_construct init obj V C Hadds) as (e & Ec & Hb).
  set (sv := new_solver pol t l cmp). destruct (new_solver_lims pol t l cmp) as [Hto Hli].
  assert (Hgood : forall fuel ys e' r, solve_all clk shuffle fuel e sv no_args = Some (ys, e', r) ->
    forall s, In s ys -> good_solution P V C s).
  { intros fuel ys e' r H s Hin. destruct (b_sound P clk shuffle fuel e sv V C ys e' r Hb Hs (fun _ => Hsafe) H s Hin) as (_ & _ & H1 & H2).
    split; assumption. }
  assert (Hmap : forall fuel ys e' r, solve_all clk shuffle fuel e sv no_args = Some (ys, e', r) ->
    exists bs, mapM (decode obj) ys = Ok bs /\ Forall2 (fun s b => decode obj s = Ok b) ys bs).
  { intros fuel ys e' r H. apply mapM_Forall2. intros s Hin. destruct (Hdec s (Hgood _ _ _ _ H s Hin)) as (b & E & _). exists b. exact E. }
  split.
  - destruct (built_terminates P clk shuffle e sv V C Hb Hs) as (fuel & [[ys e'] r] & H). exists fuel.
    destruct (Hmap _ _ _ _ H) as (bs & E & _). exists (bs, r, e_interrupt e'). unfold puzzle_run. rewrite Ec. fold sv. rewrite H, E. reflexivity.
  - intros fuel bs r i H. unfold puzzle_run in H. rewrite Ec in H. fold sv in H.
    destruct (solve_all clk shuffle fuel e sv no_args) as [[[ys e'] r']|] eqn:Hrun; [|discriminate].
    destruct (Hmap _ _ _ _ Hrun) as (bs' & E & Hf). rewrite E in H. injection H as <- <- <-.
    assert (Hlen : Z.of_nat (length bs') = len ys) by (unfold len; f_equal; clear - Hf; induction Hf; cbn; congruence).
    pose proof (Hgood _ _ _ _ Hrun) as Hg.
    pose proof (interrupts clk shuffle fuel e sv no_args ys e' r' (built_valid P e V C shuffle Hb Hs) Hrun) as Hint.
    split; [exact (b_no_exception P clk shuffle fuel e sv V C ys e' r' Hb Hs HV (fun _ => Hsafe) Hto Hli Hrun)|].
    split; [|split; [|split; [|split; [|split]]]].
    + intros b Hin. destruct (Forall2_In_r _ _ _ b Hf Hin) as (s & Hs' & Hd). destruct (Hdec s (Hg s Hs')) as (b' & E' & Hok). congruence.
    + pose proof (b_distinct P clk shuffle fuel e sv V C ys e' r' Hb Hs (fun _ => Hsafe) Hrun) as Hdist.
      clear - Hf Hdist Hg Hinj. induction Hf as [|s b ys bs Hd Hf IH]; [constructor|]. inversion Hdist; subst. constructor.
      * intros Hin. destruct (Forall2_In_r _ _ _ b Hf Hin) as (s' & Hs' & Hd').
        rewrite Forall_forall in H1. destruct (H1 s' Hs') as (x & Hx & Hne). apply Hne.
        apply (Hinj s s' b); auto; [apply Hg; now left|apply Hg; now right].
      * apply IH; [intros s' Hs'; apply Hg; now right|assumption].
    + intros Hi b Hok. destruct (Hall b Hok) as (a & Ha1 & Ha2 & Ha3).
      destruct (b_complete P clk shuffle fuel e sv V C ys e' r' Hb Hs HV (fun _ => Hsafe) Hto Hli Hrun a Hi Ha1 Ha2) as (s & Hin & Hget).
      destruct (Forall2_In_l _ _ _ s Hf Hin) as (b' & Hb' & Hd). rewrite (Ha3 s Hget) in Hd. injection Hd as <-. exact Hb'.
    + intros Hi. rewrite Hi in Hint. destruct Hint as (_ & n & E1 & _ & E2 & _). exists n. split; [|lia].
      unfold limit_of in E1. cbn in E1. destruct l; cbn in E1; congruence.
    + intros Hi. rewrite Hi in Hint. destruct Hint as (_ & n & j & E1 & _). exists n.
      unfold timeout_of in E1. cbn in E1. destruct t; cbn in E1; congruence.
    + intros n El Hn. rewrite Hlen. apply (b_limit P clk shuffle fuel e sv V C ys e' r' Hb Hs Hrun n); [|exact Hn].
      unfold sv. cbn. now rewrite El.
Qed.

Lemma names_app {A} (v w : dict A) : names_of (v ++ w) = names_of v ++ names_of w.
Proof. apply map_app. Qed.

Lemma names_flat {A B} (f : B -> dict A) l x : In x (names_of (flat_map f l)) <-> exists b, In b l /\ In x (names_of (f b)).
Proof.
  induction l as [|b l IH]; cbn [flat_map In]; [split; [contradiction|intros (b & [] & _)]|]. rewrite names_app, in_app_iff, IH. split.
  - intros [H|(b' & H1 & H2)]; eauto.
  - intros (b' & [->|H1] & H2); eauto.
Qed.

Lemma seq_split_notin l1 a l2 k : seq 0 k = l1 ++ a :: l2 -> ~ In a l1 /\ (a < k)%nat.
Proof.
  intros E. pose proof (seq_NoDup k 0) as H. rewrite E in H. apply NoDup_remove_2 in H. split.
  - intros Hin. apply H. apply in_or_app. now left.
  - assert (Hin : In a (seq 0 k)) by (rewrite E; apply in_or_app; right; now left). apply in_seq in Hin. lia.
Qed.

Lemma adds_intvar P vs x d : good_name x = true -> ~ In x (names_of vs) -> NoDup d ->
  adds P vs (int_variable d x) x [(x, d)] [].
Proof.
  intros H1 H2 H3. unfold int_variable. 
  change [(x, d)] with ([(x, d)] ++ []). change (@nil pbody) with ([] ++ @nil pbody).
  eapply adds_bind; [now apply adds_var|apply adds_ret].
Qed.

Lemma adds_nth {A} P vs (l : list A) i a : nth_error l i = Some a -> adds P vs (op_nth l i) a [] [].
Proof. intros H. unfold op_nth. rewrite H. apply adds_ret. Qed.

Lemma names_flat_eq {A A' B} (f : B -> dict A) (g : B -> dict A') l : (forall b, names_of (f b) = names_of (g b)) ->
  names_of (flat_map f l) = names_of (flat_map g l).
Proof. intros H. induction l as [|b l IH]; cbn [flat_map]; [reflexivity|]. now rewrite !names_app, H, IH. Qed.


Lemma adds_NoDup {A} (init : op A) obj V C : adds (fun _ => 0) [] init obj V C -> NoDup (names_of V).
Proof. intros H. destruct (adds_construct init obj V C H) as (e & _ & Hb). exact (b_names _ _ _ _ Hb). Qed.

(** The assignment given by a list of names and values. *)
Lemma dget_NoDup {A} (L : dict A) x v : NoDup (names_of L) -> In (x, v) L -> dget L x = Some v.
Proof.
  induction L as [|[y w] L IH]; [contradiction|]. cbn. intros H. inversion H; subst. intros [E|Hin].
  - injection E as -> ->. now rewrite String.eqb_refl.
  - destruct (String.eqb_spec x y) as [->|]; [|auto]. exfalso. apply H2. change y with (fst (y, v)). now apply in_map.
Qed.

Lemma val_In L x v : NoDup (names_of L) -> In (x, v) L -> val L x = v.
Proof. intros H Hin. unfold val, dget_or. now rewrite (dget_NoDup L x v H Hin). Qed.
