(** Models with constraints that are defined for the values of the domains only. *)
From Verif Require Import Puzzle SpecPuzzle SpecSafe SpecSolve ExprFacts ExprProps DictFacts CodeFacts ModelFacts SafeFacts CompileFacts
  SetupFacts LoopFacts MasterFacts SolverProps SolverMore SolverExtra PuzzleFacts.
Open Scope list_scope.
Open Scope Z_scope.

Section Rel.
(** [dom x v]: v may be the value of x. *)
Variable dom : name -> Z -> Prop.
(** [cmp]: constraints may have been compiled. *)
Variable cmp : bool.

Definition within (xs : list name) (a : assignment) : Prop := forall x, In x xs -> dom x (a x).
Definition r_defined (P : nat -> Z) (p : pbody) : Prop :=
  match p with PForm f => forall a, within (fvars f) a -> exists v, meaning P a f = Some v | PDiff _ => True end.

Record rbuilt (P : nat -> Z) (w : world) (vs : dict (list Z)) (ps : list pbody) : Prop := RBuilt {
  r_par : w_par w = P;
  r_vars : m_vars (w_model w) = map (fun p => (fst p, VVar (snd p))) vs;
  r_names : NoDup (names_of vs);
  r_good : forall x, In x (names_of vs) -> good_name x = true;
  r_doms : forall x d, In (x, d) vs -> NoDup d;
  r_ids : NoDup (map c_id (m_cons (w_model w)));
  r_fresh : forall c, In c (m_cons (w_model w)) -> (c_id c < w_ncon w)%nat;
  r_code : cmp = false -> forall c, In c (m_cons (w_model w)) -> w_code w (c_id c) = None;
  r_obj : forall c e f, In c (m_cons (w_model w)) -> c_body c = CExpr e -> w_code w (c_id c) = Some f -> exists p, f = as_function p e;
  r_from : forall c, In c (m_cons (w_model w)) -> c_vars c <> [] -> exists p, In p ps /\ realizes c p;
  r_into : forall p, In p ps ->
    (exists c, In c (m_cons (w_model w)) /\ realizes c p) \/ (forall a, within (p_names p) a -> sat P a p) \/
    (m_solvable (w_model w) = false /\ forall a, within (p_names p) a -> ~ sat P a p);
  r_solv : m_solvable (w_model w) = false -> exists p, In p ps /\ forall a, within (p_names p) a -> ~ sat P a p;
  r_some : m_solvable (w_model w) = true -> forall c, In c (m_cons (w_model w)) -> c_vars c <> [];
  r_closed : forall c x, In c (m_cons (w_model w)) -> In x (c_vars c) -> In x (names_of vs);
  r_pdef : forall p, In p ps -> r_defined P p;
  r_known : forall p x, In p ps -> In x (p_names p) -> In x (names_of vs);
  r_expr : forall c e, In c (m_cons (w_model w)) -> c_body c = CExpr e -> exists f, In (PForm f) ps /\ build f = Ok (OExpr e)
}.

Lemma rbuilt_of P w vs ps : built P w vs ps -> (forall p x, In p ps -> In x (p_names p) -> In x (names_of vs)) -> rbuilt P w vs ps.
Proof.
  intros [Hp Hv Hn Hgo Hdo Hid Hfr Hco Hfrom Hinto Hsol Hsome Hcl Hdef Hexp] Hk. constructor; auto.
  - intros c e f Hc _ Hf. rewrite (Hco c Hc) in Hf. discriminate.
  - intros p Hin. destruct (Hinto p Hin) as [H|[H|[H1 H2]]]; auto.
  - intros Hs. destruct (Hsol Hs) as (p & Hin & H). exists p. auto.
  - intros p Hin. specialize (Hdef p Hin). destruct p as [f|xs]; cbn in *; [|exact Logic.I]. intros a _. apply Hdef.
Qed.

Definition radds {B} (P : nat -> Z) (vs : dict (list Z)) (p : op B) (r : B) (V : dict (list Z)) (C : list pbody) : Prop :=
  forall w ps, rbuilt P w vs ps -> exists w', p w = (w', Ok r) /\ rbuilt P w' (vs ++ V) (ps ++ C).

Lemma radds_ret {B} P vs (b : B) : radds P vs (op_ret b) b [] [].
Proof. intros w ps H. exists w. rewrite !app_nil_r. split; [reflexivity|exact H]. Qed.

Lemma radds_bind {A B} P vs (p : op A) (k : A -> op B) r1 r2 V1 C1 V2 C2 :
  radds P vs p r1 V1 C1 -> radds P (vs ++ V1) (k r1) r2 V2 C2 -> radds P vs (op_bind p k) r2 (V1 ++ V2) (C1 ++ C2).
Proof.
  intros H1 H2 w ps Hb. destruct (H1 w ps Hb) as (w1 & E1 & Hb1). destruct (H2 w1 _ Hb1) as (w2 & E2 & Hb2).
  exists w2. unfold op_bind. rewrite E1. split; [exact E2|]. now rewrite !app_assoc.
Qed.

Lemma radds_for {A B} P (f : A -> op B) (r : A -> B) (V : A -> dict (list Z)) (C : A -> list pbody) : forall l vs,
  (forall l1 a l2, l = l1 ++ a :: l2 -> radds P (vs ++ flat_map V l1) (f a) (r a) (V a) (C a)) ->
  radds P vs (op_for f l) (map r l) (flat_map V l) (flat_map C l).
Proof.
  induction l as [|a l IH]; intros vs H; [apply radds_ret|]. cbn [op_for map flat_map].
  rewrite <- (app_nil_r (flat_map C l)), <- (app_nil_r (flat_map V l)).
  eapply radds_bind; [generalize (H [] a l eq_refl); cbn [flat_map]; rewrite app_nil_r; intros H0; exact H0|].
  eapply radds_bind; [|apply radds_ret].
  apply IH. intros l1 b l2 ->. rewrite <- app_assoc. apply (H (a :: l1) b l2 eq_refl).
Qed.

Lemma radds_var P vs x d : good_name x = true -> ~ In x (names_of vs) -> NoDup d ->
  radds P vs (add_int_variable d (Some x)) (Var x) [(x, d)] [].
Proof.
  intros Hg Hx Hd w ps [Hp Hv Hn Hgo Hdo Hid Hfr Hco Hobj Hfrom Hinto Hsol Hsome Hcl Hdef Hkn Hex]. unfold add_int_variable.
  apply has_dup_NoDup in Hd. rewrite Hd. cbn [choose_name]. rewrite Hg.
  assert (Hm : dmem (m_vars (w_model w)) x = false).
  { rewrite Hv. apply dmem_false. now rewrite keys_vs. }
  rewrite Hm. eexists. split; [reflexivity|]. rewrite app_nil_r.
  constructor; cbn; auto.
  - rewrite dset_new by (apply dmem_false; exact Hm). rewrite Hv, map_app. reflexivity.
  - unfold names_of. rewrite map_app. cbn. apply NoDup_app_intro; [exact Hn|repeat constructor; auto|]. intros y Hy [<-|[]]. contradiction.
  - unfold names_of. rewrite map_app. intros y Hy. apply in_app_or in Hy. destruct Hy as [Hy|[<-|[]]]; auto.
  - intros y d' Hy. apply in_app_or in Hy. destruct Hy as [Hy|[Hy|[]]]; [eauto|]. injection Hy as <- <-. now apply has_dup_NoDup.
  - intros c y Hc Hy. unfold names_of. rewrite map_app. apply in_or_app. left. eapply Hcl; eauto.
  - intros p y Hin Hy. unfold names_of. rewrite map_app. apply in_or_app. left. eapply Hkn; eauto.
Qed.

(** Adding a constraint object that has just been made. *)
Lemma rbuilt_obj P w vs ps b p :
  rbuilt P w vs ps -> r_defined P p -> (forall x, In x (p_names p) -> In x (names_of vs)) ->
  let c := fst (new_constraint w b) in
  (forall x, In x (c_vars c) -> In x (names_of vs)) ->
  (c_vars c <> [] -> realizes c p) ->
  (c_vars c = [] -> exists v, ceval (snd (new_constraint w b)) c [] = Ok v /\
      if v then forall a, within (p_names p) a -> sat P a p else forall a, within (p_names p) a -> ~ sat P a p) ->
  (forall ex, b = CExpr ex -> exists f, p = PForm f /\ build f = Ok (OExpr ex)) ->
  exists w', add_constraint_obj c (snd (new_constraint w b)) = (w', Ok tt) /\ rbuilt P w' vs (ps ++ [p]).
Proof.
  intros [Hp Hv Hn Hgo Hdo Hid Hfr Hco Hobj Hfrom Hinto Hsol Hsome Hcl Hdef Hkn Hex] Hpd Hpk c Hvars Hre Hconst Hform.
  unfold add_constraint_obj. set (w1 := snd (new_constraint w b)) in *.
  assert (Hfa : forallb (fun x => dmem (m_vars (w_model w1)) x) (c_vars c) = true).
  { apply forallb_forall. intros x Hx. apply dmem_In. cbn. rewrite Hv. rewrite keys_vs. now apply Hvars. }
  assert (Hidn : ~ In (c_id c) (map c_id (m_cons (w_model w)))).
  { intros Hin. apply in_map_iff in Hin. destruct Hin as (c' & E & Hc'). apply Hfr in Hc'. cbn in E. lia. }
  assert (Hcode : cmp = false -> forall c', In c' (m_cons (w_model w) ++ [c]) -> w_code w1 (c_id c') = None).
  { intros Ecmp c' Hc'. cbn. unfold upd. destruct (Nat.eqb (c_id c') (w_ncon w)) eqn:E; [reflexivity|].
    apply in_app_or in Hc'. destruct Hc' as [Hc'|[<-|[]]]; [auto|]. cbn in E. rewrite Nat.eqb_refl in E. discriminate. }
  assert (Hcobj : forall c' e f, In c' (m_cons (w_model w) ++ [c]) -> c_body c' = CExpr e -> w_code w1 (c_id c') = Some f -> exists p, f = as_function p e).
  { intros c' e f Hc'. cbn. unfold upd. destruct (Nat.eqb (c_id c') (w_ncon w)) eqn:E; [discriminate|].
    apply in_app_or in Hc'. destruct Hc' as [Hc'|[<-|[]]]; [now apply Hobj|]. cbn in E. rewrite Nat.eqb_refl in E. discriminate. }
  assert (Hfresh : forall c', In c' (m_cons (w_model w) ++ [c]) -> (c_id c' < w_ncon w1)%nat).
  { intros c' Hc'. apply in_app_or in Hc'. destruct Hc' as [Hc'|[<-|[]]]; cbn; [apply Hfr in Hc'; lia|lia]. }
  assert (Hids : NoDup (map c_id (m_cons (w_model w) ++ [c]))).
  { rewrite map_app. apply NoDup_app_intro; [exact Hid|repeat constructor; auto|]. intros y Hy [<-|[]]. contradiction. }
  assert (Hpdef : forall q, In q (ps ++ [p]) -> r_defined P q).
  { intros q Hq. apply in_app_or in Hq. destruct Hq as [Hq|[<-|[]]]; auto. }
  assert (Hpkn : forall q x, In q (ps ++ [p]) -> In x (p_names q) -> In x (names_of vs)).
  { intros q x Hq Hx. apply in_app_or in Hq. destruct Hq as [Hq|[<-|[]]]; eauto. }
  assert (Hclo : forall c' x, In c' (m_cons (w_model w) ++ [c]) -> In x (c_vars c') -> In x (names_of vs)).
  { intros c' x Hc' Hx. apply in_app_or in Hc'. destruct Hc' as [Hc'|[<-|[]]]; eauto. }
  assert (Hexp : forall c' ex, In c' (m_cons (w_model w) ++ [c]) -> c_body c' = CExpr ex -> exists f, In (PForm f) (ps ++ [p]) /\ build f = Ok (OExpr ex)).
  { intros c' ex Hc' Hbd. apply in_app_or in Hc'. destruct Hc' as [Hc'|[<-|[]]].
    - destruct (Hex c' ex Hc' Hbd) as (f & Hf & E). exists f. split; [apply in_or_app; now left|exact E].
    - destruct (Hform ex Hbd) as (f & -> & E). exists f. split; [apply in_or_app; right; now left|exact E]. }
  destruct (c_vars c) as [|x0 xs0] eqn:Ec.
  - destruct (Hconst eq_refl) as (v & Hev & Hvv). rewrite Hev. destruct v.
    + eexists. split; [reflexivity|]. constructor; cbn; auto.
      * intros c' Hc'. specialize (Hfr c' Hc'). lia.
      * intros Ecmp c' Hc'. apply Hcode; [exact Ecmp|]. apply in_or_app. now left.
      * intros c' e f Hc'. apply Hcobj. apply in_or_app. now left.
      * intros c' Hc' Hne. destruct (Hfrom c' Hc' Hne) as (q & Hq & Hr). exists q. split; [apply in_or_app; now left|exact Hr].
      * intros q Hq. apply in_app_or in Hq. destruct Hq as [Hq|[<-|[]]]; auto.
      * intros Hs. destruct (Hsol Hs) as (q & Hq & Hr). exists q. split; [apply in_or_app; now left|exact Hr].
      * intros c' ex Hc'. apply Hexp. apply in_or_app. now left.
    + cbn [m_vars m_cons m_solvable forallb set_model w_model w_par w_code w_npar w_ncon] in *. eexists. split; [reflexivity|].
      constructor; cbn; auto.
      * intros c' Hc' Hne. apply in_app_or in Hc'. destruct Hc' as [Hc'|[<-|[]]]; [|contradiction].
        destruct (Hfrom c' Hc' Hne) as (q & Hq & Hr). exists q. split; [apply in_or_app; now left|exact Hr].
      * intros q Hq. apply in_app_or in Hq. destruct Hq as [Hq|[<-|[]]]; [|auto].
        destruct (Hinto q Hq) as [(c' & Hc' & Hr)|[H|[_ H]]]; auto. left. exists c'. split; [apply in_or_app; now left|exact Hr].
      * intros _. exists p. split; [apply in_or_app; right; now left|exact Hvv].
      * discriminate.
  - rewrite Hfa. eexists. split; [reflexivity|]. constructor; cbn; auto.
    + intros c' Hc' Hne. apply in_app_or in Hc'. destruct Hc' as [Hc'|[<-|[]]].
      * destruct (Hfrom c' Hc' Hne) as (q & Hq & Hr). exists q. split; [apply in_or_app; now left|exact Hr].
      * exists p. split; [apply in_or_app; right; now left|]. apply Hre. congruence.
    + intros q Hq. apply in_app_or in Hq. destruct Hq as [Hq|[<-|[]]].
      * destruct (Hinto q Hq) as [(c' & Hc' & Hr)|[H|H]]; auto. left. exists c'. split; [apply in_or_app; now left|exact Hr].
      * left. exists c. split; [apply in_or_app; right; now left|]. apply Hre. congruence.
    + intros Hs. destruct (Hsol Hs) as (q & Hq & Hr). exists q. split; [apply in_or_app; now left|exact Hr].
    + intros Hs c' Hc'. apply in_app_or in Hc'. destruct Hc' as [Hc'|[<-|[]]]; [now apply Hsome|change (c_vars c <> []); rewrite Ec; discriminate].
Qed.

(** ** Formulas *)
(** If the object made by the expression is an int, it is [True] or [False]. *)
Definition bool_int (f : formula) : Prop := forall n, build f = Ok (OInt n) -> is_comparison f = true /\ of_ints f = true.

Lemma radds_form P vs f : bool_int f -> (forall x, In x (fvars f) -> In x (names_of vs)) ->
  (exists a v, meaning P a f = Some v) -> (forall a, within (fvars f) a -> exists v, meaning P a f = Some v) ->
  div_ok f = true -> radds P vs (add_formula f) tt [] [PForm f].
Proof.
  intros Hbi Hn (a0 & v0 & Hv0) Hd Hdiv w ps Hb. rewrite app_nil_r. unfold add_formula.
  destruct (build_total P a0 (map (fun y => (y, a0 y)) (fvars f)) f v0) as (o & Ho); auto.
  { intros x Hx. now apply dget_map_fun. }
  rewrite Ho. destruct o as [n|ex].
  - destruct (Hbi n Ho) as [Hc Hi]. rewrite Hc, Hi. cbn [andb add_constraint].
    assert (Hn' : forall a v, meaning P a f = Some v -> v = n).
    { intros a v Hv. assert (E : oval P (map (fun y => (y, a y)) (fvars f)) (OInt n) = Ok v).
      { apply (build_meaning P a _ f); auto. intros x Hx. now apply dget_map_fun. }
      cbn in E. congruence. }
    apply (rbuilt_obj P w vs ps (CConst (truthy n)) (PForm f) Hb Hd Hn); cbn.
    + contradiction.
    + intros H. contradiction.
    + intros _. exists (truthy n). split; [reflexivity|]. unfold truthy. destruct (Z.eqb_spec n 0) as [->|Hne]; cbn.
      * intros a _ (v & Hv & Hne). apply Hn' in Hv. congruence.
      * intros a Ha. destruct (Hd a Ha) as (v & Hv). exists v. split; [exact Hv|]. apply Hn' in Hv. congruence.
    + discriminate.
  - cbn [add_constraint].
    apply (rbuilt_obj P w vs ps (CExpr ex) (PForm f) Hb Hd Hn).
    + intros x Hx. apply Hn. apply (build_vars f (OExpr ex)); assumption.
    + intros _. exists ex. split; [reflexivity|assumption].
    + intros Hv. unfold ceval. cbn [fst snd new_constraint c_body c_id w_code w_par].
      rewrite upd_same. rewrite (r_par _ _ _ _ Hb).
      change (vars ex = []) in Hv.
      assert (He : forall a v, meaning P a f = Some v -> evaluate P [] ex = Ok v).
      { intros a v Hm. apply (eval_form P a [] f ex v Ho); auto. rewrite Hv. contradiction. }
      rewrite (He a0 v0 Hv0). exists (truthy v0). split; [reflexivity|].
      assert (Hall : forall a v, meaning P a f = Some v -> v = v0).
      { intros a v Hm. pose proof (He a v Hm) as E1. rewrite (He a0 v0 Hv0) in E1. congruence. }
      unfold truthy. destruct (Z.eqb_spec v0 0) as [->|Hne]; cbn.
      * intros a _ (v & Hm & Hne). apply Hall in Hm. congruence.
      * intros a Ha. destruct (Hd a Ha) as (v & Hm). exists v. split; [exact Hm|]. apply Hall in Hm. congruence.
    + intros ex' E. injection E as <-. eauto.
Qed.

Lemma radds_diff P vs xs : (forall x, In x xs -> In x (names_of vs)) ->
  radds P vs (add_all_different_constraint xs) tt [] [PDiff xs].
Proof.
  intros Hn w ps Hb. rewrite app_nil_r. unfold add_all_different_constraint.
  apply (rbuilt_obj P w vs ps (CAllDiff xs) (PDiff xs) Hb Logic.I Hn).
  - intros x Hx. apply Hn. now apply dedup_In.
  - intros _. reflexivity.
  - intros Hv. change (dedup xs = []) in Hv. exists true. split.
    + unfold ceval. cbn [fst new_constraint c_body]. rewrite Hv. reflexivity.
    + intros a _ x y Hx. exfalso. apply (dedup_In xs x) in Hx. rewrite Hv in Hx. contradiction.
  - discriminate.
Qed.

(** ** Solutions of a built model *)
Lemma rholds_sat P s a c p : realizes c p -> r_defined P p -> within (p_names p) a -> (forall x, In x (c_vars c) -> dget s x = Some (a x)) ->
  (holds P s c <-> sat P a p).
Proof.
  intros Hr Hd Hw Hs. destruct p as [f|xs]; cbn in *.
  - destruct Hr as (e & Hb & Hf). unfold holds, c_vars in *. rewrite Hb in *. destruct (Hd a Hw) as (v & Hm).
    pose proof (eval_form P a s f e v Hf Hs Hm) as He. split; intros (u & H1 & H2); [exists v|exists v]; split; try assumption; congruence.
  - unfold holds, c_vars in *. rewrite Hr in *.
    assert (Hs' : forall x, In x xs -> dget s x = Some (a x)) by (intros x Hx; apply Hs; now apply dedup_In).
    split.
    + intros H x y Hx Hy Hne. destruct (H x y Hx Hy Hne) as (u & v & Hu & Hv & Huv). rewrite Hs' in Hu, Hv by assumption. congruence.
    + intros H x y Hx Hy Hne. exists (a x), (a y). split; [now apply Hs'|]. split; [now apply Hs'|]. now apply H.
Qed.

Lemma r_is_variable_vs P w vs ps x d : rbuilt P w vs ps -> (is_variable (w_model w) x d <-> In (x, d) vs).
Proof.
  intros H. unfold is_variable. rewrite (r_vars _ _ _ _ H), in_map_iff. split.
  - intros ([y d'] & E & Hin). cbn in E. injection E as <- <-. exact Hin.
  - intros Hin. exists (x, d). auto.
Qed.

Lemma rbuilt_valid P e vs ps shuffle : rbuilt P (e_world e) vs ps -> shuffles shuffle -> valid shuffle e no_args.
Proof.
  intros H Hs. split; [exact Hs|]. split; [split|split; [|split]].
  - rewrite (r_vars _ _ _ _ H). change (map fst (map (fun p : name * list Z => (fst p, VVar (snd p))) vs)) with (dkeys (map (fun p : name * list Z => (fst p, VVar (snd p))) vs)).
    rewrite keys_vs. apply (r_names _ _ _ _ H).
  - rewrite (r_vars _ _ _ _ H). change (map fst (map (fun p : name * list Z => (fst p, VVar (snd p))) vs)) with (dkeys (map (fun p : name * list Z => (fst p, VVar (snd p))) vs)).
    rewrite keys_vs. intros x Hx. left. now apply (r_good _ _ _ _ H).
  - intros x d Hx. apply (r_is_variable_vs _ _ _ _ _ _ H) in Hx. now apply (r_doms _ _ _ _ H x).
  - unfold all_cons. cbn [x_additional no_args]. rewrite app_nil_r. intros c c' Hc Hc' E. f_equal.
    pose proof (r_ids _ _ _ _ H) as Hn. clear - Hc Hc' E Hn. induction (m_cons (w_model (e_world e))) as [|c0 l IH]; [contradiction|].
    cbn in Hn. inversion Hn; subst. destruct Hc as [->|Hc], Hc' as [->|Hc']; auto.
    + exfalso. apply H1. rewrite E. now apply in_map.
    + exfalso. apply H1. rewrite <- E. now apply in_map.
  - unfold all_cons. cbn [x_additional no_args]. rewrite app_nil_r. exact (r_obj _ _ _ _ H).
Qed.

Section Run.
Variables (P : nat -> Z) (clk : nat -> Z) (shuffle : list name -> list name) (f : nat) (e : env) (sv : solver)
  (vs : dict (list Z)) (ps : list pbody) (ys : list subst) (e' : env) (r : option exn).
Hypothesis Hb : rbuilt P (e_world e) vs ps.
Hypothesis Hs : shuffles shuffle.
Hypothesis Hcmp : s_compile sv = cmp.
Hypothesis Hvs : vs <> [].
Hypothesis Hsafe : s_compile sv = true -> forall p, In p ps -> p_safe p.
Hypothesis Hto : s_timeout sv <> LInfinity.
Hypothesis Hli : s_limit sv <> LInfinity.
Hypothesis Hdom : forall x d v, In (x, d) vs -> In v d -> dom x v.
Hypothesis Hinh : forall x, In x (names_of vs) -> exists v, dom x v.
Hypothesis Hrun : solve_all clk shuffle f e sv no_args = Some (ys, e', r).
Let m := w_model (e_world e).
Let cs := all_cons m no_args.

Lemma r_cs : cs = m_cons m.
Proof. unfold cs, all_cons. apply app_nil_r. Qed.

Lemma r_valid : valid shuffle e no_args. Proof. exact (rbuilt_valid P e vs ps shuffle Hb Hs). Qed.

Lemma r_hasvar : has_variable m.
Proof.
  destruct vs as [|[x d] vs'] eqn:E; [contradiction|]. exists x, d. apply (r_is_variable_vs _ _ _ _ _ _ Hb). now left.
Qed.

Lemma r_faithful : m_solvable m = true -> faithful (e_world e) (s_compile sv) cs.
Proof.
  intros Hsol c ex Hc Hbd. rewrite r_cs in Hc. destruct (s_compile sv) eqn:Ecmp.
  - destruct (r_from _ _ _ _ Hb c Hc (r_some _ _ _ _ Hb Hsol c Hc)) as ([f0|xs] & Hp & Hr); cbn in Hr.
    + destruct Hr as (e1 & E1 & E2). rewrite Hbd in E1. injection E1 as <-.
      apply (f_safe_build f0 (OExpr ex) (Hsafe eq_refl _ Hp) E2).
    + congruence.
  - apply (r_code _ _ _ _ Hb); [|exact Hc]. now symmetry.
Qed.

Lemma r_noerror : m_solvable m = true -> no_error (w_par (e_world e)) m cs.
Proof.
  intros Hsol c ex s Hc Hbd Hcc Hd Hall. rewrite r_cs in Hc. rewrite (r_par _ _ _ _ Hb).
  destruct (r_from _ _ _ _ Hb c Hc (r_some _ _ _ _ Hb Hsol c Hc)) as ([f0|xs] & Hp & Hr); cbn in Hr; [|congruence].
  destruct Hr as (e1 & E1 & E2). rewrite Hbd in E1. injection E1 as <-.
  assert (Hpick : exists a, within (fvars f0) a /\ forall x, In x (map fst s) -> a x = val s x).
  { pose proof (fun x => r_known _ _ _ _ Hb (PForm f0) x Hp) as Hk. cbn [p_names] in Hk. clear - Hk Hd Hdom Hinh Hb.
    induction (fvars f0) as [|x xs IH]; [exists (val s); split; [intros x []|auto]|].
    destruct IH as (a & Ha1 & Ha2); [intros y Hy; apply Hk; now right|].
    destruct (in_dec string_dec x (map fst s)) as [Hin|Hout].
    - exists a. split; [|exact Ha2]. intros y [<-|Hy]; [|now apply Ha1]. rewrite (Ha2 x Hin).
      pose proof (dget_val s x Hin) as Hg. apply dget_In in Hg. destruct (Hd _ _ Hg) as (d & Hv & Hvd).
      apply (r_is_variable_vs _ _ _ _ _ _ Hb) in Hv. exact (Hdom x d _ Hv Hvd).
    - destruct (Hinh x (Hk x (or_introl eq_refl))) as (v & Hv). exists (fun y => if String.eqb y x then v else a y). split.
      + intros y Hy. destruct (String.eqb_spec y x) as [->|Hne]; [exact Hv|]. destruct Hy as [E|Hy]; [congruence|now apply Ha1].
      + intros y Hy. destruct (String.eqb_spec y x) as [->|Hne]; [contradiction|now apply Ha2]. }
  destruct Hpick as (a & Ha1 & Ha2).
  destruct (r_pdef _ _ _ _ Hb _ Hp a Ha1) as (v & Hv). exists v. apply (eval_form P a s f0 ex v E2); auto.
  intros x Hx. assert (Hxs : In x (map fst s)) by (apply Hall; apply mentions_vars; unfold c_vars; now rewrite Hbd).
  rewrite (Ha2 x Hxs). now apply dget_val.
Qed.

Lemma r_groups : m_solvable m = true -> groups_ok m cs.
Proof.
  intros Hsol c xs Hc Hbd. rewrite r_cs in Hc. split.
  - destruct (c_vars c) as [|x l] eqn:E; [exfalso; now apply (r_some _ _ _ _ Hb Hsol c Hc)|].
    exists x. apply mentions_vars. rewrite E. now left.
  - intros x Hx. apply mentions_vars in Hx. apply (r_closed _ _ _ _ Hb c x Hc) in Hx. unfold names_of in Hx.
    apply in_map_iff in Hx. destruct Hx as ([y d] & E & Hin). cbn in E. subst y. exists d. now apply (r_is_variable_vs _ _ _ _ _ _ Hb).
Qed.

Lemma r_concerns c : m_solvable m = true -> In c cs -> concerns m c.
Proof.
  intros Hsol Hc. rewrite r_cs in Hc. split.
  - destruct (c_vars c) as [|x l] eqn:E; [exfalso; now apply (r_some _ _ _ _ Hb Hsol c Hc)|].
    exists x. apply mentions_vars. rewrite E. now left.
  - intros x Hx. apply mentions_vars in Hx. apply (r_closed _ _ _ _ Hb c x Hc) in Hx. unfold names_of in Hx.
    apply in_map_iff in Hx. destruct Hx as ([y d] & E & Hin). cbn in E. subst y. exists d. now apply (r_is_variable_vs _ _ _ _ _ _ Hb).
Qed.

Lemma r_unsolvable : m_solvable m = false -> ys = [] /\ r = None /\ e_interrupt e' = None.
Proof.
  intros Hsol. destruct (run_cases _ _ _ _ _ _ _ _ _ r_valid Hrun) as [(-> & Hi & _ & Hc)|(C & _)]; [|fold m in C; congruence].
  fold m in Hc. destruct Hc as [(_ & -> & _)|[(C & _)|(C & _)]]; try congruence. auto.
Qed.

Lemma r_no_exception : r = None.
Proof.
  destruct (m_solvable m) eqn:Hsol; [|now apply r_unsolvable].
  destruct r as [ex|] eqn:Er; [exfalso|reflexivity].
  destruct (exceptions_propagate clk shuffle f e sv no_args ys e' ex r_valid Hrun) as [_ [H|[[H _]|[_ [H|H]]]]].
  - fold m cs in H. pose proof (proj1 (proj2 (proj2 (proj2 r_valid)))) as Hid. fold m cs in Hid.
    destruct H as (c & s & Hc & Hcc & Hd & Hall & He).
    destruct (run_cases _ _ _ _ _ _ _ _ _ r_valid Hrun) as [(_ & _ & _ & Hcs)|(_ & _ & _ & u & order & ys0 & r0 & Es & Eo & Hww & _)].
    + fold m cs in Hcs. destruct Hcs as [(C & _)|[(_ & C & _)|(_ & _ & _ & ex' & E & [[_ C]|[C _]])]]; try congruence.
      * now apply C, r_hasvar.
      * destruct C as (c1 & s1 & Hc1 & Hcc1 & Hd1 & Hall1 & He1).
        destruct (holds_iff _ _ _ _ c1 s1 Hid (r_faithful Hsol) (r_noerror Hsol) Hc1 Hcc1 Hd1 Hall1) as (b & Hb' & _). congruence.
      * now apply C, r_groups.
    + fold m cs in Hww. rewrite Hww in He.
      destruct (holds_iff _ _ _ _ c s Hid (r_faithful Hsol) (r_noerror Hsol) Hc Hcc Hd Hall) as (b & Hb' & _). congruence.
  - now apply H, r_groups.
  - contradiction.
  - contradiction.
Qed.

Lemma r_sound s : In s ys ->
  NoDup (map fst s) /\ (forall x, In x (map fst s) <-> In x (names_of vs)) /\
  (forall x d, In (x, d) vs -> dget s x = Some (val s x) /\ In (val s x) d) /\
  (forall p, In p ps -> sat P (val s) p).
Proof.
  intros Hin. destruct (m_solvable m) eqn:Hsol; [|destruct (r_unsolvable Hsol) as (E & _); rewrite E in Hin; contradiction].
  destruct (solutions_hold clk shuffle f e sv no_args ys e' r r_valid (r_faithful Hsol) (r_noerror Hsol) Hrun) as [H _].
  destruct (H s Hin) as [(Hnd & Hdm & Hval) Hc]. fold m cs in Hc, Hdm, Hval. rewrite (r_par _ _ _ _ Hb) in Hc.
  assert (Hk : forall x, In x (map fst s) <-> In x (names_of vs)).
  { intros x. rewrite Hdm. unfold names_of. rewrite in_map_iff. split.
    - intros (d & Hd). apply (r_is_variable_vs _ _ _ _ _ _ Hb) in Hd. exists (x, d). auto.
    - intros ([y d] & E & Hd). cbn in E. subst y. exists d. now apply (r_is_variable_vs _ _ _ _ _ _ Hb). }
  assert (Hdom' : forall x, In x (map fst s) -> dom x (val s x)).
  { intros x Hx. pose proof (dget_In _ _ _ (dget_val s x Hx)) as Hg. apply Hdm in Hx. destruct Hx as (d & Hd).
    apply (Hdom x d); [now apply (r_is_variable_vs _ _ _ _ _ _ Hb)|]. exact (Hval x _ d Hg Hd). }
  split; [exact Hnd|]. split; [exact Hk|]. split.
  - intros x d Hx. assert (Hg : dget s x = Some (val s x)).
    { apply dget_val. apply Hk. unfold names_of. change x with (fst (x, d)). now apply in_map. }
    split; [exact Hg|]. apply (Hval x (val s x) d); [now apply dget_In|now apply (r_is_variable_vs _ _ _ _ _ _ Hb)].
  - intros p Hp. assert (Hw : within (p_names p) (val s)).
    { intros x Hx. apply (r_known _ _ _ _ Hb p x Hp) in Hx. pose proof (proj2 (Hk x) Hx) as Hx'. apply Hdom' in Hx'. exact Hx'. }
    destruct (r_into _ _ _ _ Hb p Hp) as [(c & Hcin & Hr)|[Ht|[E _]]]; [|apply Ht, Hw|fold m in E; congruence].
    fold m in Hcin. rewrite <- r_cs in Hcin. apply (rholds_sat P s (val s) c p Hr (r_pdef _ _ _ _ Hb p Hp) Hw).
    + intros x Hx. apply dget_val. apply Hdm. apply (r_concerns c Hsol Hcin). now apply mentions_vars.
    + apply Hc; [exact Hcin|now apply r_concerns].
Qed.

Lemma r_complete (a : assignment) : e_interrupt e' = None -> (forall x d, In (x, d) vs -> In (a x) d) ->
  (forall p, In p ps -> sat P a p) -> exists s, In s ys /\ forall x, In x (names_of vs) -> dget s x = Some (a x).
Proof.
  intros Hi Hd Hsat.
  assert (Hw : forall p, In p ps -> within (p_names p) a).
  { intros p Hp x Hx. apply (r_known _ _ _ _ Hb p x Hp) in Hx. unfold names_of in Hx. apply in_map_iff in Hx. destruct Hx as ([y d] & E & Hin).
    cbn in E. subst y. apply (Hdom x d); auto. }
  destruct (m_solvable m) eqn:Hsol.
  2:{ exfalso. destruct (r_solv _ _ _ _ Hb Hsol) as (p & Hp & Hn). apply (Hn a); [now apply Hw|now apply Hsat]. }
  set (t := map (fun y => (y, a y)) (names_of vs)).
  assert (Hkeys : map fst t = names_of vs) by (unfold t; rewrite map_map; apply map_id).
  assert (Hget : forall x, In x (names_of vs) -> dget t x = Some (a x)) by (intros x Hx; now apply dget_map_fun).
  pose proof (proj1 (proj2 (proj2 (proj2 r_valid)))) as Hid. fold m cs in Hid.
  destruct (run_cases _ _ _ _ _ _ _ _ _ r_valid Hrun) as [(_ & _ & _ & Hcs)|(_ & _ & _ & u & order & ys0 & r0 & Es & Eo & Hww & _)].
  { exfalso. fold m cs in Hcs. pose proof r_no_exception as Hnx. destruct Hcs as [(C & _)|[(_ & C & _)|(_ & _ & _ & ex' & E & _)]]; try congruence.
    now apply C, r_hasvar. }
  fold m cs in Hww.
  destruct (exhaustive clk shuffle f e sv no_args ys e' r r_valid Hrun Hsol r_hasvar r_no_exception Hi t) as (s & Hin & Hsame).
  - fold m cs. rewrite Hww. apply (solves_holds (e_world e) (s_compile sv) cs m t Hid (r_faithful Hsol) (r_noerror Hsol)).
    rewrite (r_par _ _ _ _ Hb). split.
    + split; [rewrite Hkeys; apply (r_names _ _ _ _ Hb)|]. split.
      * intros x. rewrite Hkeys. unfold names_of. rewrite in_map_iff. split.
        -- intros ([y d] & E & Hx). cbn in E. subst y. exists d. now apply (r_is_variable_vs _ _ _ _ _ _ Hb).
        -- intros (d & Hx). apply (r_is_variable_vs _ _ _ _ _ _ Hb) in Hx. exists (x, d). auto.
      * intros x v d Hx Hv. apply (r_is_variable_vs _ _ _ _ _ _ Hb) in Hv. unfold t in Hx. apply in_map_iff in Hx.
        destruct Hx as (y & E & Hy). injection E as <- <-. now apply Hd.
    + intros c Hc Hcc. rewrite r_cs in Hc. destruct (r_from _ _ _ _ Hb c Hc (r_some _ _ _ _ Hb Hsol c Hc)) as (p & Hp & Hr).
      apply (rholds_sat P t a c p Hr (r_pdef _ _ _ _ Hb p Hp) (Hw p Hp)); [|now apply Hsat].
      intros x Hx. apply Hget. exact (r_closed _ _ _ _ Hb c x Hc Hx).
  - exists s. split; [exact Hin|]. intros x Hx. rewrite (Hsame x). now apply Hget.
Qed.

Lemma r_distinct : ForallOrdPairs (fun s s' => exists x, In x (names_of vs) /\ val s x <> val s' x) ys.
Proof.
  pose proof (distinct clk shuffle f e sv no_args ys e' r r_valid Hrun) as H.
  assert (Hk : forall s, In s ys -> forall x, In x (map fst s) <-> In x (names_of vs)) by (intros s Hin; apply (r_sound s Hin)).
  clear - H Hk. induction ys as [|s l IH]; [constructor|]. inversion H; subst. constructor.
  - rewrite Forall_forall in *. intros s' Hs'. specialize (H2 s' Hs').
    assert (Hdec : (exists x, In x (names_of vs) /\ val s x <> val s' x) \/ (forall x, In x (names_of vs) -> val s x = val s' x)).
    { clear. induction (names_of vs) as [|x xs IHx]; [right; intros x []|]. destruct (Z.eq_dec (val s x) (val s' x)) as [E|E].
      - destruct IHx as [(y & Hy & Hne)|Ha]; [left; exists y; split; [now right|exact Hne]|right; intros y [<-|Hy]; auto].
      - left. exists x. split; [now left|exact E]. }
    destruct Hdec as [Hd|Hd]; [exact Hd|exfalso]. apply H2. intros x.
    destruct (in_dec string_dec x (names_of vs)) as [Hx|Hx].
    + rewrite (dget_val s x), (dget_val s' x); [f_equal; now apply Hd| |]; apply Hk; auto; [now right|now left].
    + assert (E1 : dget s x = None) by (destruct (dget s x) eqn:E; [exfalso; apply Hx, (Hk s (or_introl eq_refl)); apply dget_Some; eauto|reflexivity]).
      assert (E2 : dget s' x = None) by (destruct (dget s' x) eqn:E; [exfalso; apply Hx, (Hk s' (or_intror Hs')); apply dget_Some; eauto|reflexivity]).
      congruence.
  - apply IH; [assumption|]. intros s' Hs'. apply Hk. now right.
Qed.

Lemma r_limit n : s_limit sv = LNum n -> 1 <= n -> len ys <= n.
Proof.
  intros Hl Hn. destruct (run_cases _ _ _ _ _ _ _ _ _ r_valid Hrun) as [(E & _)|(_ & _ & _ & u & order & ys0 & r0 & _ & _ & _ & _ & _ & _ & Hf & _)].
  { rewrite E. cbn. lia. }
  assert (Hll : l_limit (run_local e sv no_args u) = LNum n) by exact Hl.
  destruct Hf as [_ _ _ _ Hlb _ _|k E _ _ _ H1 H2|t _ _ _ Hlb _|_ E _ _|E _ _ _].
  - destruct (Hlb n Hll) as [E|[E|(k & w & s & ex & E)]]; [rewrite E; cbn; lia|lia|discriminate].
  - rewrite Hll in E; injection E as <-; lia.
  - destruct (Hlb n Hll) as [E|[E|(k & w & s & ex & E)]]; [rewrite E; cbn; lia|lia|discriminate].
  - rewrite E. cbn. lia.
  - congruence.
Qed.

Lemma r_finished : s_timeout sv = LNone -> s_limit sv = LNone -> e_interrupt e' = None.
Proof.
  intros H1 H2. pose proof (interrupts clk shuffle f e sv no_args ys e' r r_valid Hrun) as H.
  destruct (e_interrupt e') as [[|]|]; [| |reflexivity].
  - destruct H as (_ & n & E & _). unfold limit_of in E. cbn in E. congruence.
  - destruct H as (_ & t & j & E & _). unfold timeout_of in E. cbn in E. congruence.
Qed.

End Run.

Lemma rbuilt_terminates P clk shuffle e sv vs ps : rbuilt P (e_world e) vs ps -> shuffles shuffle ->
  exists f r, solve_all clk shuffle f e sv no_args = Some r.
Proof.
  intros Hb Hs. destruct (rbuilt_valid P e vs ps shuffle Hb Hs) as (_ & H1 & _ & H2).
  exact (run_terminates clk shuffle e sv no_args passive Hs H1 H2).
Qed.



(** The iteration of a puzzle that has been made. *)
Definition iterate_run {A B} clk shuffle fuel (decode : A -> subst -> res B) (sv : solver) (obj : A) (e : env) : option (list B * option exn * option interrupt) :=
  match solve_all clk shuffle fuel e sv no_args with
  | None => None
  | Some (ys, e', r) =>
      match mapM (decode obj) ys with
      | Ok bs => Some (bs, r, e_interrupt e')
      | Err ex => Some ([], Some ex, e_interrupt e')
      end
  end.

Lemma riterate_exactly {A B} clk shuffle (obj : A) e V C (decode : A -> subst -> res B) pol t l (ok : B -> Prop) :
  let P := fun _ : nat => 0 in
  rbuilt P (e_world e) V C ->
  (forall x d v, In (x, d) V -> In v d -> dom x v) -> (forall x, In x (names_of V) -> exists v, dom x v) ->
  V <> [] -> shuffles shuffle -> (cmp = true -> forall p, In p C -> p_safe p) ->
  (forall s, good_solution P V C s -> exists b, decode obj s = Ok b /\ ok b) ->
  (forall s s' b, good_solution P V C s -> good_solution P V C s' -> decode obj s = Ok b -> decode obj s' = Ok b ->
     forall x, In x (names_of V) -> val s x = val s' x) ->
  (forall b, ok b -> exists a, (forall x d, In (x, d) V -> In (a x) d) /\ (forall p, In p C -> sat P a p) /\
     forall s, (forall x, In x (names_of V) -> dget s x = Some (a x)) -> decode obj s = Ok b) ->
  exactly (fun fuel => iterate_run clk shuffle fuel decode (new_solver pol t l cmp) obj e) ok t l.
Proof.
  intros P Hb Hdom Hinh HV Hs Hsafe Hdec Hinj Hall.
  set (sv := new_solver pol t l cmp). destruct (new_solver_lims pol t l cmp) as [Hto Hli].
  assert (Hgood : forall fuel ys e' r, solve_all clk shuffle fuel e sv no_args = Some (ys, e', r) ->
    forall s, In s ys -> good_solution P V C s).
  { intros fuel ys e' r H s Hin. destruct (r_sound P clk shuffle fuel e sv V C ys e' r Hb Hs eq_refl Hsafe Hdom Hinh H s Hin) as (_ & _ & H1 & H2).
    split; assumption. }
  assert (Hmap : forall fuel ys e' r, solve_all clk shuffle fuel e sv no_args = Some (ys, e', r) ->
    exists bs, mapM (decode obj) ys = Ok bs /\ Forall2 (fun s b => decode obj s = Ok b) ys bs).
  { intros fuel ys e' r H. apply mapM_Forall2. intros s Hin. destruct (Hdec s (Hgood _ _ _ _ H s Hin)) as (b & E & _). exists b. exact E. }
  split.
  - destruct (rbuilt_terminates P clk shuffle e sv V C Hb Hs) as (fuel & [[ys e'] r] & H). exists fuel.
    destruct (Hmap _ _ _ _ H) as (bs & E & _). exists (bs, r, e_interrupt e'). unfold iterate_run. fold sv. rewrite H, E. reflexivity.
  - intros fuel bs r i H. unfold iterate_run in H. fold sv in H.
    destruct (solve_all clk shuffle fuel e sv no_args) as [[[ys e'] r']|] eqn:Hrun; [|discriminate].
    destruct (Hmap _ _ _ _ Hrun) as (bs' & E & Hf). rewrite E in H. injection H as <- <- <-.
    assert (Hlen : Z.of_nat (length bs') = len ys) by (unfold len; f_equal; clear - Hf; induction Hf; cbn; congruence).
    pose proof (Hgood _ _ _ _ Hrun) as Hg.
    pose proof (interrupts clk shuffle fuel e sv no_args ys e' r' (rbuilt_valid P e V C shuffle Hb Hs) Hrun) as Hint.
    split; [exact (r_no_exception P clk shuffle fuel e sv V C ys e' r' Hb Hs eq_refl HV Hsafe Hto Hli Hdom Hinh Hrun)|].
    split; [|split; [|split; [|split; [|split]]]].
    + intros b Hin. destruct (Forall2_In_r _ _ _ b Hf Hin) as (s & Hs' & Hd). destruct (Hdec s (Hg s Hs')) as (b' & E' & Hok). congruence.
    + pose proof (r_distinct P clk shuffle fuel e sv V C ys e' r' Hb Hs eq_refl Hsafe Hdom Hinh Hrun) as Hdist.
      clear - Hf Hdist Hg Hinj. induction Hf as [|s b ys bs Hd Hf IH]; [constructor|]. inversion Hdist; subst. constructor.
      * intros Hin. destruct (Forall2_In_r _ _ _ b Hf Hin) as (s' & Hs' & Hd').
        rewrite Forall_forall in H1. destruct (H1 s' Hs') as (x & Hx & Hne). apply Hne.
        apply (Hinj s s' b); auto; [apply Hg; now left|apply Hg; now right].
      * apply IH; [intros s' Hs'; apply Hg; now right|assumption].
    + intros Hi b Hok. destruct (Hall b Hok) as (a & Ha1 & Ha2 & Ha3).
      destruct (r_complete P clk shuffle fuel e sv V C ys e' r' Hb Hs eq_refl HV Hsafe Hto Hli Hdom Hinh Hrun a Hi Ha1 Ha2) as (s & Hin & Hget).
      destruct (Forall2_In_l _ _ _ s Hf Hin) as (b' & Hb' & Hd). rewrite (Ha3 s Hget) in Hd. injection Hd as <-. exact Hb'.
    + intros Hi. rewrite Hi in Hint. destruct Hint as (_ & n & E1 & _ & E2 & _). exists n. split; [|lia].
      unfold limit_of in E1. cbn in E1. destruct l; cbn in E1; congruence.
    + intros Hi. rewrite Hi in Hint. destruct Hint as (_ & n & j & E1 & _). exists n.
      unfold timeout_of in E1. cbn in E1. destruct t; cbn in E1; congruence.
    + intros n El Hn. rewrite Hlen. apply (r_limit P clk shuffle fuel e sv V C ys e' r' Hb Hs Hrun n); [|exact Hn].
      unfold sv. cbn. now rewrite El.
Qed.



End Rel.
