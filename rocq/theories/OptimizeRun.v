(** Whole runs of [optimize]. *)
From Coq Require Import Permutation.
From Verif Require Import Optimize SpecFormula SpecSafe SpecSolve SpecOptimize ExprFacts DictFacts ModelFacts
  CompileFacts CodeFacts SearchFacts LoopFacts EnumFacts SetupFacts SolveFacts MasterFacts SolverProps SolverMore
  TraceFacts OptimizeFacts.
Open Scope list_scope.
Open Scope Z_scope.

(** ** The constraint of an objective *)

Definition betterb (o : objective) (a b : Z) : bool := if o_max o then b <? a else a <? b.
Lemma betterb_spec o a b : betterb o a b = true <-> better o a b.
Proof. unfold betterb, better. destruct (o_max o); apply Z.ltb_lt. Qed.

Lemma bound_cmp_value o b y ps s v : evaluate ps s (o_expr o) = Ok v ->
  evaluate ps s (bound_cmp o (Param b y)) = Ok (b2z (betterb o v (ps b))).
Proof.
  unfold bound_cmp, betterb. destruct o as [e mx]. cbn [o_expr o_max]. intros H.
  assert (Hgen : evaluate ps s (Bin (if mx then OGt else OLt) e (Param b y)) = Ok (b2z (if mx then ps b <? v else v <? ps b))).
  { cbn [evaluate]. rewrite H. cbn [bind]. destruct mx; reflexivity. }
  destruct e; try exact Hgen. cbn [evaluate] in *. destruct (dget s x); [|discriminate]. injection H as ->.
  destruct mx; reflexivity.
Qed.

Lemma bound_expr_value o ns x b y ps s v : evaluate ps s (o_expr o) = Ok v ->
  exists u, evaluate ps s (bound_expr o ns x b y) = Ok u /\
    truthy u = negb (ps ns =? 0) || betterb o v (ps b).
Proof.
  intros H. unfold bound_expr. cbn [evaluate]. rewrite (bound_cmp_value o b y ps s v H). cbn [bind bin_op].
  eexists. split; [reflexivity|]. unfold truthy. destruct (Z.eqb_spec (ps ns) 0) as [E|Hne]; cbn.
  - destruct (betterb o v (ps b)); reflexivity.
  - destruct (Z.eqb_spec (ps ns) 0); [contradiction|reflexivity].
Qed.

Lemma bound_expr_occurs o ns x b y z : occurs z (bound_expr o ns x b y) <-> occurs z (o_expr o).
Proof.
  unfold bound_expr, bound_cmp. split.
  - intros H. inversion H; subst; [match goal with H : occurs z (Param _ _) |- _ => inversion H end|].
    destruct (o_expr o); match goal with H : occurs z (Bin _ _ _) |- _ => inversion H; subst end;
      try assumption; match goal with H : occurs z (Param _ _) |- _ => inversion H end.
  - intros H. apply occ_binr. destruct (o_expr o); try (now apply occ_binl). now apply occ_binr.
Qed.

Lemma bound_expr_safe o ns x b y : safe (o_expr o) = true -> (9 <= tightness (o_expr o))%nat ->
  safe (bound_expr o ns x b y) = true.
Proof.
  intros H1 H2. unfold bound_expr. cbn [safe left_needs right_needs tightness].
  assert (Hc : safe (bound_cmp o (Param b y)) = true).
  { unfold bound_cmp. destruct o as [e mx]. cbn [o_expr o_max] in *.
    assert (Hgen : safe (Bin (if mx then OGt else OLt) e (Param b y)) = true).
    { cbn [safe]. rewrite H1. apply Nat.leb_le in H2. destruct mx; cbn [left_needs right_needs tightness];
        rewrite H2; reflexivity. }
    destruct e; try exact Hgen. cbn [safe] in *. rewrite H1. destruct mx; reflexivity. }
  rewrite Hc. reflexivity.
Qed.

(** ** Models that differ by auxiliary parameters only *)

Lemma extends_variable w w' aux x d : extends w w' aux -> (is_variable (w_model w') x d <-> is_variable (w_model w) x d).
Proof.
  intros (H & Ha & _). unfold is_variable. rewrite H. cbn. split.
  - intros Hin. apply in_app_or in Hin. destruct Hin as [|Hin]; [assumption|]. destruct (Ha _ _ Hin) as (p & E & _). discriminate.
  - intros Hin. apply in_or_app. now left.
Qed.

Lemma same_variables_assigns m m' s : (forall x d, is_variable m' x d <-> is_variable m x d) ->
  (assigns m' s <-> assigns m s).
Proof.
  intros H. unfold assigns. split; intros (H1 & H2 & H3); (split; [exact H1|]); split.
  - intros x. rewrite (H2 x). split; intros (d & Hd); exists d; now apply H.
  - intros x v d Hin Hd. apply (H3 x v d Hin). now apply H.
  - intros x. rewrite (H2 x). split; intros (d & Hd); exists d; now apply H.
  - intros x v d Hin Hd. apply (H3 x v d Hin). now apply H.
Qed.

Lemma same_variables_concerns m m' c : (forall x d, is_variable m' x d <-> is_variable m x d) ->
  (concerns m' c <-> concerns m c).
Proof.
  intros H. unfold concerns. split; intros [H1 H2]; (split; [exact H1|]); intros x Hx;
    destruct (H2 x Hx) as (d & Hd); exists d; now apply H.
Qed.

Lemma same_variables_solves sat m m' cs s : (forall x d, is_variable m' x d <-> is_variable m x d) ->
  (solves sat m' cs s <-> solves sat m cs s).
Proof.
  intros H. unfold solves. rewrite (same_variables_assigns m m' s H).
  split; intros [H1 H2]; (split; [exact H1|]); intros c Hc Hcc; apply (H2 c Hc); now apply (same_variables_concerns m m' c H).
Qed.

(** An expression only has a value if all its variables are assigned. *)
Lemma evaluate_occurs ps s e v z : evaluate ps s e = Ok v -> occurs z e -> In z (dkeys s).
Proof.
  intros H Ho. revert v H. induction Ho as [|e _ IH|e _ IH|e _ IH|o l r _ IH|o l r _ IH|es c e Hin _ IH|es c e Hin _ IH];
    intros v H; cbn [evaluate] in H.
  - apply dget_Some. destruct (dget s z); [eauto|discriminate].
  - destruct (evaluate ps s e); [eauto|discriminate].
  - destruct (evaluate ps s e); [eauto|discriminate].
  - destruct (evaluate ps s e); [eauto|discriminate].
  - destruct (evaluate ps s l); [eauto|discriminate].
  - destruct (evaluate ps s l); [|discriminate]. cbn [bind] in H. destruct (evaluate ps s r); [eauto|discriminate].
  - revert c H. induction es as [|e1 es IHes]; intros c H; [contradiction|].
    destruct (evaluate ps s e1) as [v1|] eqn:E1; [|discriminate]. cbn [bind] in H.
    destruct Hin as [->|Hin]; [eapply IH; exact E1|]. eapply IHes; eauto.
  - revert c H. induction es as [|e1 es IHes]; intros c H; [contradiction|].
    destruct (evaluate ps s e1) as [v1|] eqn:E1; [|discriminate]. cbn [bind] in H.
    destruct Hin as [->|Hin]; [eapply IH; exact E1|]. eapply IHes; eauto.
Qed.

Lemma filterM_filter {A} (f : A -> res bool) l d : filterM f l = Ok d ->
  d = filter (fun v => match f v with Ok b => b | Err _ => false end) l.
Proof.
  revert d. induction l as [|v l IH]; intros d H; cbn [filterM filter] in *; [congruence|].
  destruct (f v) as [b|]; [|discriminate]. cbn [bind] in H. destruct (filterM f l) as [d'|]; [|discriminate].
  cbn [bind] in H. injection H as <-. rewrite (IH d' eq_refl). reflexivity.
Qed.

(** ** The run *)

Section Opt.
Variable shuffle : list name -> list name.
Variables (e : env) (sv : solver) (os : list oarg) (a : args).
Hypothesis Hv : opt_valid shuffle e os a.

Let w0 := e_world e.
Let m := w_model w0.
Let sub := all_cons m a.
Let cmp := s_compile sv.
Let ps0 := w_par w0.

Let Hs : shuffles shuffle := proj1 (proj1 Hv).
Let Hn : well_named m := proj1 (proj2 (proj1 Hv)).
Let Ho : objects w0 sub := proj2 (proj2 (proj2 (proj1 Hv))).
Let Hnum : numbered m := proj1 (proj2 Hv).
Let Hk : known w0 sub := proj1 (proj2 (proj2 Hv)).
Let Hko : forall o, In (OObj o) os -> known_expr w0 (o_expr o) := proj2 (proj2 (proj2 Hv)).

Section Made.
Variables (wA : world) (oms : list (objective * minmax)).
Hypothesis Hmk : make_constraints os w0 = (wA, Ok oms).

Let eA := set_world e wA.
Let mA := w_model wA.
Let aA := with_objectives a oms.
Let oc := map (fun p : objective * minmax => mm_cons (snd p)) oms.
Let csA := all_cons mA aA.
Let w1 := compile_all cmp wA csA.

Lemma made_facts : (exists aux, extends w0 wA aux) /\ well_named mA /\ os = map (fun om => OObj (fst om)) oms /\ made w0 wA oms.
Proof.
  destruct (make_constraints_spec os w0 wA (Ok oms) Hnum Hmk) as ((aux & Hx & _) & _ & Hwn & E & M).
  split; [eauto|]. split; [now apply Hwn|]. auto.
Qed.

Lemma made_cons : csA = sub ++ oc.
Proof.
  destruct made_facts as ((aux & (Em & _)) & _). unfold csA, sub, all_cons, aA, with_objectives, oc. cbn [x_additional].
  unfold mA. rewrite Em. cbn [m_cons]. now rewrite app_assoc.
Qed.

Lemma made_variable x d : is_variable mA x d <-> is_variable m x d.
Proof. destruct made_facts as ((aux & Hx) & _). exact (extends_variable w0 wA aux x d Hx). Qed.

Lemma oc_In c : In c oc <-> exists o mm, In (o, mm) oms /\ c = mm_cons mm.
Proof.
  unfold oc. rewrite in_map_iff. split.
  - intros ((o & mm) & <- & Hin). eauto.
  - intros (o & mm & Hin & ->). exists (o, mm). auto.
Qed.

Lemma oc_expr o mm : In (o, mm) oms -> c_body (mm_cons mm) = CExpr (mm_expr mm).
Proof.
  intros Hin. destruct made_facts as (_ & _ & _ & M). destruct (md_shape _ _ _ M o mm Hin) as [(x & y & E)].
  unfold mm_expr. now rewrite E.
Qed.

Lemma oc_vars o mm z : In (o, mm) oms -> (In z (c_vars (mm_cons mm)) <-> occurs z (o_expr o)).
Proof.
  intros Hin. destruct made_facts as (_ & _ & _ & M). destruct (md_shape _ _ _ M o mm Hin) as [(x & y & E)].
  rewrite <- mentions_vars. unfold mentions. rewrite E. apply bound_expr_occurs.
Qed.

Lemma NoDup_map_inj {A B} (f : A -> B) l x y : NoDup (map f l) -> In x l -> In y l -> f x = f y -> x = y.
Proof.
  induction l as [|z l IH]; intros Hnd Hx Hy E; [contradiction|]. cbn in Hnd. inversion Hnd; subst.
  destruct Hx as [->|Hx], Hy as [->|Hy]; auto.
  - exfalso. apply H1. rewrite E. now apply in_map.
  - exfalso. apply H1. rewrite <- E. now apply in_map.
Qed.

Lemma made_objects : objects wA csA.
Proof.
  rewrite made_cons. destruct made_facts as ((aux & Hx) & _ & _ & M). destruct Hx as (_ & _ & _ & _ & _ & Hcode).
  destruct Ho as [Ho1 Ho2].
  assert (Hlow : forall c, In c sub -> (c_id c < w_ncon w0)%nat) by (intros c Hc; now apply (Hk c Hc)).
  assert (Hhigh : forall c, In c oc -> (w_ncon w0 <= c_id c)%nat).
  { intros c Hc. apply oc_In in Hc. destruct Hc as (o & mm & Hin & ->). now apply (md_ids _ _ _ M o mm Hin). }
  split.
  - intros c c' Hc Hc' E. apply in_app_or in Hc. apply in_app_or in Hc'.
    destruct Hc as [Hc|Hc], Hc' as [Hc'|Hc'].
    + now apply Ho1.
    + pose proof (Hlow c Hc). pose proof (Hhigh c' Hc'). lia.
    + pose proof (Hlow c' Hc'). pose proof (Hhigh c Hc). lia.
    + apply oc_In in Hc. apply oc_In in Hc'. destruct Hc as (o & mm & Hin & ->). destruct Hc' as (o' & mm' & Hin' & ->).
      pose proof (NoDup_map_inj (fun om => c_id (mm_cons (snd om))) oms (o, mm) (o', mm') (md_nodup_ids _ _ _ M) Hin Hin' E) as Eq.
      injection Eq as <- <-. reflexivity.
  - intros c ex f Hc Hb Hf. apply in_app_or in Hc. destruct Hc as [Hc|Hc].
    + rewrite Hcode in Hf by (now apply Hlow). eauto.
    + apply oc_In in Hc. destruct Hc as (o & mm & Hin & ->). rewrite (md_code _ _ _ M o mm Hin) in Hf. discriminate.
Qed.

(** *** The invariant *)

Definition auxp := flat_map (fun om : objective * minmax => aux_params (snd om)) oms.
Definition auxc := map (fun om : objective * minmax => c_id (mm_cons (snd om))) oms.

Lemma made_good : good (w_npar w0) oms.
Proof.
  destruct made_facts as (_ & _ & Eos & M). split; [|split; [|split; [|split]]].
  - apply M.
  - intros o mm p Hin Hp. apply (Hko o); [|assumption]. rewrite Eos. apply in_map_iff. exists (o, mm). auto.
  - intros o mm p Hin Hp. now apply (md_pars _ _ _ M o mm p Hin Hp).
  - apply M.
  - apply M.
Qed.

Definition state (ys : list subst) (w : world) : Prop :=
  match last_solution ys with
  | None => forall o mm, In (o, mm) oms -> w_par w (mm_not_set mm) = 1
  | Some s => forall o mm, In (o, mm) oms ->
                w_par w (mm_not_set mm) = 0 /\ evaluate ps0 s (o_expr o) = Ok (w_par w (mm_bound mm))
  end.

Definition Inv (ys : list subst) (w : world) : Prop :=
  same_except w1 w auxp auxc /\ old (w_npar w0) ps0 w /\
  (forall o mm, In (o, mm) oms -> coherent cmp w mm) /\ state ys w /\
  (forall y o, In y ys -> In (OObj o) os -> exists v, value_of ps0 o y v).

Lemma last_solution_snoc ys s : last_solution (ys ++ [s]) = Some s.
Proof. induction ys as [|y ys IH]; [reflexivity|]. cbn. now rewrite IH. Qed.

Lemma last_solution_In ys s : last_solution ys = Some s -> In s ys.
Proof.
  induction ys as [|y ys IH]; [discriminate|]. cbn. destruct (last_solution ys) as [t|]; intros E; injection E as ->; auto.
Qed.

Lemma Inv_init : Inv [] w1.
Proof.
  destruct made_facts as ((aux & Hx) & _ & _ & M). pose proof made_objects as [Hid _].
  split; [repeat split|]. split; [|split].
  - intros p Hp. unfold w1. rewrite compile_all_par. destruct Hx as (_ & _ & _ & _ & Hpar & _). now apply Hpar.
  - intros o mm Hin. unfold coherent.
    assert (Hc : In (mm_cons mm) csA) by (rewrite made_cons; apply in_or_app; right; apply oc_In; eauto).
    unfold w1. destruct cmp.
    + rewrite (compile_all_in wA csA (mm_cons mm) (mm_expr mm) Hc (oc_expr o mm Hin)) by (intros c' Hc' E; now apply Hid).
      split; [reflexivity|]. exists (w_par wA). split; [|reflexivity]. intros p _. now rewrite compile_all_par.
    + rewrite compile_all_false, (md_code _ _ _ M o mm Hin). reflexivity.
  - split; [|intros y o []]. intros o mm Hin. unfold w1. rewrite compile_all_par. now apply (md_unset _ _ _ M o).
Qed.

Lemma Inv_step (k : nat) w s w' ys : Inv ys w -> add_solutions oms w s = Ok w' -> Inv (ys ++ [s]) w'.
Proof.
  intros (I1 & I2 & I3 & I4 & I5) H.
  destruct (add_solutions_spec (w_npar w0) ps0 cmp oms w s w' made_good I2 H) as (S1 & S2 & S3).
  split; [|split; [|split]].
  - fold auxp auxc in S1. destruct (same_except_trans _ _ _ _ _ _ _ I1 S1) as (T1 & T2 & T3 & T4 & T5).
    repeat split; auto; intros p Hp; [apply T4|apply T5]; intros Hin; apply in_app_or in Hin; tauto.
  - intros p Hp. destruct S1 as (_ & _ & _ & S1 & _). rewrite S1; [now apply I2|]. intros Hin.
    apply in_flat_map in Hin. destruct Hin as ((o & mm) & Hin & Hpin).
    pose proof made_good as (_ & _ & G3 & _). pose proof (G3 o mm p Hin Hpin). lia.
  - now apply S3.
  - split; [unfold state; rewrite last_solution_snoc; exact S2|].
    intros y o Hy Hin. apply in_app_or in Hy. destruct Hy as [Hy|[<-|[]]]; [now apply I5|].
    destruct made_facts as (_ & _ & Eos & _). rewrite Eos in Hin. apply in_map_iff in Hin.
    destruct Hin as ((o' & mm) & E & Hin). injection E as ->. destruct (S2 o mm Hin) as [_ E]. eexists. exact E.
Qed.

Lemma Inv_stable ys w c s : Inv ys w -> In c sub -> ceval w c s = ceval w1 c s.
Proof.
  intros ((E1 & _ & _ & Ep & Ec) & _) Hc. destruct (Hk c Hc) as [Hid Hpar].
  assert (Hpp : forall p, (p < w_npar w0)%nat -> w_par w p = w_par w1 p).
  { intros p Hp. apply Ep. intros Hin. apply in_flat_map in Hin. destruct Hin as ((o & mm) & Hin & Hpin).
    pose proof made_good as (_ & _ & G3 & _). pose proof (G3 o mm p Hin Hpin). lia. }
  assert (Hcc : w_code w (c_id c) = w_code w1 (c_id c)).
  { apply Ec. intros Hin. apply in_map_iff in Hin. destruct Hin as ((o & mm) & E & Hin). cbn in E.
    destruct made_facts as (_ & _ & _ & M). pose proof (md_ids _ _ _ M o mm Hin). lia. }
  unfold ceval. destruct (c_body c) as [b|ex|xs] eqn:Eb; try reflexivity. rewrite Hcc.
  destruct (w_code w1 (c_id c)); [reflexivity|].
  rewrite (evaluate_params (w_par w) (w_par w1) s ex); [reflexivity|]. intros p Hp. apply Hpp. now apply (Hpar ex).
Qed.

(** The constraint of an objective, when the objective has a value. *)
Lemma Inv_objective ys w o mm s v : Inv ys w -> In (o, mm) oms -> objective_faithful cmp os ->
  evaluate ps0 s (o_expr o) = Ok v ->
  ceval w (mm_cons mm) s = Ok (negb (w_par w (mm_not_set mm) =? 0) || betterb o v (w_par w (mm_bound mm))).
Proof.
  intros (I1 & I2 & I3 & I4 & _) Hin Hf Hval. destruct made_facts as (_ & _ & Eos & M).
  destruct (mshape_expr o mm (md_shape _ _ _ M o mm Hin)) as (x & y & Eexp).
  assert (Hval' : evaluate (w_par w) s (o_expr o) = Ok v).
  { rewrite <- Hval. exact (old_value (w_npar w0) ps0 o mm oms w s made_good Hin I2). }
  destruct (bound_expr_value o (mm_not_set mm) x (mm_bound mm) y (w_par w) s v Hval') as (u & Hu & Ht).
  unfold ceval. rewrite (oc_expr o mm Hin). specialize (I3 o mm Hin). unfold coherent in I3.
  destruct (w_code w (c_id (mm_cons mm))) as [f|].
  - destruct I3 as (Ecmp & ps & Hps & ->).
    assert (Hin' : In (OObj o) os) by (rewrite Eos; apply in_map_iff; exists (o, mm); auto).
    destruct (Hf Ecmp o Hin') as [Hf1 Hf2].
    rewrite (compiled_agrees ps s (mm_expr mm) u).
    + cbn [bind]. now rewrite Ht.
    + rewrite Eexp. now apply bound_expr_safe.
    + rewrite (evaluate_params ps (w_par w) s (mm_expr mm) Hps), Eexp. exact Hu.
  - rewrite Eexp, Hu. cbn [bind]. now rewrite Ht.
Qed.

(** *** Consequences for the search *)

Section Loop.
Variables (w : world) (u : setup).
Hypothesis Es : do_setup cmp wA (x_additional aA) = (w, Ok u).
Let order := order_of shuffle sv aA mA u.
Let i := GInfo (u_doms u) (u_cons u) (u_ad u).
Let cons := fun (_ : nat) (w : world) (s : subst) => add_solutions oms w s.

Lemma opt_setup :
  w = w1 /\ uinv w1 (pure_variables (m_vars mA)) csA u /\
  (forall c, In c csA -> is_ad c = true ->
     c_vars c <> [] /\ forall x, In x (c_vars c) -> In x (dkeys (pure_variables (m_vars mA)))) /\
  Permutation order (dkeys (pure_variables (m_vars mA))) /\ NoDup order /\
  (forall x, In x order -> In x (dkeys (i_doms i))).
Proof.
  destruct (do_setup_spec _ _ _ _ _ made_objects Es) as (Hw & Hu & Hg). fold csA in Hw, Hu, Hg.
  assert (Hw1 : w = w1) by exact Hw. rewrite Hw1 in *.
  destruct made_facts as (_ & HnA & _ & _).
  destruct (order_facts shuffle cmp wA (x_additional aA) w1 u sv aA Hs HnA made_objects Es) as (Hp & Hnd & Hin).
  split; [reflexivity|]. split; [exact Hu|]. split; [exact Hg|]. auto.
Qed.

Lemma sub_local c : In c sub -> concerns mA c -> c_local w1 c.
Proof.
  intros Hc. destruct made_facts as (_ & HnA & _ & _).
  apply (locals w1 mA csA HnA); [apply objects_compile, made_objects|]. rewrite made_cons. apply in_or_app. now left.
Qed.

Lemma opt_sound y : traced i Inv order [] y -> solves (evaluates_true w1) m sub y.
Proof.
  intros (l & -> & Hl & Hp). cbn [app]. destruct opt_setup as (_ & Hu & _ & Hpm & _).
  destruct made_facts as (_ & HnA & _ & _).
  apply (same_variables_solves _ m mA sub l made_variable).
  apply (traced_sound w1 mA csA sub u order (fun w => exists ys, Inv ys w) HnA Hu); try assumption.
  - intros c Hc. rewrite made_cons. apply in_or_app. now left.
  - apply sub_local.
  - intros w' c s (ys & HI) Hc. eapply Inv_stable; eauto.
Qed.

(** A solution of the model is found or pruned by an objective. *)
Lemma opt_complete ys w' k t : search i cons order 0 w1 [] = (ys, w', Ok k) ->
  objective_faithful cmp os -> solves (evaluates_true w1) m sub t ->
  (forall o, In (OObj o) os -> exists v, value_of ps0 o t v) ->
  (exists s, In s ys /\ same_dict s t) \/
  (exists s o v v', In s ys /\ In (OObj o) os /\ value_of ps0 o t v /\ value_of ps0 o s v' /\ ~ better o v v').
Proof.
  intros Hsearch Hf Ht Hval. destruct opt_setup as (_ & Hu & Hg & Hpm & Hnd & Hin).
  destruct made_facts as (_ & HnA & Eos & M).
  destruct (solves_reorder w1 mA sub order HnA sub_local Hpm t) as (l & Hl & Hsame & Hsol).
  { apply (same_variables_solves _ m mA sub t made_variable). exact Ht. }
  assert (HvL : forall o mm p x v q, In (o, mm) oms -> l = p ++ (x, v) :: q ->
     (forall z, In z (c_vars (mm_cons mm)) -> In z (dkeys (p ++ [(x, v)]))) ->
     exists vt, value_of ps0 o t vt /\ evaluate ps0 (p ++ [(x, v)]) (o_expr o) = Ok vt).
  { intros o mm p x v q Hom E Hb.
    destruct (Hval o) as (vt & Hvt). { rewrite Eos. apply in_map_iff. exists (o, mm). auto. }
    exists vt. split; [exact Hvt|]. rewrite <- Hvt. apply evaluate_agree. intros z Hz. rewrite <- Hsame, E.
    replace (p ++ (x, v) :: q) with ((p ++ [(x, v)]) ++ q) by (rewrite <- app_assoc; reflexivity).
    symmetry. apply dget_prefix. apply Hb. now apply (oc_vars o mm z Hom). }
  destruct (search_trace i cons Inv Inv_step order 0 w1 [] ys w' (Ok k) [] Hnd Hin Inv_init Hsearch) as (_ & _ & Hc).
  destruct (Hc l Hl) as [Hfound|Hpr].
  - (* every value is in the filtered domain *)
    intros x v Hxv. destruct Hsol as [(Hnd' & Hkeys & Hvals) Hsat].
    destruct (proj1 (Hkeys x)) as (d & Hd). { change x with (fst (x, v)). now apply in_map. }
    apply (dom_In w1 mA csA u HnA Hu x d v Hd). split; [now apply (Hvals x v d)|].
    intros c Hcin Had Ecv.
    assert (Hcon : concerns mA c).
    { split; [exists x; apply mentions_vars; rewrite Ecv; now left|]. intros y Hy. apply mentions_vars in Hy.
      rewrite Ecv in Hy. destruct Hy as [<-|[]]. eauto. }
    assert (Hgx : dget l x = Some v) by (now apply dget_NoDup).
    rewrite made_cons in Hcin. apply in_app_or in Hcin. destruct Hcin as [Hcin|Hcin].
    + rewrite <- (Hsat c Hcin Hcon). apply (sub_local c Hcin Hcon). rewrite Ecv. intros y [<-|[]]. cbn.
      rewrite eqb_refl_s. congruence.
    + apply oc_In in Hcin. destruct Hcin as (o & mm & Hom & ->).
      destruct (Hval o) as (vt & Hvt). { rewrite Eos. apply in_map_iff. exists (o, mm). auto. }
      assert (Hev : evaluate ps0 [(x, v)] (o_expr o) = Ok vt).
      { rewrite <- Hvt. apply evaluate_agree. intros z Hz. apply (oc_vars o mm z Hom) in Hz. rewrite Ecv in Hz.
        destruct Hz as [<-|[]]. rewrite <- Hsame, Hgx. cbn. now rewrite eqb_refl_s. }
      rewrite (Inv_objective [] w1 o mm [(x, v)] vt Inv_init Hom Hf Hev).
      destruct Inv_init as (_ & _ & _ & Hst & _). cbn in Hst. rewrite (Hst o mm Hom). reflexivity.
  - left. exists l. split; [exact Hfound|exact Hsame].
  - right. destruct Hpr as (p & x & v & q & w2 & ys1 & E & Hpre & HI & Hacc). cbn [app] in HI, Hacc.
    destruct (pruned_other w1 mA csA sub u order (fun w => exists ys, Inv ys w) Hu sub_local Hpm) with (l := l) (p := p) (x := x) (v := v) (q := q) (w := w2)
      as (c & Hcc & Hns & Had & Hx & Hb & Hce); try assumption.
    + intros w3 c s (ys3 & HI3) Hc3. eapply Inv_stable; eauto.
    + intros c Hcc Had. rewrite made_cons in Hcc. apply in_app_or in Hcc. destruct Hcc as [|Hcc]; [assumption|].
      apply oc_In in Hcc. destruct Hcc as (o & mm & Hom & ->). unfold is_ad in Had. rewrite (oc_expr o mm Hom) in Had. discriminate.
    + intros c Hcc Had. apply Hg; [|assumption]. rewrite made_cons. apply in_or_app. now left.
    + eauto.
    + rewrite made_cons in Hcc. apply in_app_or in Hcc. destruct Hcc as [|Hcc]; [contradiction|].
      apply oc_In in Hcc. destruct Hcc as (o & mm & Hom & ->).
      destruct (HvL o mm p x v q Hom E Hb) as (vt & Hvt & Hev).
      rewrite (Inv_objective ys1 w2 o mm _ vt HI Hom Hf Hev) in Hce. injection Hce as Hce.
      apply orb_false_iff in Hce. destruct Hce as [Hz Hnb]. apply negb_false_iff, Z.eqb_eq in Hz.
      destruct HI as (_ & _ & _ & Hst & _). unfold state in Hst.
      destruct (last_solution ys1) as [s|] eqn:El.
      * destruct (Hst o mm Hom) as [_ Hb'].
        exists s, o, vt, (w_par w2 (mm_bound mm)). split; [eapply prefix_In; [exact Hpre|now apply last_solution_In]|].
        split; [rewrite Eos; apply in_map_iff; exists (o, mm); auto|]. split; [exact Hvt|]. split; [exact Hb'|].
        intros Hbt. apply betterb_spec in Hbt. congruence.
      * specialize (Hst o mm Hom). rewrite Hz in Hst. discriminate.
Qed.

(** *** Exceptions *)

Let total_objectives : Prop := objectives_total m ps0 os.

Lemma oms_In o mm : In (o, mm) oms -> In (OObj o) os.
Proof. intros H. destruct made_facts as (_ & _ & Eos & _). rewrite Eos. apply in_map_iff. exists (o, mm). auto. Qed.

Lemma dom_declared x v : In v (dom i x) -> In x order -> exists d, is_variable m x d /\ In v d.
Proof.
  destruct opt_setup as (_ & Hu & _ & Hpm & _). destruct made_facts as (_ & HnA & _ & _). intros Hv' Hx.
  apply (sub_order_In mA order Hpm) in Hx. destruct Hx as (d & Hd). exists d. split; [now apply made_variable|].
  apply (dom_In w1 mA csA u HnA Hu x d v Hd). exact Hv'.
Qed.

Lemma opt_no_error ys w' ex : search i cons order 0 w1 [] = (ys, w', Err ex) ->
  objective_faithful cmp os -> total_objectives -> no_raise (ceval w1) m sub -> False.
Proof.
  intros Hsearch Hf Htot Hnr. destruct opt_setup as (_ & Hu & _ & Hpm & Hnd & Hin).
  destruct (search_err i cons Inv Inv_step order 0 w1 [] ys w' ex [] Hnd Hin Inv_init Hsearch)
    as (w2 & l & (ys2 & HI) & Hl & [(x & v & q & E & Hv' & Hacc)|(E & k & Hc)]); cbn [app] in *.
  - assert (Hxo : In x order) by (rewrite E; apply in_or_app; right; now left).
    assert (Hlo : forall z t, In (z, t) l -> In z order).
    { intros z t Hz. rewrite E. apply in_or_app. left. change z with (fst (z, t)). now apply in_map. }
    assert (Hxl : ~ In x (dkeys l)).
    { rewrite E in Hnd. apply NoDup_remove_2 in Hnd. intros Hx. apply Hnd. apply in_or_app. now left. }
    assert (Hdoms : forall z t, In (z, t) (l ++ [(x, v)]) -> exists d, is_variable m z d /\ In t d).
    { intros z t Hz. apply in_app_or in Hz. destruct Hz as [Hz|[Ez|[]]].
      - apply dom_declared; [now apply Hl|now apply (Hlo z t)].
      - injection Ez as <- <-. now apply dom_declared. }
    assert (Herr : exists c, In c (dget_or (i_cons i) x []) /\ (forall z, In z (c_vars c) -> In z (dkeys (l ++ [(x, v)]))) /\
                     ceval w2 c (l ++ [(x, v)]) = Err ex).
    { unfold accept in Hacc. rewrite dset_new in Hacc by assumption. destruct (existsb _ _); [discriminate|].
      revert Hacc. generalize (dget_or (i_cons i) x []). intros cs. induction cs as [|c cs IH]; cbn [no_unsatisfied]; intros H; [discriminate|].
      unfold unsatisfied in H. destruct (forallb (fun y => dmem (l ++ [(x, v)]) y) (c_vars c)) eqn:Ef.
      - rewrite forallb_forall in Ef. destruct (ceval w2 c (l ++ [(x, v)])) as [[|]|] eqn:Ec; cbn [bind negb] in H.
        + destruct (IH H) as (c' & H1 & H2). exists c'. split; [now right|exact H2].
        + discriminate.
        + injection H as ->. exists c. split; [now left|]. split; [|exact Ec]. intros z Hz. now apply dmem_In, Ef.
      - cbn [bind] in H. destruct (IH H) as (c' & H1 & H2). exists c'. split; [now right|exact H2]. }
    destruct Herr as (c & Hc & Hvars & Hce). change (i_cons i) with (u_cons u) in Hc. apply (ui_cons _ _ _ _ Hu) in Hc.
    destruct Hc as (Hc & _ & _ & Hx). rewrite made_cons in Hc. apply in_app_or in Hc. destruct Hc as [Hc|Hc].
    + rewrite (Inv_stable ys2 w2 c _ HI Hc) in Hce.
      destruct (Hnr c (l ++ [(x, v)]) Hc) as (b & Hb); [| |intros z Hz; apply Hvars; now apply mentions_vars|congruence].
      * split; [exists x; now apply mentions_vars|]. intros z Hz. apply mentions_vars, Hvars in Hz.
        apply in_map_iff in Hz. destruct Hz as ((z' & t) & <- & Hz). destruct (Hdoms z' t Hz) as (d & Hd & _). eauto.
      * exact Hdoms.
    + apply oc_In in Hc. destruct Hc as (o & mm & Hom & ->).
      destruct (Htot o (oms_In o mm Hom)) as [_ Ht]. destruct (Ht (l ++ [(x, v)]) Hdoms) as (vt & Hvt).
      { intros z Hz. apply Hvars. now apply (oc_vars o mm z Hom). }
      rewrite (Inv_objective ys2 w2 o mm _ vt HI Hom Hf Hvt) in Hce. discriminate.
  - unfold cons in Hc. destruct HI as (_ & HI & _).
    assert (Hdoms : forall z t, In (z, t) l -> exists d, is_variable m z d /\ In t d).
    { intros z t Hz. apply dom_declared; [now apply Hl|]. rewrite <- E. change z with (fst (z, t)). now apply in_map. }
    assert (Hgo : forall oms' w, (forall o mm, In (o, mm) oms' -> In (o, mm) oms) -> old (w_npar w0) ps0 w ->
              exists w', add_solutions oms' w l = Ok w').
    { induction oms' as [|[o mm] oms' IH]; intros w3 Hsub Hold; [eexists; reflexivity|]. cbn [add_solutions].
      assert (Hom : In (o, mm) oms) by (apply Hsub; now left).
      destruct (Htot o (oms_In o mm Hom)) as [Hv1 Ht]. destruct (Ht l Hdoms) as (vt & Hvt).
      { intros z Hz. destruct (Hv1 z Hz) as (d & Hd). rewrite E. apply (sub_order_In mA order Hpm). exists d. now apply made_variable. }
      unfold add_solution. rewrite (old_value (w_npar w0) ps0 o mm oms w3 l made_good Hom Hold).
      unfold value_of in Hvt. rewrite Hvt. cbn [bind].
      apply IH; [intros o' mm' H; apply Hsub; now right|].
      destruct made_facts as (_ & _ & _ & M).
      destruct (set_bound_spec w3 mm vt o (md_shape _ _ _ M o mm Hom)) as ((_ & _ & _ & Hp & _) & _).
      intros p Hp'. rewrite Hp; [now apply Hold|]. intros Hpin. pose proof (md_pars _ _ _ M o mm p Hom Hpin). lia. }
    destruct (Hgo oms w2 (fun _ _ H => H) HI) as (w3 & E3). congruence.
Qed.

(** *** Successive values of an objective *)

Section Chain.
Variables (o : objective) (mm : minmax).
Hypothesis Hom : In (o, mm) oms.
Hypothesis Hf : objective_faithful cmp os.
Hypothesis Hsome : exists x, occurs x (o_expr o).
Definition two : Prop := exists x y, x <> y /\ occurs x (o_expr o) /\ occurs y (o_expr o).
Definition leads (xs : list name) : Prop := exists x rest, xs = x :: rest /\ forall z, occurs z (o_expr o) -> z = x.
Hypothesis Htwo : two \/ leads order.
Variable ok : Z -> Z -> Prop.          (* the new value and the old one *)
Hypothesis Hbetter : forall a b, better o a b -> ok a b.
Hypothesis Halong : forall s x d v v' a b,
  (forall y t, In (y, t) s -> exists dy, is_variable m y dy /\ In t dy) ->
  is_variable m x d -> occurs x (o_expr o) -> before d v v' ->
  value_of ps0 o ((x, v) :: s) a -> value_of ps0 o ((x, v') :: s) b -> ok b a.
Hypothesis Hequal : (forall a, ok a a) \/ (forall x, In x order -> occurs x (o_expr o)).

Definition Rel (s s' : subst) : Prop := forall a b, value_of ps0 o s a -> value_of ps0 o s' b -> ok b a.
Definition fits (ys : list subst) (s : subst) : Prop :=
  match last_solution ys with None => True | Some t => Rel t s end.
Definition same_value (s s' : subst) : Prop := forall a, value_of ps0 o s a <-> value_of ps0 o s' a.

Lemma chain_snoc ys s : chain Rel (ys ++ [s]) <-> chain Rel ys /\ fits ys s.
Proof.
  unfold fits. induction ys as [|y ys IH]; [cbn; tauto|]. destruct ys as [|z ys].
  - cbn. tauto.
  - change (chain Rel ((y :: z :: ys) ++ [s])) with (Rel y z /\ chain Rel ((z :: ys) ++ [s])). rewrite IH.
    change (chain Rel (y :: z :: ys)) with (Rel y z /\ chain Rel (z :: ys)).
    change (last_solution (y :: z :: ys)) with (match last_solution (z :: ys) with Some t => Some t | None => Some y end).
    assert (Hne : last_solution (z :: ys) <> None) by (cbn; destruct (last_solution ys); discriminate).
    destruct (last_solution (z :: ys)); [|contradiction]. tauto.
Qed.

Lemma fits_same ys s s' : same_value s s' -> fits ys s -> fits ys s'.
Proof.
  unfold fits. intros Hsv. destruct (last_solution ys); [|auto]. intros H a0 b Ha Hb. apply (H a0 b Ha). now apply Hsv.
Qed.

Lemma last_solution_app ys zs : last_solution (ys ++ zs) =
  match last_solution zs with Some t => Some t | None => last_solution ys end.
Proof.
  induction ys as [|y ys IH]; [cbn; destruct (last_solution zs); reflexivity|]. cbn. rewrite IH.
  destruct (last_solution zs); reflexivity.
Qed.

Lemma search_extends xs k w2 s ys w' r : NoDup (dkeys s ++ xs) -> (forall x, In x xs -> In x (dkeys (i_doms i))) ->
  search i cons xs k w2 s = (ys, w', r) -> forall y, In y ys -> exists l, y = s ++ l /\ map fst l = xs.
Proof.
  intros Hnd Hin H y Hy.
  destruct (search_trace i cons (fun _ _ => True) (fun _ _ _ _ _ _ _ => Logic.I) xs k w2 s ys w' r [] Hnd Hin Logic.I H) as [Ht _].
  destruct (Ht y Hy) as (l & E & El & _). eauto.
Qed.

(** Below an assignment that determines the objective. *)
Lemma search_level xs k w2 s ys w' r ys0 : NoDup (dkeys s ++ xs) -> (forall x, In x xs -> In x order) ->
  (forall x, occurs x (o_expr o) -> In x (dkeys s)) ->
  search i cons xs k w2 s = (ys, w', r) -> chain Rel ys0 -> fits ys0 s ->
  chain Rel (ys0 ++ ys) /\ forall y, In y ys -> same_value s y.
Proof.
  intros Hnd Hxs Hall H Hc Hfit.
  assert (Hsame : forall y, In y ys -> same_value s y).
  { intros y Hy. destruct opt_setup as (_ & _ & _ & _ & _ & Hin).
    destruct (search_extends xs k w2 s ys w' r Hnd (fun x Hx => Hin x (Hxs x Hx)) H y Hy) as (l & -> & _).
    intros a0. unfold value_of. rewrite (evaluate_agree ps0 (s ++ l) s); [tauto|]. intros x Hx. apply dget_prefix. auto. }
  split; [|exact Hsame]. destruct Hequal as [Hrefl|Hfull].
  - clear H. revert ys0 Hc Hfit. induction ys as [|y ys IH]; intros ys0 Hc Hfit; [now rewrite app_nil_r|].
    change (y :: ys) with ([y] ++ ys). rewrite app_assoc.
    assert (Hy : same_value s y) by (apply Hsame; now left).
    apply IH; [intros z Hz; apply Hsame; now right| |].
    + apply chain_snoc. split; [exact Hc|]. now apply (fits_same ys0 s y).
    + unfold fits. rewrite last_solution_snoc. intros a0 b Ha Hb. apply Hy in Ha.
      assert (a0 = b) by (unfold value_of in *; congruence). subst. apply Hrefl.
  - assert (E : xs = []).
    { destruct xs as [|x xs]; [reflexivity|]. exfalso. apply NoDup_remove_2 in Hnd. apply Hnd. apply in_or_app. left.
      apply Hall, Hfull, Hxs. now left. }
    subst xs. cbn [search] in H. change (cons k w2 s) with (add_solutions oms w2 s) in H.
    assert (ys = [s]) by (destruct (add_solutions oms w2 s); injection H as <- _ _; reflexivity). subst ys.
    apply chain_snoc. auto.
Qed.

Lemma before_mid (l1 : list Z) x l2 y l3 : In x l1 -> l1 ++ l2 = l1 ++ y :: l3 -> before (l1 ++ l2) x y.
Proof.
  intros H E. rewrite E. apply in_split in H. destruct H as (p & q & ->). exists p, q, l3. rewrite <- app_assoc. reflexivity.
Qed.

Lemma search_chain xs : forall k w2 s ys w' r ys0,
  NoDup (dkeys s ++ xs) -> (forall x, In x xs -> In x order) ->
  (forall x v, In (x, v) s -> exists d, is_variable m x d /\ In v d) ->
  (forall x, occurs x (o_expr o) -> In x (dkeys s ++ xs)) ->
  (exists x, occurs x (o_expr o) /\ ~ In x (dkeys s)) ->
  two \/ ys0 = [] /\ leads xs ->
  Inv ys0 w2 -> chain Rel ys0 -> search i cons xs k w2 s = (ys, w', r) -> chain Rel (ys0 ++ ys).
Proof.
  destruct opt_setup as (_ & Hu & _ & Hpm & _ & Hin). destruct made_facts as (_ & HnA & _ & _).
  induction xs as [|x rest IH]; intros k w2 s ys w' r ys0 Hnd Hxs Hsd Hall Hnot Ht2 HI Hc H.
  - exfalso. destruct Hnot as (x & Hx & Hnx). apply Hnx. specialize (Hall x Hx). now rewrite app_nil_r in Hall.
  - cbn [search] in H. unfold filter_domain in H.
    destruct (proj1 (dget_Some (i_doms i) x) (Hin x (Hxs x (or_introl eq_refl)))) as (dm & Hdm). rewrite Hdm in H.
    assert (Hdom : dom i x = dm) by (unfold dom, dget_or; now rewrite Hdm).
    destruct (filterM (accept w2 i x s) dm) as [d|ex] eqn:Ef.
    2:{ injection H as <- <- <-. now rewrite app_nil_r. }
    destruct (proj1 (sub_order_In mA order Hpm x) (Hxs x (or_introl eq_refl))) as (dd & Hdd).
    assert (Hdin : forall v, In v d -> In v dm /\ accept w2 i x s v = Ok true) by (apply (accept_In i w2 x s dm d Ef)).
    assert (Hdecl : forall v, In v d -> In v dd).
    { intros v Hvd. apply Hdin in Hvd. destruct Hvd as [Hvd _]. rewrite <- Hdom in Hvd.
      now apply (dom_In w1 mA csA u HnA Hu x dd v Hdd) in Hvd. }
    assert (Hset : forall v, ~ In x (dkeys s) /\ dset s x v = s ++ [(x, v)] /\ NoDup (dkeys (dset s x v) ++ rest)).
    { intros v. now apply dset_NoDup_app. }
    assert (Hsx : forall v, In v d -> forall z t, In (z, t) (s ++ [(x, v)]) -> exists d, is_variable m z d /\ In t d).
    { intros v Hvd z t Hz. apply in_app_or in Hz. destruct Hz as [Hz|[E|[]]]; [now apply Hsd|]. injection E as <- <-.
      exists dd. split; [now apply made_variable|auto]. }
    assert (Hk1 : forall v, dkeys (s ++ [(x, v)]) = dkeys s ++ [x]) by (intros v; unfold dkeys; now rewrite map_app).
    destruct (forallb (fun z => memb z (dkeys s ++ [x])) (vars (o_expr o))) eqn:Eall.
    + (* the objective becomes determined *)
      rewrite forallb_forall in Eall.
      assert (Hdet : forall z, occurs z (o_expr o) -> In z (dkeys s ++ [x])).
      { intros z Hz. apply vars_occurs in Hz. specialize (Eall z Hz). now apply memb_In in Eall. }
      assert (Hxo : occurs x (o_expr o)).
      { destruct Hnot as (z & Hz & Hnz). specialize (Hdet z Hz). apply in_app_or in Hdet.
        destruct Hdet as [Hdet|[<-|[]]]; [contradiction|assumption]. }
      assert (Hcons : two -> In (mm_cons mm) (dget_or (i_cons i) x [])).
      { intros Htw. change (i_cons i) with (u_cons u). apply (ui_cons _ _ _ _ Hu). split; [|split; [|split]].
        - rewrite made_cons. apply in_or_app. right. apply oc_In. eauto.
        - unfold is_ad. now rewrite (oc_expr o mm Hom).
        - destruct Htw as (p & q & Hpq & Hp & Hq). apply (oc_vars o mm p Hom) in Hp. apply (oc_vars o mm q Hom) in Hq.
          destruct (c_vars (mm_cons mm)) as [|c1 [|c2 cr]]; [contradiction| |discriminate].
          intros _. destruct Hp as [<-|[]], Hq as [<-|[]]. contradiction.
        - now apply (oc_vars o mm x Hom). }
      assert (Hentry : forall v, In v d -> fits ys0 (s ++ [(x, v)])).
      { intros v Hvd. unfold fits. destruct (last_solution ys0) as [t|] eqn:El; [|exact Logic.I]. intros a0 b Ha Hb.
        destruct Ht2 as [Htw|[-> _]]; [|discriminate].
        destruct (Hdin v Hvd) as [_ Hacc]. apply accept_passed in Hacc. rewrite passed_iff in Hacc. destruct Hacc as [_ Hacc].
        destruct (Hset v) as (_ & Eset & _). rewrite Eset in Hacc.
        assert (Hce : ceval w2 (mm_cons mm) (s ++ [(x, v)]) = Ok true).
        { apply Hacc; [now apply Hcons|]. intros z Hz. rewrite Hk1. apply Hdet. now apply (oc_vars o mm z Hom). }
        rewrite (Inv_objective ys0 w2 o mm _ b HI Hom Hf Hb) in Hce. injection Hce as Hce.
        destruct HI as (_ & _ & _ & Hst & _). unfold state in Hst. rewrite El in Hst. destruct (Hst o mm Hom) as [E0 Ev].
        rewrite E0 in Hce. cbn in Hce. apply betterb_spec in Hce.
        assert (a0 = w_par w2 (mm_bound mm)) by (unfold value_of in Ha; congruence). subst. now apply Hbetter. }
      assert (Hmono : forall v v' a b, In v d -> before d v v' ->
                value_of ps0 o (s ++ [(x, v)]) a -> value_of ps0 o (s ++ [(x, v')]) b -> ok b a).
      { intros v v' a0 b Hvd Hbef Ha Hb.
        assert (Hbd : before dd v v').
        { rewrite (filterM_filter _ _ _ Ef) in Hbef. apply before_filter in Hbef. rewrite <- Hdom in Hbef.
          pose proof Hdd as Hdd'. apply pure_dget in Hdd'; [|assumption].
          destruct (ui_doms _ _ _ _ Hu x dd Hdd') as (g & Hg & _). unfold dom, dget_or in Hbef. cbn [i i_doms] in Hbef.
          rewrite Hg in Hbef. now apply before_filter in Hbef. }
        assert (Hval : forall t, evaluate ps0 ((x, t) :: s) (o_expr o) = evaluate ps0 (s ++ [(x, t)]) (o_expr o)).
        { intros t. apply evaluate_agree. intros z _. destruct (Hset t) as (Hx & _). rewrite dget_app. cbn.
          destruct (String.eqb_spec z x) as [->|Hz].
          - apply dget_None in Hx. rewrite Hx. reflexivity.
          - destruct (dget s z); reflexivity. }
        apply (Halong s x dd v v' a0 b); try assumption.
        - now apply made_variable.
        - unfold value_of. now rewrite Hval.
        - unfold value_of. now rewrite Hval. }
      assert (Hloop : forall d0 d' k w3 ys w' r ys1, d = d0 ++ d' -> chain Rel (ys0 ++ ys1) ->
        (ys1 = [] \/ exists t v, last_solution ys1 = Some t /\ In v d0 /\ same_value (s ++ [(x, v)]) t) ->
        values (fun k w v => search i cons rest k w (dset s x v)) d' k w3 = (ys, w', r) ->
        chain Rel (ys0 ++ ys1 ++ ys)).
      { clear H k ys w' r. intros d0 d'. revert d0.
        induction d' as [|v d' IHd]; intros d0 k w3 ys w' r ys1 Ed Hc1 Hlast H; cbn [values] in H.
        - injection H as <- <- <-. now rewrite app_nil_r.
        - destruct (search i cons rest k w3 (dset s x v)) as [[ysa wa] ra] eqn:Es2.
          destruct (Hset v) as (Hx & Eset & Hnd'). rewrite Eset in Es2, Hnd'.
          assert (Hvd : In v d) by (rewrite Ed; apply in_or_app; right; now left).
          assert (Hfit : fits (ys0 ++ ys1) (s ++ [(x, v)])).
          { destruct Hlast as [->|(t & v0 & El & Hv0 & Hsv)]; [rewrite app_nil_r; now apply Hentry|].
            unfold fits. rewrite last_solution_app, El. intros a0 b Ha Hb. apply Hsv in Ha.
            apply (Hmono v0 v a0 b); try assumption; [rewrite Ed; apply in_or_app; now left|].
            rewrite Ed. now apply (before_mid d0 v0 (v :: d') v d'). }
          destruct (search_level rest k w3 (s ++ [(x, v)]) ysa wa ra (ys0 ++ ys1) Hnd' (fun z Hz => Hxs z (or_intror Hz)))
            as [Hca Hsv]; try assumption.
          { intros z Hz. rewrite Hk1. now apply Hdet. }
          destruct ra as [ka|ex].
          + destruct (values (fun k w v => search i cons rest k w (dset s x v)) d' ka wa) as [[ysb wb] rb] eqn:Ev.
            injection H as <- <- <-. rewrite <- (app_assoc ys0) in Hca.
            specialize (IHd (d0 ++ [v]) ka wa ysb wb rb (ys1 ++ ysa)). rewrite <- !app_assoc in IHd.
            apply IHd; [exact Ed|exact Hca| |exact Ev].
            destruct (last_solution ysa) as [t|] eqn:El.
            * right. exists t, v. rewrite last_solution_app, El. split; [reflexivity|]. split; [apply in_or_app; right; now left|].
              apply Hsv. now apply last_solution_In.
            * assert (ysa = []) as ->. { destruct ysa as [|ya ysa]; [reflexivity|]. cbn in El. destruct (last_solution ysa); discriminate. }
              rewrite app_nil_r. destruct Hlast as [->|(t & v0 & El' & Hv0 & Hsv0)]; [now left|]. right. exists t, v0.
              split; [exact El'|]. split; [apply in_or_app; now left|exact Hsv0].
          + injection H as <- <- <-. now rewrite app_assoc. }
      specialize (Hloop [] d k w2 ys w' r [] eq_refl). rewrite app_nil_r in Hloop. apply Hloop; auto.
    + (* still undetermined *)
      assert (Hund : exists z, occurs z (o_expr o) /\ ~ In z (dkeys s ++ [x])).
      { assert (Hex : exists z, In z (vars (o_expr o)) /\ memb z (dkeys s ++ [x]) = false).
        { clear - Eall. induction (vars (o_expr o)) as [|z l IHl]; [discriminate|]. cbn in Eall.
          destruct (memb z (dkeys s ++ [x])) eqn:Em; [|exists z; split; [now left|exact Em]].
          destruct (IHl Eall) as (z' & H1 & H2). exists z'. split; [now right|exact H2]. }
        destruct Hex as (z & Hz & Em). exists z. split; [now apply vars_occurs|]. intros Hzin. apply memb_In in Hzin. congruence. }
      assert (Htw : two).
      { destruct Ht2 as [|[_ (x' & rest' & E & Hlead)]]; [assumption|]. exfalso. injection E as <- <-.
        destruct Hund as (z & Hz & Hnz). apply Hnz. rewrite (Hlead z Hz). apply in_or_app. right. now left. }
      clear Ef Hdin Ht2. revert k w2 ys ys0 HI Hc H.
      induction d as [|v d IHd]; intros k w2 ys ys0 HI Hc H; cbn [values] in H.
      { injection H as <- <- <-. now rewrite app_nil_r. }
      destruct (search i cons rest k w2 (dset s x v)) as [[ysa wa] ra] eqn:Es2.
      destruct (Hset v) as (Hx & Eset & Hnd'). rewrite Eset in Es2, Hnd'.
      assert (Hca : chain Rel (ys0 ++ ysa)).
      { eapply (IH k w2 (s ++ [(x, v)])); try eassumption.
        - intros z Hz. apply Hxs. now right.
        - apply Hsx. now left.
        - intros z Hz. rewrite Hk1, <- app_assoc. now apply Hall.
        - destruct Hund as (z & Hz & Hnz). exists z. split; [exact Hz|]. now rewrite Hk1.
        - now left. }
      destruct ra as [ka|ex].
      * destruct (values (fun k w v => search i cons rest k w (dset s x v)) d ka wa) as [[ysb wb] rb] eqn:Ev.
        injection H as <- <- <-. rewrite app_assoc.
        destruct (search_trace i cons Inv Inv_step rest k w2 (s ++ [(x, v)]) ysa wa (Ok ka) ys0 Hnd') as (_ & HIa & _).
        { intros z Hz. apply Hin, Hxs. now right. }
        { exact HI. }
        { exact Es2. }
        apply (IHd (fun t Ht => Hdecl t (or_intror Ht)) (fun t Ht => Hsx t (or_intror Ht)) ka wa ysb (ys0 ++ ysa)); auto.
      * injection H as <- <- <-. exact Hca.
Qed.

Lemma opt_chain ys w' r : search i cons order 0 w1 [] = (ys, w', r) -> chain Rel ys.
Proof.
  intros H. destruct opt_setup as (_ & _ & _ & _ & Hnd & Hin).
  destruct (forallb (fun z => memb z order) (vars (o_expr o))) eqn:Eall.
  - rewrite forallb_forall in Eall. apply (search_chain order 0 w1 [] ys w' r []); try assumption.
    + auto.
    + intros x v [].
    + intros x Hx. cbn. apply vars_occurs, Eall in Hx. now apply memb_In in Hx.
    + destruct Hsome as (x & Hx). exists x. split; [exact Hx|]. intros [].
    + destruct Htwo; auto.
    + exact Inv_init.
    + exact Logic.I.
  - (* the objective never has a value *)
    assert (Hex : exists z, In z (vars (o_expr o)) /\ memb z order = false).
    { clear - Eall. induction (vars (o_expr o)) as [|z l IHl]; [discriminate|]. cbn in Eall.
      destruct (memb z order) eqn:Em; [|exists z; split; [now left|exact Em]].
      destruct (IHl Eall) as (z' & H1 & H2). exists z'. split; [now right|exact H2]. }
    destruct Hex as (z & Hz & Em). apply vars_occurs in Hz.
    assert (Hno : forall y v, In y ys -> ~ value_of ps0 o y v).
    { intros y v Hy Hval. destruct (search_extends order 0 w1 [] ys w' r Hnd Hin H y Hy) as (l & -> & El). cbn in Hval.
      assert (~ In z (dkeys l)). { unfold dkeys. rewrite El. intros Hzin. apply memb_In in Hzin. congruence. }
      apply (evaluate_occurs ps0 l (o_expr o) v z Hval) in Hz. contradiction. }
    clear - Hno. induction ys as [|y ys IH]; [exact Logic.I|]. destruct ys as [|y' ys]; [exact Logic.I|]. split.
    + intros a b Ha. exfalso. apply (Hno y a); [now left|exact Ha].
    + apply IH. intros t v Ht. apply Hno. now right.
Qed.

End Chain.

End Loop.

End Made.

End Opt.
