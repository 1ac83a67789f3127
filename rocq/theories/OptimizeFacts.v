(** The auxiliary parameters and constraints created by [optimize], and what the loop over
    the solutions does to them. *)
From Verif Require Import Optimize SpecFormula SpecSafe SpecSolve SpecOptimize Dec DecFacts ExprFacts DictFacts ModelFacts
  CompileFacts CodeFacts SearchFacts LoopFacts EnumFacts SetupFacts SolveFacts MasterFacts.
Open Scope list_scope.
Open Scope Z_scope.

(** ** Evaluation depends on the parameters of the expression only *)

Lemma evaluate_params ps ps' s e : (forall p, In p (params e) -> ps p = ps' p) -> evaluate ps s e = evaluate ps' s e.
Proof.
  induction e as [z|y|p y|e IH|e IH|e IH|o l r IHl IHr|es c IH|es c IH] using expr_ind'; intros H; try reflexivity.
  - simpl. rewrite H; [reflexivity|now left].
  - simpl. now rewrite IH.
  - simpl. now rewrite IH.
  - simpl. now rewrite IH.
  - simpl. rewrite IHl, IHr; [reflexivity| |]; intros p Hp; apply H; simpl; apply in_or_app; auto.
  - cbn [evaluate]. cbn [params] in H. revert c. induction es as [|e es IHes]; intros c; [reflexivity|].
    inversion IH; subst. rewrite H2 by (intros p Hp; apply H; simpl; apply in_or_app; auto).
    destruct (evaluate ps' s e); [|reflexivity]. cbn [bind]. apply IHes; [assumption|].
    intros p Hp. apply H. simpl. apply in_or_app. auto.
  - cbn [evaluate]. cbn [params] in H. revert c. induction es as [|e es IHes]; intros c; [reflexivity|].
    inversion IH; subst. rewrite H2 by (intros p Hp; apply H; simpl; apply in_or_app; auto).
    destruct (evaluate ps' s e); [|reflexivity]. cbn [bind]. apply IHes; [assumption|].
    intros p Hp. apply H. simpl. apply in_or_app. auto.
Qed.

(** ** Creating the constraints *)

(** [op(expression, bound)]. *)
Definition bound_cmp (o : objective) (b : expr) : expr :=
  match o_expr o with
  | Var x => Bin (if o_max o then OLt else OGt) b (Var x)
  | e => Bin (if o_max o then OGt else OLt) e b
  end.
Definition bound_expr (o : objective) (ns : nat) (x : name) (b : nat) (y : name) : expr :=
  Bin OOr (Param ns x) (bound_cmp o (Param b y)).

Lemma bound_expression_spec o ns x b y :
  bound_expression o (Param ns x) (Param b y) = Ok (OExpr (bound_expr o ns x b y)).
Proof.
  unfold bound_expression, bound_expr, bound_cmp. destruct o as [e []]; cbn [o_expr o_max];
    destruct e; reflexivity.
Qed.

Definition auto_p (w : world) : name := ("_p" ++ str_nat (length (m_vars (w_model w))))%string.

Lemma numbered_fresh w : numbered (w_model w) -> ~ In (auto_p w) (map fst (m_vars (w_model w))).
Proof.
  intros Hn Hin. apply (Hn (length (m_vars (w_model w)))) in Hin; [lia|]. right. reflexivity.
Qed.

Lemma str_app_inj a k k' : (a ++ str_nat k = a ++ str_nat k')%string -> k = k'.
Proof.
  intros H. apply str_nat_inj. induction a as [|c a IH]; [exact H|]. simpl in H. inversion H. auto.
Qed.

Definition extends (w w' : world) (aux : dict vinfo) : Prop :=
  w_model w' = Model (m_vars (w_model w) ++ aux) (m_cons (w_model w)) (m_solvable (w_model w)) /\
  (forall x i, In (x, i) aux -> exists p, i = VPar p /\ (w_npar w <= p < w_npar w')%nat) /\
  (w_npar w <= w_npar w')%nat /\ (w_ncon w <= w_ncon w')%nat /\
  (forall p, (p < w_npar w)%nat -> w_par w' p = w_par w p) /\
  (forall id, (id < w_ncon w)%nat -> w_code w' id = w_code w id).

Lemma extends_refl w : extends w w [].
Proof.
  repeat split; auto; [|intros x i []]. rewrite app_nil_r. destruct (w_model w); reflexivity.
Qed.

Lemma extends_trans w1 w2 w3 a b : extends w1 w2 a -> extends w2 w3 b -> extends w1 w3 (a ++ b).
Proof.
  intros (A1 & A2 & A3 & A4 & A5 & A6) (B1 & B2 & B3 & B4 & B5 & B6). repeat split; try lia.
  - rewrite B1, A1. cbn. now rewrite app_assoc.
  - intros x i Hin. apply in_app_or in Hin. destruct Hin as [Hin|Hin].
    + destruct (A2 x i Hin) as (p & -> & Hp). exists p. split; [reflexivity|lia].
    + destruct (B2 x i Hin) as (p & -> & Hp). exists p. split; [reflexivity|lia].
  - intros p Hp. rewrite B5 by lia. now apply A5.
  - intros id Hid. rewrite B6 by lia. now apply A6.
Qed.

Lemma add_parameter_auto v w : numbered (w_model w) ->
  add_parameter v None w =
    (World (upd (w_par w) (w_npar w) v) (w_code w) (S (w_npar w)) (w_ncon w)
       (Model (m_vars (w_model w) ++ [(auto_p w, VPar (w_npar w))]) (m_cons (w_model w)) (m_solvable (w_model w))),
     Ok (Param (w_npar w) (auto_p w))).
Proof.
  intros Hn. unfold add_parameter, choose_name. fold (auto_p w).
  rewrite dset_new by (now apply numbered_fresh). reflexivity.
Qed.

Lemma numbered_snoc m i x : numbered m ->
  x = ("_p" ++ str_nat (length (m_vars m)))%string ->
  numbered (Model (m_vars m ++ [(x, i)]) (m_cons m) (m_solvable m)).
Proof.
  intros Hn -> k y Hin Hy. cbn [m_vars] in *. rewrite map_app in Hin. rewrite app_length. cbn [length].
  apply in_app_or in Hin. destruct Hin as [Hin|[E|[]]].
  - specialize (Hn k y Hin Hy). lia.
  - cbn [fst] in E. subst y. destruct Hy as [Hy|Hy].
    + simpl in Hy. discriminate.
    + apply str_app_inj in Hy. lia.
Qed.

Lemma well_named_snoc m i : numbered m -> well_named m ->
  well_named (Model (m_vars m ++ [(("_p" ++ str_nat (length (m_vars m)))%string, i)]) (m_cons m) (m_solvable m)).
Proof.
  intros Hn [H1 H2]. split; cbn [m_vars]; rewrite map_app; cbn [map fst].
  - apply (NoDup_Add (Add_app _ (map fst (m_vars m)) [])). rewrite app_nil_r. split; [assumption|].
    intros Hin. apply (Hn (length (m_vars m))) in Hin; [lia|]. now right.
  - intros x Hin. apply in_app_or in Hin. destruct Hin as [Hin|[<-|[]]]; [now apply H2|]. right. eauto.
Qed.

Record mshape (o : objective) (m : minmax) : Prop := MShape {
  ms_body : exists x y, c_body (mm_cons m) = CExpr (bound_expr o (mm_not_set m) x (mm_bound m) y)
}.

Lemma make_constraint_spec o w : numbered (w_model w) ->
  exists w', make_constraint o w =
      (w', Ok (MinMax (Constraint (w_ncon w) (CExpr (bound_expr o (w_npar w) (auto_p w) (S (w_npar w))
                 ("_p" ++ str_nat (S (length (m_vars (w_model w)))))%string))) (w_npar w) (S (w_npar w)))) /\
    (exists aux, extends w w' aux /\ length aux = 2%nat) /\ numbered (w_model w') /\
    (well_named (w_model w) -> well_named (w_model w')) /\
    w_npar w' = S (S (w_npar w)) /\ w_ncon w' = S (w_ncon w) /\
    w_par w' (w_npar w) = 1 /\ w_code w' (w_ncon w) = None.
Proof.
  intros Hn. unfold make_constraint. rewrite add_parameter_auto by assumption.
  set (w1 := World (upd (w_par w) (w_npar w) 1) _ _ _ _).
  assert (Hn1 : numbered (w_model w1)) by (apply numbered_snoc; [assumption|reflexivity]).
  rewrite add_parameter_auto by assumption.
  set (w2 := World (upd (w_par w1) (w_npar w1) 0) _ _ _ _).
  assert (Hn2 : numbered (w_model w2)) by (apply numbered_snoc; [assumption|reflexivity]).
  assert (E1 : auto_p w1 = ("_p" ++ str_nat (S (length (m_vars (w_model w)))))%string).
  { unfold auto_p, w1. cbn [w_model m_vars]. rewrite app_length. cbn [length]. now rewrite Nat.add_1_r. }
  rewrite bound_expression_spec, E1. cbn [new_constraint]. eexists. split; [reflexivity|].
  cbn [w_model w_npar w_ncon w_par w_code].
  split; [|split; [exact Hn2|split; [|split; [reflexivity|split; [reflexivity|split; [|apply upd_same]]]]]].
  - exists [(auto_p w, VPar (w_npar w)); (auto_p w1, VPar (w_npar w1))]. split; [|reflexivity].
    repeat split; cbn [w_model w_npar w_ncon w_par w_code m_vars m_cons m_solvable w1 w2]; try lia.
    + now rewrite <- app_assoc.
    + intros x i [E|[E|[]]]; injection E as <- <-; eexists; (split; [reflexivity|]); cbn; lia.
    + intros p Hp. rewrite !upd_other by lia. reflexivity.
    + intros id Hid. rewrite upd_other by lia. reflexivity.
  - intros Hw. apply well_named_snoc; [exact Hn1|]. apply well_named_snoc; assumption.
  - cbn [w1 w2 w_par w_npar]. rewrite upd_other by lia. apply upd_same.
Qed.

(** The objectives among the arguments. *)
Definition aux_params (m : minmax) : list nat := [mm_not_set m; mm_bound m].

Record made (w w' : world) (oms : list (objective * minmax)) : Prop := Made {
  md_shape : forall o m, In (o, m) oms -> mshape o m;
  md_ids : forall o m, In (o, m) oms -> (w_ncon w <= c_id (mm_cons m) < w_ncon w')%nat;
  md_pars : forall o m p, In (o, m) oms -> In p (aux_params m) -> (w_npar w <= p < w_npar w')%nat;
  md_nodup_ids : NoDup (map (fun om => c_id (mm_cons (snd om))) oms);
  md_nodup_pars : NoDup (flat_map (fun om => aux_params (snd om)) oms);
  md_unset : forall o m, In (o, m) oms -> w_par w' (mm_not_set m) = 1;
  md_code : forall o m, In (o, m) oms -> w_code w' (c_id (mm_cons m)) = None
}.

Lemma make_constraints_spec os : forall w w' r, numbered (w_model w) ->
  make_constraints os w = (w', r) ->
  (exists aux, extends w w' aux /\ (length aux <= 2 * length os)%nat) /\ numbered (w_model w') /\
  (well_named (w_model w) -> well_named (w_model w')) /\
  match r with
  | Ok oms => os = map (fun om => OObj (fst om)) oms /\ made w w' oms
  | Err ex => ex = ValueError /\ In OOther os
  end.
Proof.
  induction os as [|[o|] os IH]; intros w w' r Hn H; cbn [make_constraints] in H.
  - injection H as <- <-. split; [exists []; split; [apply extends_refl|cbn; lia]|]. split; [assumption|]. split; [auto|].
    split; [reflexivity|]. constructor; cbn; try constructor; intros; contradiction.
  - destruct (make_constraint_spec o w Hn) as (w1 & E & (aux1 & Hx1 & Hl1) & Hn1 & Hw1 & Hp1 & Hc1 & Hu1 & Hk1).
    rewrite E in H. clear E.
    destruct (make_constraints os w1) as [w2 r2] eqn:E2.
    destruct (IH w1 w2 r2 Hn1 E2) as ((aux2 & Hx2 & Hl2) & Hn2 & Hw2 & Hr2).
    assert (Hw' : w' = w2) by (destruct r2; now injection H). subst w2.
    split; [exists (aux1 ++ aux2); split; [eapply extends_trans; eassumption|rewrite app_length; cbn [length]; lia]|].
    split; [assumption|]. split; [auto|].
    destruct r2 as [oms|ex]; injection H as <-.
    + destruct Hr2 as [-> M]. split; [reflexivity|].
      destruct Hx2 as (_ & _ & Hx3 & Hx4 & Hx5 & Hx6). constructor; cbn [In map flat_map snd].
      * intros o' m [E|Hin]; [injection E as <- <-; constructor; cbn; eauto|now apply (md_shape _ _ _ M)].
      * intros o' m [E|Hin]; [injection E as <- <-; cbn; lia|pose proof (md_ids _ _ _ M o' m Hin); lia].
      * intros o' m p [E|Hin] Hp; [injection E as <- <-; cbn in Hp; destruct Hp as [<-|[<-|[]]]; lia|].
        pose proof (md_pars _ _ _ M o' m p Hin Hp). lia.
      * constructor; [|apply (md_nodup_ids _ _ _ M)]. intros Hin. apply in_map_iff in Hin.
        destruct Hin as ((o' & m) & E & Hin). cbn in E. pose proof (md_ids _ _ _ M o' m Hin). lia.
      * assert (Hlow : forall p, In p (flat_map (fun om => aux_params (snd om)) oms) -> (w_npar w1 <= p)%nat).
        { intros p Hp. apply in_flat_map in Hp. destruct Hp as ((o' & m) & Hin & Hp). now apply (md_pars _ _ _ M o' m p Hin Hp). }
        cbn [app aux_params mm_not_set mm_bound]. constructor; [|constructor; [|apply (md_nodup_pars _ _ _ M)]].
        -- intros [E|Hin]; [lia|]. apply Hlow in Hin. lia.
        -- intros Hin. apply Hlow in Hin. lia.
      * intros o' m [E|Hin]; [injection E as <- <-; cbn [mm_not_set]; rewrite Hx5 by lia; assumption|now apply (md_unset _ _ _ M o')].
      * intros o' m [E|Hin]; [injection E as <- <-; cbn [mm_cons c_id]; rewrite Hx6 by lia; assumption|now apply (md_code _ _ _ M o')].
    + destruct Hr2 as [-> Hin]. split; [reflexivity|now right].
  - injection H as <- <-. split; [exists []; split; [apply extends_refl|cbn; lia]|]. split; [assumption|]. split; [auto|].
    split; [reflexivity|now left].
Qed.

(** ** The loop over the solutions *)

(** The expression of a MinMaxConstraint. *)
Definition mm_expr (m : minmax) : expr := match c_body (mm_cons m) with CExpr e => e | _ => Const 0 end.

(** The compiled function, if any, corresponds to the current values of the parameters. *)
Definition coherent (cmp : bool) (w : world) (m : minmax) : Prop :=
  match w_code w (c_id (mm_cons m)) with
  | None => cmp = false
  | Some f => cmp = true /\ exists ps, (forall p, In p (params (mm_expr m)) -> ps p = w_par w p) /\
                                      f = as_function ps (mm_expr m)
  end.

Definition same_except (w w' : world) (ps ids : list nat) : Prop :=
  w_model w' = w_model w /\ w_npar w' = w_npar w /\ w_ncon w' = w_ncon w /\
  (forall p, ~ In p ps -> w_par w' p = w_par w p) /\
  (forall id, ~ In id ids -> w_code w' id = w_code w id).

Lemma same_except_trans w1 w2 w3 ps ids ps' ids' :
  same_except w1 w2 ps ids -> same_except w2 w3 ps' ids' -> same_except w1 w3 (ps ++ ps') (ids ++ ids').
Proof.
  intros (A1 & A2 & A3 & A4 & A5) (B1 & B2 & B3 & B4 & B5). repeat split; try congruence.
  - intros p Hp. rewrite B4, A4; [reflexivity| |]; intros Hin; apply Hp, in_or_app; auto.
  - intros p Hp. rewrite B5, A5; [reflexivity| |]; intros Hin; apply Hp, in_or_app; auto.
Qed.

Lemma set_bound_spec w m v o : mshape o m ->
  same_except w (set_bound w m v) (aux_params m) [c_id (mm_cons m)] /\
  (mm_not_set m <> mm_bound m -> w_par (set_bound w m v) (mm_not_set m) = 0) /\
  w_par (set_bound w m v) (mm_bound m) = v /\
  (forall cmp, coherent cmp w m -> coherent cmp (set_bound w m v) m).
Proof.
  intros [(x & y & Eb)].
  set (w1 := set_param (set_param w (mm_not_set m) 0) (mm_bound m) v).
  assert (Hp : w_par (set_bound w m v) = w_par w1).
  { unfold set_bound. fold w1. destruct (w_code w1 _); [|reflexivity]. unfold ccompile. destruct (c_body (mm_cons m)); reflexivity. }
  split; [|split; [|split]].
  - repeat split.
    + unfold set_bound. fold w1. destruct (w_code w1 _); [|reflexivity]. now rewrite ccompile_model.
    + unfold set_bound. fold w1. destruct (w_code w1 _); [|reflexivity]. unfold ccompile. rewrite Eb. reflexivity.
    + unfold set_bound. fold w1. destruct (w_code w1 _); [|reflexivity]. unfold ccompile. rewrite Eb. reflexivity.
    + intros p Hin. rewrite Hp. unfold w1. cbn. rewrite !upd_other; [reflexivity| |]; intros ->; apply Hin; cbn; auto.
    + intros id Hin. unfold set_bound. fold w1. destruct (w_code w1 _) as [f|]; [|reflexivity].
      unfold ccompile. rewrite Eb. cbn [w_code]. rewrite upd_other; [reflexivity|]. intros ->. apply Hin. now left.
  - intros Hne. rewrite Hp. unfold w1. cbn. rewrite upd_other by assumption. apply upd_same.
  - rewrite Hp. unfold w1. cbn. apply upd_same.
  - intros cmp Hc. unfold coherent in *. unfold set_bound. fold w1.
    change (w_code w1) with (w_code w).
    destruct (w_code w (c_id (mm_cons m))) as [f|] eqn:Ec.
    + destruct Hc as [-> _]. unfold ccompile. rewrite Eb. cbn [w_code w_par]. rewrite upd_same. split; [reflexivity|].
      exists (w_par w1). split; [reflexivity|]. unfold mm_expr. now rewrite Eb.
    + change (w_code w1) with (w_code w). rewrite Ec. exact Hc.
Qed.

Lemma bound_params o ns x b y p : In p (params (bound_expr o ns x b y)) ->
  p = ns \/ p = b \/ In p (params (o_expr o)).
Proof.
  unfold bound_expr, bound_cmp. cbn [params]. intros H. apply in_app_or in H. destruct H as [[H|[]]|H]; [auto|].
  destruct o as [e mx]. cbn [o_expr] in *.
  assert (Hgen : In p (params e ++ [b]) \/ In p ([b] ++ params e)) by (destruct e; auto).
  destruct Hgen as [Hgen|Hgen]; apply in_app_or in Hgen; destruct Hgen as [Hg|Hg]; auto; destruct Hg as [Hg|[]]; auto.
Qed.

Lemma mshape_expr o m : mshape o m -> exists x y, mm_expr m = bound_expr o (mm_not_set m) x (mm_bound m) y.
Proof. intros [(x & y & E)]. exists x, y. unfold mm_expr. now rewrite E. Qed.

(** What one round of [add_solution] calls does; [n0] separates the old parameters from
    the auxiliary ones. *)
Section Rounds.
Variable n0 : nat.
Variable ps0 : pstore.

Definition good (oms : list (objective * minmax)) : Prop :=
  (forall o m, In (o, m) oms -> mshape o m) /\
  (forall o m p, In (o, m) oms -> In p (params (o_expr o)) -> (p < n0)%nat) /\
  (forall o m p, In (o, m) oms -> In p (aux_params m) -> (n0 <= p)%nat) /\
  NoDup (map (fun om => c_id (mm_cons (snd om))) oms) /\
  NoDup (flat_map (fun om => aux_params (snd om)) oms).

Definition old (w : world) : Prop := forall p, (p < n0)%nat -> w_par w p = ps0 p.

Lemma old_value o m oms w s : good oms -> In (o, m) oms -> old w -> evaluate (w_par w) s (o_expr o) = evaluate ps0 s (o_expr o).
Proof.
  intros (_ & Hk & _) Hin Ho. apply evaluate_params. intros p Hp. apply Ho. eapply Hk; eauto.
Qed.

Lemma coherent_other cmp w w' m o ps ids :
  mshape o m -> same_except w w' ps ids -> ~ In (c_id (mm_cons m)) ids ->
  (forall p, In p ps -> ~ In p (aux_params m) /\ ~ In p (params (o_expr o))) ->
  coherent cmp w m -> coherent cmp w' m.
Proof.
  intros Hs (_ & _ & _ & Hp & Hc) Hid Hps. unfold coherent. rewrite Hc by assumption.
  destruct (w_code w (c_id (mm_cons m))) as [f|]; [|auto]. intros [-> (ps1 & H1 & ->)]. split; [reflexivity|].
  exists ps1. split; [|reflexivity]. intros p Hin. rewrite H1 by assumption. symmetry. apply Hp. intros Hinp.
  destruct (Hps p Hinp) as [Ha Hb].
  destruct (mshape_expr o m Hs) as (x & y & E). rewrite E in Hin. apply bound_params in Hin.
  destruct Hin as [->|[->|Hin]]; [apply Ha; cbn; auto|apply Ha; cbn; auto|contradiction].
Qed.

Lemma add_solutions_spec cmp oms : forall w s w', good oms -> old w ->
  add_solutions oms w s = Ok w' ->
  same_except w w' (flat_map (fun om => aux_params (snd om)) oms) (map (fun om => c_id (mm_cons (snd om))) oms) /\
  (forall o m, In (o, m) oms -> w_par w' (mm_not_set m) = 0 /\ evaluate ps0 s (o_expr o) = Ok (w_par w' (mm_bound m))) /\
  ((forall o m, In (o, m) oms -> coherent cmp w m) -> forall o m, In (o, m) oms -> coherent cmp w' m).
Proof.
  induction oms as [|[o m] oms IH]; intros w s w' Hg Ho H; cbn [add_solutions] in H.
  - injection H as <-. split; [repeat split|]. split; [intros o m []|intros _ o m []].
  - unfold add_solution in H. rewrite (old_value o m ((o, m) :: oms) w s Hg (or_introl eq_refl) Ho) in H.
    destruct (evaluate ps0 s (o_expr o)) as [v|] eqn:Ev; [|discriminate]. cbn [bind] in H.
    pose proof Hg as (G1 & G2 & G3 & G4 & G5).
    pose proof (G1 o m (or_introl eq_refl)) as Hs.
    destruct (set_bound_spec w m v o Hs) as (S1 & S2 & S3 & S4).
    set (w1 := set_bound w m v) in *.
    assert (Ho1 : old w1).
    { intros p Hp. destruct S1 as (_ & _ & _ & S1 & _). rewrite S1; [now apply Ho|]. intros Hin.
      pose proof (G3 o m p (or_introl eq_refl) Hin). lia. }
    assert (Hg1 : good oms).
    { cbn in G4, G5. apply NoDup_cons_iff in G4. apply NoDup_cons_iff in G5. destruct G5 as [_ G5].
      apply NoDup_cons_iff in G5. split; [|split; [|split; [|split]]].
      - intros o' m' Hin. apply G1. now right.
      - intros o' m' p Hin. apply (G2 o' m' p). now right.
      - intros o' m' p Hin. apply (G3 o' m' p). now right.
      - apply G4.
      - apply G5. }
    assert (Hne : mm_not_set m <> mm_bound m).
    { cbn in G5. apply NoDup_cons_iff in G5. destruct G5 as [G5 _]. intros E. apply G5. left. now symmetry. }
    assert (Hfar : forall p, In p (aux_params m) -> ~ In p (flat_map (fun om => aux_params (snd om)) oms)).
    { cbn in G5. apply NoDup_cons_iff in G5. destruct G5 as [G5 G6]. apply NoDup_cons_iff in G6. destruct G6 as [G6 _].
      intros p [<-|[<-|[]]]; [|assumption]. intros Hin. apply G5. now right. }
    assert (Hfid : ~ In (c_id (mm_cons m)) (map (fun om => c_id (mm_cons (snd om))) oms)).
    { cbn in G4. apply NoDup_cons_iff in G4. apply G4. }
    destruct (IH w1 s w' Hg1 Ho1 H) as (I1 & I2 & I3).
    split; [cbn [flat_map map snd]; exact (same_except_trans _ _ _ _ _ _ _ S1 I1)|]. split.
    + intros o' m' [E|Hin]; [|now apply I2]. injection E as <- <-.
      destruct I1 as (_ & _ & _ & I1 & _). rewrite !I1 by (apply Hfar; cbn; auto). split; [now apply S2|now rewrite S3].
    + intros Hc o' m' [E|Hin].
      * injection E as <- <-. eapply coherent_other; [exact Hs|exact I1|exact Hfid| |apply S4; eapply Hc; now left].
        intros p Hp. split; [intros Ha; now apply (Hfar p)|]. intros Hp2.
        apply in_flat_map in Hp. destruct Hp as ((o2 & m2) & Hin2 & Hp).
        pose proof (G3 o2 m2 p (or_intror Hin2) Hp). pose proof (G2 o m p (or_introl eq_refl) Hp2). lia.
      * refine (I3 _ o' m' Hin). intros o2 m2 Hin2.
        eapply coherent_other; [exact (G1 o2 m2 (or_intror Hin2))|exact S1| | |apply (Hc o2); now right].
        -- intros [E|[]]. apply Hfid. rewrite E. apply in_map_iff. exists (o2, m2). auto.
        -- intros p Hp. split.
           ++ intros Hp2. apply (Hfar p Hp). apply in_flat_map. exists (o2, m2). auto.
           ++ intros Hp2. pose proof (G3 o m p (or_introl eq_refl) Hp). pose proof (G2 o2 m2 p (or_intror Hin2) Hp2). lia.
Qed.

End Rounds.
