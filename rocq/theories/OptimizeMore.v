(** Consequences for [optimal_solution]; the state left behind; reachable settings. *)
From Coq Require Import Permutation.
From Verif Require Import Dec DecFacts Optimize SpecFormula SpecSafe SpecSolve SpecOptimize ExprFacts DictFacts ModelFacts
  CompileFacts CodeFacts SearchFacts LoopFacts EnumFacts HistoryFacts SetupFacts SolveFacts MasterFacts SolverProps SolverMore
  TraceFacts OptimizeFacts OptimizeRun OptimizeProps.
Open Scope list_scope.
Open Scope Z_scope.

(** ** Reachable settings *)

Lemma numbered_reachable h : numbered (w_model (run_history h init_world)).
Proof.
  intros k x Hin Hx. destruct (inv_reachable h) as (_ & H & _). specialize (H x Hin).
  destruct H as [H|(j & Hj & E)].
  - destruct Hx as [-> | ->]; cbn in H; discriminate.
  - assert (k = j); [|subst; exact Hj].
    destruct Hx as [-> | ->], E as [E|E]; cbn in E; try discriminate; inversion E as [E']; now apply str_nat_inj in E'.
Qed.

Definition known_state (w : world) : Prop := known w (m_cons (w_model w)).

Lemma known_mono w w' cs : known w cs -> (w_npar w <= w_npar w')%nat -> (w_ncon w <= w_ncon w')%nat -> known w' cs.
Proof.
  intros H H1 H2 c Hc. destruct (H c Hc) as [H3 H4]. split; [lia|]. intros e He p Hp. specialize (H4 e He p Hp). lia.
Qed.

Lemma known_add_obj w c : known_state w -> (c_id c < w_ncon w)%nat -> known_body w (c_body c) ->
  known_state (fst (add_constraint_obj c w)).
Proof.
  intros Hk H1 H2. unfold add_constraint_obj.
  assert (Happ : forall b, known_state (set_model w (Model (m_vars (w_model w)) (m_cons (w_model w) ++ [c]) b))).
  { intros b c' Hin. cbn in Hin. apply in_app_or in Hin. destruct Hin as [Hin|[<-|[]]]; [exact (Hk c' Hin)|]. split; [exact H1|exact H2]. }
  destruct (c_vars c) as [|x l].
  - destruct (ceval w c []) as [[|]|]; [exact Hk| |exact Hk]. cbn [forallb]. exact (Happ false).
  - destruct (forallb _ _); [apply Happ|exact Hk].
Qed.

Lemma known_step a w : known_state w ->
  match a with
  | AddConstraint (AExpr e) => known_expr w e
  | AddConstraint (ACons c) => (c_id c < w_ncon w)%nat /\ known_body w (c_body c)
  | _ => True
  end -> known_state (fst (run_api a w)).
Proof.
  intros Hk Ha.
  assert (Hnew : forall b, known_state (snd (new_constraint w b))).
  { intros b. apply (known_mono w); [exact Hk|reflexivity|cbn; lia]. }
  assert (Hint : forall d nm, known_state (fst (add_int_variable d nm w))).
  { intros d nm. unfold add_int_variable. destruct (has_dup d); [exact Hk|]. destruct (choose_name _ _ _); exact Hk. }
  destruct a as [d nm|nm|v nm|[b|e|c|]|xs|b|p v|b|c]; cbn [run_api fst drop].
  - apply Hint.
  - apply Hint.
  - unfold add_parameter. destruct (choose_name _ _ _); [|exact Hk]. apply (known_mono w); [exact Hk|cbn; lia|reflexivity].
  - apply (known_add_obj (snd (new_constraint w (CConst b))) (Constraint (w_ncon w) (CConst b))); [apply Hnew|cbn; lia|discriminate].
  - apply (known_add_obj (snd (new_constraint w (CExpr e))) (Constraint (w_ncon w) (CExpr e))); [apply Hnew|cbn; lia|].
    intros e' E. cbn in E. injection E as <-. exact Ha.
  - now apply known_add_obj.
  - exact Hk.
  - apply (known_add_obj (snd (new_constraint w (CAllDiff xs))) (Constraint (w_ncon w) (CAllDiff xs))); [apply Hnew|cbn; lia|discriminate].
  - exact Hk.
  - exact Hk.
  - apply Hnew.
  - unfold ccompile. destruct (c_body c); exact Hk.
Qed.

Lemma known_reachable h : forall w, known_state w -> informed w h -> known_state (run_history h w).
Proof.
  induction h as [|a h IH]; intros w Hk Hi; [exact Hk|]. destruct Hi as [Ha Hi]. cbn [run_history].
  apply IH; [now apply known_step|exact Hi].
Qed.

Lemma opt_valid_reachable B h shuffle e os a :
  genuine B init_world h -> informed init_world h -> e_world e = run_history h init_world ->
  (forall c, In c (x_additional a) -> B (c_id c) = c_body c) ->
  known (e_world e) (x_additional a) -> (forall o, In (OObj o) os -> known_expr (e_world e) (o_expr o)) ->
  shuffles shuffle -> opt_valid shuffle e os a.
Proof.
  intros Hg Hi He Ha Hka Hko Hs. split; [eapply valid_reachable; eauto|]. split; [rewrite He; apply numbered_reachable|].
  split; [|exact Hko]. intros c Hc. apply in_app_or in Hc. destruct Hc as [Hc|Hc]; [|now apply Hka].
  rewrite He in *. apply (known_reachable h init_world); [intros c' []|exact Hi|exact Hc].
Qed.

(** ** Termination *)

Lemma optimize_terminates clk shuffle e sv os a : opt_valid shuffle e os a ->
  exists f r, optimize_all clk shuffle f e sv os a = Some r.
Proof.
  intros Hv. unfold optimize_all. destruct (make_constraints os (e_world e)) as [wA [oms|ex]] eqn:Emk.
  - destruct (run_terminates clk shuffle (set_world e wA) sv (with_objectives a oms) (consumer_of oms)) as (f & r & E).
    + apply Hv.
    + destruct (made_facts shuffle e os a Hv wA oms Emk) as (_ & HnA & _). exact HnA.
    + exact (made_objects shuffle e os a Hv wA oms Emk).
    + exists f, r. exact E.
  - exists 0%nat. eexists. reflexivity.
Qed.

(** ** optimal_solution *)

Lemma optimal_run clk shuffle f e sv os a e' res :
  optimal_solution clk shuffle f e sv os a = Some (e', res) ->
  exists ys r, optimize_all clk shuffle f e sv os a = Some (ys, e', r) /\
    match r with
    | Some ex => res = Err ex
    | None => res = Ok (match last_solution ys, e_interrupt e' with Some _, None => true | _, _ => false end, last_solution ys)
    end.
Proof.
  unfold optimal_solution. destruct (optimize_all clk shuffle f e sv os a) as [[[ys e1] [ex|]]|]; intros H; try discriminate;
    injection H as <- <-; do 2 eexists; (split; [reflexivity|]); reflexivity.
Qed.

Lemma last_solution_None ys : last_solution ys = None -> ys = [].
Proof. destruct ys as [|y ys]; [reflexivity|]. cbn. destruct (last_solution ys); discriminate. Qed.

Section Optimal.
Variables (clk : nat -> Z) (shuffle : list name -> list name) (f : nat).
Variables (e : env) (sv : solver) (os : list oarg) (a : args) (e' : env).
Let w0 := e_world e.
Let m := w_model w0.
Let sub := all_cons m a.
Let cmp := s_compile sv.
Let ps0 := w_par w0.
Hypothesis Hv : opt_valid shuffle e os a.

Lemma optimal_feasible b s : optimal_solution clk shuffle f e sv os a = Some (e', Ok (b, Some s)) ->
  solves (evaluates_true (e_world e')) m sub s.
Proof.
  intros H. destruct (optimal_run _ _ _ _ _ _ _ _ _ H) as (ys & [ex|] & Hrun & Hr); [discriminate|].
  injection Hr as _ Hl. apply (opt_feasible clk shuffle f e sv os a ys e' None Hv Hrun). apply last_solution_In. now symmetry.
Qed.

Lemma optimal_flag b sol : optimal_solution clk shuffle f e sv os a = Some (e', Ok (b, sol)) ->
  (b = true <-> sol <> None /\ e_interrupt e' = None).
Proof.
  intros H. destruct (optimal_run _ _ _ _ _ _ _ _ _ H) as (ys & [ex|] & Hrun & Hr); [discriminate|].
  injection Hr as -> ->.
  destruct (last_solution ys), (e_interrupt e'); (split; [intros Hx; try discriminate Hx|intros [Hx Hy]; try reflexivity; try discriminate Hy]).
  - split; [discriminate|reflexivity].
  - now destruct Hx.
Qed.

Hypothesis Hf : faithful w0 cmp sub.
Hypothesis Hne : no_error ps0 m sub.
Hypothesis Hof : objective_faithful cmp os.

Lemma optimal_feasible_holds b s : optimal_solution clk shuffle f e sv os a = Some (e', Ok (b, Some s)) ->
  solves (holds ps0) m sub s.
Proof.
  intros H. destruct (optimal_run _ _ _ _ _ _ _ _ _ H) as (ys & [ex|] & Hrun & Hr); [discriminate|].
  injection Hr as _ Hl. apply (opt_feasible_holds clk shuffle f e sv os a ys e' None Hv Hrun Hf Hne).
  apply last_solution_In. now symmetry.
Qed.

Lemma optimal_none b t : optimal_solution clk shuffle f e sv os a = Some (e', Ok (b, None)) ->
  e_interrupt e' = None -> m_solvable m = true -> has_variable m ->
  solves (holds ps0) m sub t -> ~ (forall o, In (OObj o) os -> exists v, value_of ps0 o t v).
Proof.
  intros H Hi Hsol Hhv Ht Hval. destruct (optimal_run _ _ _ _ _ _ _ _ _ H) as (ys & [ex|] & Hrun & Hr); [discriminate|].
  injection Hr as _ Hl. symmetry in Hl. apply last_solution_None in Hl. subst ys.
  destruct (opt_covers clk shuffle f e sv os a [] e' None Hv Hrun Hf Hne Hof t eq_refl Hi Hsol Hhv Ht Hval)
    as [(s & [] & _)|(s & _ & _ & _ & [] & _)].
Qed.

Lemma optimal_found res : optimal_solution clk shuffle f e sv os a = Some (e', res) ->
  ~ In OOther os -> unlimited sv a -> groups_ok m sub -> objectives_total m ps0 os ->
  m_solvable m = true -> has_variable m ->
  (exists s, res = Ok (true, Some s) /\ solves (holds ps0) m sub s) \/
  (res = Ok (false, None) /\ forall t, ~ solves (holds ps0) m sub t).
Proof.
  intros H Hoo Hun Hg Htot Hsol Hhv. pose proof H as Horig.
  destruct (optimal_run _ _ _ _ _ _ _ _ _ H) as (ys & r & Hrun & Hr).
  destruct (opt_ok clk shuffle f e sv os a ys e' r Hv Hrun Hf Hne Hof Hoo Hun Hg Htot) as [-> Hi].
  rewrite Hi in Hr. subst res. destruct (last_solution ys) as [s|] eqn:El.
  - left. exists s. split; [reflexivity|]. apply (optimal_feasible_holds true s). exact Horig.
  - right. split; [reflexivity|]. intros t Ht. apply (optimal_none false t Horig Hi Hsol Hhv Ht).
    intros o Ho. destruct (Htot o Ho) as [H1 H2]. destruct (assigns_dom m t (proj1 Ht)) as [H3 _]. apply H2; [exact H3|].
    intros x Hx. destruct Ht as [(_ & Hk & _) _]. apply Hk. now apply H1.
Qed.

(** The keys of the solutions of a run. *)
Lemma opt_keys ys r : optimize_all clk shuffle f e sv os a = Some (ys, e', r) ->
  exists order, forall y, In y ys -> map fst y = order.
Proof.
  intros H. destruct (opt_run clk shuffle f e sv os a ys e' r Hv H) as [(_ & -> & _)|(wA & oms & Emk & Hany)]; [exists []; intros y []|].
  destruct (opt_loop clk shuffle e sv os a ys e' r Hv wA oms Emk Hany) as [(-> & _)|(_ & _ & u & ys0 & w' & r0 & Es & Hsearch & Hpre & _)];
    [exists []; intros y []|].
  eexists. intros y Hy.
  destruct (opt_setup shuffle e sv os a Hv wA oms Emk _ u Es) as (_ & _ & _ & _ & Hnd & Hdoms).
  destruct (search_extends oms u _ 0%nat _ [] _ _ _ Hnd Hdoms Hsearch y (prefix_In _ _ _ Hpre Hy)) as (l & -> & El). exact El.
Qed.

Lemma opt_nonempty ys r : optimize_all clk shuffle f e sv os a = Some (ys, e', r) -> ys <> [] ->
  m_solvable m = true /\ has_variable m.
Proof.
  intros H Hne'. destruct (opt_run clk shuffle f e sv os a ys e' r Hv H) as [(_ & -> & _)|(wA & oms & Emk & Hany)]; [contradiction|].
  destruct (opt_loop clk shuffle e sv os a ys e' r Hv wA oms Emk Hany) as [(-> & _)|(H1 & H2 & _)]; [contradiction|]. auto.
Qed.

(** Objectives that improve along the domains. *)
Lemma optimal_best o s : os = [OObj o] ->
  optimal_solution clk shuffle f e sv os a = Some (e', Ok (true, Some s)) ->
  improves_along m ps0 o ->
  ((forall x, ~ occurs x (o_expr o)) \/
   (exists x y, x <> y /\ occurs x (o_expr o) /\ occurs y (o_expr o)) \/
   (exists x v l, (forall z, occurs z (o_expr o) -> z = x) /\ s = (x, v) :: l)) ->
  best ps0 o (solves (holds ps0) m sub) s.
Proof.
  intros Eos H Himp Hcase. pose proof (proj1 (optimal_flag true (Some s) H) eq_refl) as [_ Hi].
  destruct (optimal_run _ _ _ _ _ _ _ _ _ H) as (ys & [ex|] & Hrun & Hr); [discriminate|].
  injection Hr as _ Hl. symmetry in Hl. pose proof (last_solution_In ys s Hl) as Hin.
  assert (Hnn : ys <> []) by (destruct ys; [contradiction|discriminate]).
  destruct (opt_nonempty ys None Hrun Hnn) as [Hsol Hhv].
  apply (opt_best clk shuffle f e sv os a ys e' None Hv Hrun Hf Hne Hof o Eos eq_refl Hi Hsol Hhv).
  assert (Hval : forall y, In y ys -> exists v, value_of ps0 o y v).
  { intros y Hy. apply (opt_values clk shuffle f e sv os a ys e' None Hv Hrun y o eq_refl Hi Hy). rewrite Eos. now left. }
  destruct (Hval s Hin) as (v & Hvs). split; [exact Hin|]. exists v. split; [exact Hvs|]. intros t u Ht Hu.
  assert (Hnov : (forall x, ~ occurs x (o_expr o)) -> ~ better o u v).
  { intros Hno. assert (u = v).
    { unfold value_of in *. rewrite (evaluate_agree ps0 t s) in Hu by (intros x Hx; now apply Hno in Hx). congruence. }
    subst. unfold better. destruct (o_max o); lia. }
  destruct (vars (o_expr o)) as [|x0 vs] eqn:Ev.
  { apply Hnov. intros x Hx. apply vars_occurs in Hx. rewrite Ev in Hx. contradiction. }
  assert (Hsome : exists x, occurs x (o_expr o)) by (exists x0; apply vars_occurs; rewrite Ev; now left).
  destruct Hcase as [Hno|Hcase]; [now apply Hnov|].
  assert (Hch : chain (fun s s' => forall p q, value_of ps0 o s p -> value_of ps0 o s' q -> ~ better o p q) ys).
  { apply (opt_chained clk shuffle f e sv os a ys e' None Hv Hrun o (fun new old => ~ better o old new) Hof).
    - rewrite Eos. now left.
    - exact Hsome.
    - destruct Hcase as [Htwo|(x & v0 & l & Hz & Es)]; [left; exact Htwo|]. right. exists x. split; [exact Hz|].
      intros y Hy. destruct (opt_keys ys None Hrun) as (order & Hord). pose proof (Hord s Hin) as E1. rewrite <- (Hord y Hy), Es in E1.
      destruct y as [|[z v1] y]; [discriminate|]. cbn in E1. injection E1 as -> _. eauto.
    - intros p q Hb. unfold better in *. destruct (o_max o); lia.
    - intros s0 x d v0 v' p q H1 H2 _ H3 H4 H5. exact (Himp s0 x d v0 v' p q H1 H2 H3 H4 H5).
    - left. intros p. unfold better. destruct (o_max o); lia. }
  change (value_of ps0 o t u) in Hu.
  assert (Hgo : forall l, chain (fun s s' => forall p q, value_of ps0 o s p -> value_of ps0 o s' q -> ~ better o p q) l ->
            (forall y, In y l -> exists v, value_of ps0 o y v) -> last_solution l = Some s -> In t l -> ~ better o u v).
  { clear - Hu Hvs. induction l as [|y l IH]; intros Hc Hval El Ht; [contradiction|].
    destruct l as [|z l].
    - cbn in El. injection El as ->. destruct Ht as [<-|[]]. unfold value_of in *. assert (u = v) by congruence. subst.
      unfold better. destruct (o_max o); lia.
    - destruct Hc as [H1 H2].
      assert (El' : last_solution (z :: l) = Some s).
      { revert El. cbn. destruct (last_solution l); congruence. }
      destruct Ht as [<-|Ht].
      + destruct (Hval z (or_intror (or_introl eq_refl))) as (vz & Hvz). specialize (H1 u vz Hu Hvz).
        assert (Hz : ~ better o vz v).
        { clear IH El. revert z vz Hvz H1 H2 El' Hval. induction l as [|z' l IH]; intros z vz Hvz H1 H2 El' Hval.
          - cbn in El'. injection El' as ->. unfold value_of in *. assert (vz = v) by congruence. subst. unfold better. destruct (o_max o); lia.
          - destruct H2 as [H2 H3]. destruct (Hval z' (or_intror (or_intror (or_introl eq_refl)))) as (vz' & Hvz').
            assert (El2 : last_solution (z' :: l) = Some s) by (revert El'; cbn; destruct (last_solution l); congruence).
            pose proof (H2 vz vz' Hvz Hvz') as Hstep.
            assert (Hrest : ~ better o vz' v).
            { apply (IH z' vz' Hvz'); auto.
              - clear - H1 Hstep. unfold better in *. destruct (o_max o); lia.
              - intros y0 [Hy0|Hy0]; apply Hval; [now left|right; now right]. }
            unfold better in *. destruct (o_max o); lia. }
        unfold better in *. destruct (o_max o); lia.
      + apply IH; auto. intros y0 Hy0. apply Hval. now right. }
  now apply (Hgo ys).
Qed.

End Optimal.

(** Runs of [solve] without errors. *)
Lemma quiet_run clk shuffle f e sv a ys e' r :
  let m := w_model (e_world e) in let cs := all_cons m a in
  valid shuffle e a -> faithful (e_world e) (s_compile sv) cs -> no_error (w_par (e_world e)) m cs ->
  groups_ok m cs -> unlimited sv a ->
  solve_all clk shuffle f e sv a = Some (ys, e', r) ->
  r = None /\ e_interrupt e' = None /\ (ys <> [] -> m_solvable m = true /\ has_variable m).
Proof.
  intros m cs Hv Hf Hne Hg Hu H. pose proof (proj1 (proj2 (proj2 (proj2 Hv)))) as Hid. fold m cs in Hid.
  assert (Hnerr : forall ex, ~ eval_error (compile_all (s_compile sv) (e_world e) cs) m cs ex).
  { intros ex (c & s & Hc & Hcc & Hd & Hall & He).
    destruct (holds_iff _ _ _ _ c s Hid Hf Hne Hc Hcc Hd Hall) as (b & Hb & _). congruence. }
  destruct (run_cases _ _ _ _ _ _ _ _ _ Hv H) as [(-> & Hi & _ & Hc)|(Hsol & Hhv & _)].
  - fold m cs in Hc. assert (Hx : ([] : list subst) <> [] -> m_solvable m = true /\ has_variable m) by (intros Hx; now destruct Hx).
    destruct Hc as [(_ & -> & _)|[(_ & _ & -> & _)|(_ & _ & _ & ex & _ & Hc)]]; auto.
    exfalso. destruct Hc as [[_ C]|[C _]]; [exact (Hnerr ex C)|contradiction].
  - destruct (solutions_hold clk shuffle f e sv a ys e' r Hv Hf Hne H) as [_ C].
    destruct (C Hu Hsol Hhv Hg) as (A & B & _). auto.
Qed.

(** ** C39 *)

Section Successive.
Variables (clk : nat -> Z) (shuffle : list name -> list name) (f : nat).
Variables (e : env) (sv : solver) (os : list oarg) (a : args) (ys : list subst) (e' : env) (r : option exn).
Let m := w_model (e_world e).
Let ps0 := w_par (e_world e).
Hypothesis Hv : opt_valid shuffle e os a.
Hypothesis H : optimize_all clk shuffle f e sv os a = Some (ys, e', r).
Hypothesis Hof : objective_faithful (s_compile sv) os.
Variable o : objective.
Hypothesis Ho : In (OObj o) os.
Hypothesis Hcase : (exists x y, x <> y /\ occurs x (o_expr o) /\ occurs y (o_expr o)) \/
   (exists x, occurs x (o_expr o) /\ (forall z, occurs z (o_expr o) -> z = x) /\
      forall s, In s ys -> exists v l, s = (x, v) :: l).

Lemma opt_never_worse : improves_along m ps0 o ->
  chain (fun s s' => forall p q, value_of ps0 o s p -> value_of ps0 o s' q -> ~ better o p q) ys.
Proof.
  intros Himp. apply (opt_chained clk shuffle f e sv os a ys e' r Hv H o (fun new old => ~ better o old new) Hof Ho).
  - destruct Hcase as [(x & y & _ & Hx & _)|(x & Hx & _)]; eauto.
  - destruct Hcase as [Htwo|(x & _ & H1 & H2)]; [left; exact Htwo|right; eauto].
  - intros p q Hb. unfold better in *. destruct (o_max o); lia.
  - intros s0 x d v0 v' p q H1 H2 _ H3 H4 H5. exact (Himp s0 x d v0 v' p q H1 H2 H3 H4 H5).
  - left. intros p. unfold better. destruct (o_max o); lia.
Qed.

Lemma opt_strict : improves_strictly m ps0 o -> (forall x d, is_variable m x d -> occurs x (o_expr o)) ->
  chain (fun s s' => forall p q, value_of ps0 o s p -> value_of ps0 o s' q -> better o q p) ys.
Proof.
  intros Himp Hall. apply (opt_chained clk shuffle f e sv os a ys e' r Hv H o (fun new old => better o new old) Hof Ho).
  - destruct Hcase as [(x & y & _ & Hx & _)|(x & Hx & _)]; eauto.
  - destruct Hcase as [Htwo|(x & _ & H1 & H2)]; [left; exact Htwo|right; eauto].
  - auto.
  - intros s0 x d v0 v' p q H1 H2 _ H3 H4 H5. exact (Himp s0 x d v0 v' p q H1 H2 H3 H4 H5).
  - right. exact Hall.
Qed.

(** ** C40 *)

Lemma opt_state : exists aux,
  let w' := e_world e' in
  w_model w' = Model (m_vars m ++ aux) (m_cons m) (m_solvable m) /\
  (forall x i, In (x, i) aux -> exists p, i = VPar p) /\ (length aux <= 2 * length os)%nat /\
  (forall p, (p < w_npar (e_world e))%nat -> w_par w' p = ps0 p) /\
  (forall x d, is_variable (w_model w') x d <-> is_variable m x d) /\
  (forall cs s, known (e_world e) cs -> (solves (holds (w_par w')) (w_model w') cs s <-> solves (holds ps0) m cs s)) /\
  (forall a', incl (x_additional a') (x_additional a) -> opt_valid shuffle e' os a').
Proof.
  destruct (opt_final clk shuffle f e sv os a ys e' r Hv H) as (aux & F1 & F2 & F3 & F4 & F5 & F6 & F7 & F8 & F9).
  exists aux. cbv zeta.
  assert (Hvar : forall x d, is_variable (w_model (e_world e')) x d <-> is_variable m x d).
  { intros x d. unfold is_variable. rewrite F1. cbn. split.
    - intros Hin. apply in_app_or in Hin. destruct Hin as [|Hin]; [assumption|]. destruct (F2 _ _ Hin) as (p & E). discriminate.
    - intros Hin. apply in_or_app. now left. }
  split; [exact F1|]. split; [exact F2|]. split; [exact F3|]. split; [exact F4|]. split; [exact Hvar|]. split.
  - intros cs s Hk. rewrite (same_variables_solves _ m (w_model (e_world e')) cs s Hvar).
    split; intros [Ha Hc]; (split; [exact Ha|]); intros c Hin Hcc; specialize (Hc c Hin Hcc); revert Hc; apply holds_params;
      intros ex p Hb Hp; [|symmetry]; apply F4; now apply (proj2 (Hk c Hin) ex).
  - intros a' Hincl. destruct Hv as ((Hs & Hn & Hd & _) & _ & Hk & Hko).
    assert (Hsub : incl (all_cons (w_model (e_world e')) a') (all_cons m a)).
    { unfold all_cons. rewrite F1. cbn [m_cons]. intros c Hc. apply in_app_or in Hc. apply in_or_app. destruct Hc; [now left|right; auto]. }
    split; [|split; [exact F8|split]].
    + split; [exact Hs|]. split; [exact F9|]. split; [intros x d Hx; apply (Hd x); now apply Hvar|].
      exact (objects_incl _ _ _ F7 Hsub).
    + intros c Hc. apply (known_mono (e_world e) (e_world e') (all_cons m a) Hk F5 F6). now apply Hsub.
    + intros o' Ho' p Hp. specialize (Hko o' Ho' p Hp). lia.
Qed.

(** Solving afterwards finds the solutions found before. *)
Lemma opt_solve_after clk1 clk2 shuffle2 f1 f2 sv1 sv2 a1 ys1 ys2 e1 e2 r1 r2 :
  let cs := all_cons m a1 in
  incl (x_additional a1) (x_additional a) -> shuffles shuffle2 ->
  faithful (e_world e) (s_compile sv1) cs -> faithful (e_world e') (s_compile sv2) cs ->
  no_error ps0 m cs -> groups_ok m cs -> unlimited sv1 a1 -> unlimited sv2 a1 ->
  solve_all clk1 shuffle f1 e sv1 a1 = Some (ys1, e1, r1) ->
  solve_all clk2 shuffle2 f2 e' sv2 a1 = Some (ys2, e2, r2) ->
  same_solutions ys1 ys2 /\ r1 = None /\ r2 = None.
Proof.
  intros cs Hincl Hs2 Hf1 Hf2 Hne Hg Hu1 Hu2 R1 R2. destruct opt_state as (aux & E1 & Eaux & _ & Epar & Hvar & Hsol & Hval).
  assert (Hsub : incl cs (all_cons m a)).
  { intros c Hc. unfold cs, all_cons in *. apply in_app_or in Hc. apply in_or_app. destruct Hc; [now left|right; auto]. }
  pose proof Hv as ((Hs & Hn & Hd & Hob) & _ & Hk & _).
  assert (V1 : valid shuffle e a1).
  { split; [exact Hs|]. split; [exact Hn|]. split; [exact Hd|]. exact (objects_incl _ _ _ Hob Hsub). }
  assert (V2 : valid shuffle2 e' a1).
  { destruct (Hval a1 Hincl) as ((_ & Hn' & Hd' & Ho') & _). split; [exact Hs2|]. auto. }
  assert (Ecs : all_cons (w_model (e_world e')) a1 = cs) by (unfold all_cons, cs; now rewrite E1).
  assert (Hkc : known (e_world e) cs) by (intros c Hc; apply Hk; now apply Hsub).
  assert (Hne2 : no_error (w_par (e_world e')) (w_model (e_world e')) cs).
  { intros c ex s Hc Hb Hcc Hdm Hm. destruct (Hne c ex s Hc Hb) as (v & Ev).
    - now apply (same_variables_concerns m (w_model (e_world e')) c Hvar).
    - intros x v Hxv. destruct (Hdm x v Hxv) as (d & H1 & H2). exists d. split; [now apply Hvar|exact H2].
    - exact Hm.
    - exists v. rewrite <- Ev. apply evaluate_params. intros p Hp. apply Epar. now apply (proj2 (Hkc c Hc) ex). }
  assert (Hg2 : groups_ok (w_model (e_world e')) cs).
  { intros c xs Hc Hb. apply (same_variables_concerns m (w_model (e_world e')) c Hvar). now apply (Hg c xs). }
  destruct (quiet_run clk1 shuffle f1 e sv1 a1 ys1 e1 r1 V1 Hf1 Hne Hg Hu1 R1) as (-> & _ & N1).
  destruct (quiet_run clk2 shuffle2 f2 e' sv2 a1 ys2 e2 r2 V2) as (-> & _ & N2); rewrite ?Ecs; auto.
  split; [|auto].
  destruct (solutions_hold clk1 shuffle f1 e sv1 a1 ys1 e1 None V1 Hf1 Hne R1) as [S1 C1].
  destruct (solutions_hold clk2 shuffle2 f2 e' sv2 a1 ys2 e2 None V2) as [S2 C2]; rewrite ?Ecs; auto.
  rewrite Ecs in S2, C2. fold m cs ps0 in S1, C1.
  assert (Esol : m_solvable (w_model (e_world e')) = m_solvable m) by (now rewrite E1).
  assert (Hhv : has_variable (w_model (e_world e')) <-> has_variable m).
  { split; intros (x & d & Hx); exists x, d; now apply Hvar. }
  apply same_solutions_intro.
  - exact (distinct _ _ _ _ _ _ _ _ _ V1 R1).
  - exact (distinct _ _ _ _ _ _ _ _ _ V2 R2).
  - intros y Hy. destruct N1 as [Hsl Hh]; [intros ->; contradiction|].
    destruct C2 as (_ & _ & C2); [exact Hu2|now rewrite Esol|now apply Hhv|exact Hg2|].
    destruct (C2 y) as (z & Hz & Hsame); [apply Hsol; [exact Hkc|now apply S1]|]. exists z. split; [exact Hz|now apply same_sym].
  - intros z Hz. destruct N2 as [Hsl Hh]; [intros ->; contradiction|]. rewrite Esol in Hsl. apply Hhv in Hh.
    destruct C1 as (_ & _ & C1); auto. apply C1. apply (Hsol cs z Hkc). now apply S2.
Qed.

End Successive.
