(** Whole runs of [solve] with a passive consumer. *)
From Coq Require Import Permutation.
From Verif Require Import Solver SpecFormula SpecSafe SpecSolve ExprFacts DictFacts ModelFacts CompileFacts CodeFacts
  SearchFacts LoopFacts EnumFacts SetupFacts SolveFacts.
Open Scope list_scope.
Open Scope Z_scope.

(** ** Errors of the setup *)

Lemma setup_loop_err w1 pure cmp cs : forall pre w0 u w' ex,
  uinv w1 pure pre u ->
  w1 = compile_all cmp w0 (pre ++ cs) ->
  (forall c c', In c (pre ++ cs) -> In c' (pre ++ cs) -> c_id c = c_id c' -> c_body c = c_body c') ->
  setup_loop cmp (compile_all cmp w0 pre) u cs = (w', Err ex) ->
  exists c x v d, In c cs /\ c_vars c = [x] /\ dget pure x = Some d /\ In v d /\
    ceval w' c [(x, v)] = Err ex /\ ceval w1 c [(x, v)] = Err ex.
Proof.
  induction cs as [|c cs IH]; intros pre w0 u w' ex Hu Hw Hid H; [discriminate|].
  cbn [setup_loop] in H.
  assert (Hc1 : compile1 cmp (compile_all cmp w0 pre) c = compile_all cmp w0 (pre ++ [c])).
  { rewrite compile_all_app. reflexivity. }
  assert (Hst : forall s, ceval (compile1 cmp (compile_all cmp w0 pre) c) c s = ceval w1 c s).
  { intros s. rewrite Hc1, Hw. apply ceval_stable. intros c' Hc' E. apply Hid; [| |assumption];
        apply in_or_app; right; [now right|now left]. }
  pose proof (setup_step_world cmp (compile_all cmp w0 pre) u c) as Hsw.
  destruct (setup_step cmp (compile_all cmp w0 pre) u c) as [w2 [u2|ex2]] eqn:Es; cbn [fst] in Hsw; subst w2.
  - apply (setup_step_spec w1 pure _ _ _ _ pre) in Es; [|assumption|exact Hst].
    destruct Es as [_ Hu2]. rewrite Hc1 in H.
    replace (pre ++ c :: cs) with ((pre ++ [c]) ++ cs) in * by (rewrite <- app_assoc; reflexivity).
    destruct (IH _ _ _ _ _ Hu2 Hw Hid H) as (c' & x & v & d & Hin & Hrest). exists c', x, v, d. split; [now right|assumption].
  - inversion H; subst w' ex2. clear H.
    enough (exists c0 x v d, In c0 (c :: cs) /\ c0 = c /\ c_vars c0 = [x] /\ dget pure x = Some d /\ In v d /\
              ceval (compile1 cmp (compile_all cmp w0 pre) c) c0 [(x, v)] = Err ex) as
      (c0 & x & v & d & H1 & -> & H2 & H3 & H4 & H5).
    { exists c, x, v, d. repeat split; try assumption. rewrite <- Hst. exact H5. }
    unfold setup_step in Es. fold (compile1 cmp (compile_all cmp w0 pre) c) in Es.
    destruct (c_body c); try discriminate Es; destruct (c_vars c) as [|x [|y l]] eqn:Ecv; try discriminate Es;
      (destruct (dget (u_doms u) x) as [d0|] eqn:Ed; [|discriminate Es]);
      (match type of Es with context [filterM ?F ?D] => destruct (filterM F D) as [d1|] eqn:Ef end; [discriminate Es|]);
      inversion Es; subst; clear Es; apply filterM_Err in Ef; destruct Ef as (v & Hv & He);
      destruct (dget pure x) as [d|] eqn:Ep;
      try (destruct (ui_doms _ _ _ _ Hu x d Ep) as (f & Hf & _); rewrite Hf in Ed; inversion Ed; subst;
           apply filter_In in Hv; exists c, x, v, d; repeat split; try assumption; [now left|apply Hv]);
      exfalso; apply dget_None in Ep; apply Ep; rewrite <- (ui_keys _ _ _ _ Hu); apply dget_Some; eauto.
Qed.

Lemma do_setup_err cmp w add w' ex :
  well_named (w_model w) -> objects w (m_cons (w_model w) ++ add) ->
  do_setup cmp w add = (w', Err ex) ->
  let m := w_model w in
  let cs := m_cons m ++ add in
  (eval_error w' m cs ex /\ eval_error (compile_all cmp w cs) m cs ex) \/
  (~ groups_ok m cs /\ (ex = KeyError \/ ex = ValueError)).
Proof.
  intros Hn [Hid _] H m cs. unfold do_setup in H. fold m cs in H, Hid.
  destruct (setup_loop cmp w _ cs) as [w2 [u2|ex2]] eqn:El.
  - right.
    destruct (setup_loop_spec (compile_all cmp w cs) _ cmp cs [] w _ _ _ (uinv_init _ _) eq_refl Hid El) as [-> Hu].
    destruct (check_groups (u_bounds u2) (u_groups u2)) as [[]|ex2] eqn:Eg; [discriminate|].
    inversion H; subst. split.
    + intros Hok. assert (Ht : check_groups (u_bounds u2) (u_groups u2) = Ok tt); [|congruence].
      apply check_groups_spec. intros g Hg. apply (ui_groups _ _ _ _ Hu) in Hg. destruct Hg as (c & Hc & Had & ->).
      simpl in Hc. unfold is_ad in Had. destruct (c_body c) as [b|e|xs] eqn:Eb; try discriminate.
      destruct (Hok c xs Hc Eb) as [(x & Hx) Hv]. rewrite (ui_bounds _ _ _ _ Hu). split.
      * apply mentions_vars in Hx. destruct (c_vars c); [contradiction|discriminate].
      * intros y Hy. apply pure_keys_In. apply Hv. now apply mentions_vars.
    + clear - Eg. revert Eg. generalize (u_bounds u2). induction (u_groups u2) as [|g gs IH]; simpl; [discriminate|].
      intros b. destruct (forallb _ g); [|intros E; inversion E; auto]. destruct g; [intros E; inversion E; auto|apply IH].
  - left. inversion H; subst.
    destruct (setup_loop_err (compile_all cmp w cs) _ cmp cs [] w _ _ _ (uinv_init _ _) eq_refl Hid El)
      as (c & x & v & d & Hc & Ecv & Hd & Hv & He & He1).
    apply pure_dget in Hd; [|assumption].
    enough (Hgen : forall w0, ceval w0 c [(x, v)] = Err ex -> eval_error w0 m cs ex) by (split; now apply Hgen).
    intros w0 He0. exists c, [(x, v)]. split; [assumption|]. split; [|split; [|split; [|assumption]]].
    + split; [exists x; apply mentions_vars; rewrite Ecv; now left|]. intros y Hy. apply mentions_vars in Hy.
      rewrite Ecv in Hy. destruct Hy as [<-|[]]. eauto.
    + intros y u [E|[]]. inversion E; subst. eauto.
    + intros y Hy. apply mentions_vars in Hy. rewrite Ecv in Hy. destruct Hy as [<-|[]]. now left.
Qed.

(** ** The passive consumer does not change the objects *)

Section Run.
Variable clk : nat -> Z.
Variable shuffle : list name -> list name.

Lemma do_stop_world e r : e_world (fst (do_stop clk e r)) = e_world e.
Proof. unfold do_stop. destruct (timer_stop _ _ _) as [[t z]|]; reflexivity. Qed.
Lemma do_start_world e r : e_world (fst (do_start clk e r)) = e_world e.
Proof. unfold do_start. destruct (timer_start _ _) as [t|]; reflexivity. Qed.
Lemma do_abort_world e r : e_world (do_abort clk e r) = e_world e.
Proof. unfold do_abort. destruct (t_running _); reflexivity. Qed.
Lemma check_timeout_world e l : e_world (fst (check_timeout clk e l)) = e_world e.
Proof. unfold check_timeout. destruct (l_timeout l); try reflexivity. destruct (_ <? _); reflexivity. Qed.

Lemma micro_world e g : (forall sv a, g <> GInit sv a) ->
  e_world (fst (fst (micro clk shuffle e g))) = e_world e.
Proof.
  intros Hg. destruct g as [sv a|l c n|l c n|]; [exfalso; eapply Hg; reflexivity| | |reflexivity]; simpl.
  - destruct (g_stack c); [reflexivity|]. pose proof (check_timeout_world e l) as Hw.
    destruct (check_timeout clk e l) as [e1 [ev|]]; simpl in *; [assumption|].
    destruct (core_step (e_world e1) (l_info l) c); try assumption.
    pose proof (do_stop_world e1 (l_timer l)) as Hs. destruct (do_stop clk e1 (l_timer l)) as [e2 [[]|]]; simpl in *; congruence.
  - pose proof (do_start_world e (l_timer l)) as Hs.
    destruct (l_limit l) as [|z|]; [| |reflexivity].
    + destruct (do_start clk e (l_timer l)) as [e2 [[]|]]; assumption.
    + destruct (z <=? n); [apply do_abort_world|].
      destruct (do_start clk e (l_timer l)) as [e2 [[]|]]; assumption.
Qed.

Lemma micro_not_init e g sv a : (forall sv a, g <> GInit sv a) -> snd (fst (micro clk shuffle e g)) <> GInit sv a.
Proof.
  intros Hg. destruct g as [sv' a'|l c n|l c n|]; [exfalso; eapply Hg; reflexivity| | |discriminate]; simpl.
  - destruct (g_stack c); [discriminate|].
    destruct (check_timeout clk e l) as [e1 [ev|]]; simpl in *; [discriminate|].
    destruct (core_step (e_world e1) (l_info l) c); try discriminate.
    destruct (do_stop clk e1 (l_timer l)) as [e2 [[]|]]; discriminate.
  - destruct (l_limit l) as [|z|]; [| |discriminate].
    + destruct (do_start clk e (l_timer l)) as [e2 [[]|]]; discriminate.
    + destruct (z <=? n); [discriminate|].
      destruct (do_start clk e (l_timer l)) as [e2 [[]|]]; discriminate.
Qed.

Lemma set_world_same e : set_world e (e_world e) = e.
Proof. destruct e; reflexivity. Qed.

Lemma drain_world f : forall k e g ys e' r, (forall sv a, g <> GInit sv a) ->
  drain clk shuffle f passive k e g = Some (ys, e', r) -> e_world e' = e_world e.
Proof.
  induction f as [|f IH]; intros k e g ys e' r Hg H; [discriminate|]. rewrite drain_S in H.
  pose proof (micro_world e g Hg) as Hw. pose proof (fun sv a => micro_not_init e g sv a Hg) as Hg'.
  destruct (micro clk shuffle e g) as [[e1 g1] [|s| |ex]]; simpl in Hw, Hg'.
  - apply IH in H; [congruence|assumption].
  - unfold passive at 1 in H. rewrite set_world_same in H.
    destruct (drain clk shuffle f passive (S k) e1 g1) as [[[zs e2] r2]|] eqn:E; [|discriminate].
    inversion H; subst. apply IH in E; [congruence|assumption].
  - inversion H; subst. assumption.
  - inversion H; subst. assumption.
Qed.

(** ** The first step *)

Definition start_env (e : env) (w : world) : env :=
  let e1 := set_world (reset e) w in
  tick (set_timer e1 (e_ntimers e) (Timer 0 (Some (clk (e_clk e))) 0)).

Definition run_local (e : env) (sv : solver) (a : args) (u : setup) : Solver.local :=
  Local (GInfo (u_doms u) (u_cons u) (u_ad u)) (e_ntimers e)
        (arg_or (x_timeout a) (s_timeout sv)) (arg_or (x_limit a) (s_limit sv)).

Definition order_of (sv : solver) (a : args) (m : model) (u : setup) : list name :=
  select_order shuffle (arg_or (x_policy a) (s_policy sv)) m u.

Lemma begin_spec e sv a :
  micro clk shuffle e (GInit sv a) =
  let m := w_model (e_world e) in
  if negb (m_solvable m) then (reset e, GDone, EvStop)
  else match do_setup (s_compile sv) (e_world e) (x_additional a) with
       | (w, Err ex) => (set_world (reset e) w, GDone, EvRaise ex)
       | (w, Ok u) =>
           match order_of sv a m u with
           | [] => (set_world (reset e) w, GDone, EvStop)
           | names => (start_env e w, GLoop (run_local e sv a u) (Cfg [(names, [])] []) 0, EvNone)
           end
       end.
Proof.
  cbn [micro]. unfold begin, order_of. cbn [reset e_world w_model]. destruct (negb _); [reflexivity|].
  destruct (do_setup (s_compile sv) (e_world e) (x_additional a)) as [w [u|ex]]; [|reflexivity].
  destruct (select_order shuffle _ _ u) as [|x names]; [reflexivity|].
  unfold do_start. cbn [set_world e_timers e_timer reset e_clk]. rewrite upd_same. reflexivity.
Qed.

(** ** Whole runs *)

(** [search] followed by the timed loop. *)
Inductive run_of (e : env) (sv : solver) (a : args) (ys : list subst) (e' : env) (r : option exn) : Prop :=
| RunUnsolvable :
    m_solvable (w_model (e_world e)) = false -> ys = [] -> r = None -> e' = reset e ->
    run_of e sv a ys e' r
| RunSetupError w ex :
    m_solvable (w_model (e_world e)) = true ->
    do_setup (s_compile sv) (e_world e) (x_additional a) = (w, Err ex) ->
    ys = [] -> r = Some ex -> e' = set_world (reset e) w -> run_of e sv a ys e' r
| RunNoVariables w u :
    m_solvable (w_model (e_world e)) = true ->
    do_setup (s_compile sv) (e_world e) (x_additional a) = (w, Ok u) ->
    order_of sv a (w_model (e_world e)) u = [] ->
    ys = [] -> r = None -> e' = set_world (reset e) w -> run_of e sv a ys e' r
| RunLoop w u f ys0 r0 :
    m_solvable (w_model (e_world e)) = true ->
    do_setup (s_compile sv) (e_world e) (x_additional a) = (w, Ok u) ->
    order_of sv a (w_model (e_world e)) u <> [] ->
    search (GInfo (u_doms u) (u_cons u) (u_ad u)) passive (order_of sv a (w_model (e_world e)) u) 0 w [] = (ys0, w, r0) ->
    drain clk shuffle f passive 0 (start_env e w)
      (GLoop (run_local e sv a u) (Cfg [(order_of sv a (w_model (e_world e)) u, [])] []) 0) = Some (ys, e', r) ->
    prefix ys ys0 ->
    finish clk passive (run_local e sv a u) (Cfg [(order_of sv a (w_model (e_world e)) u, [])] []) 0
      (start_env e w) e' ys r ys0 w (match r0 with Ok _ => None | Err ex => Some ex end) ->
    e_world e' = w ->
    run_of e sv a ys e' r.

Lemma order_perm sv a m u : shuffles shuffle -> Permutation (order_of sv a m u) (dkeys (u_doms u)).
Proof. apply select_order_perm. Qed.

Lemma start_running e w : running (start_env e w) (e_ntimers e).
Proof. unfold running, start_env. simpl. now rewrite upd_same. Qed.

Lemma drain_init f e sv a consumer k :
  drain clk shuffle (S f) consumer k e (GInit sv a) =
  let m := w_model (e_world e) in
  if negb (m_solvable m) then Some ([], reset e, None)
  else match do_setup (s_compile sv) (e_world e) (x_additional a) with
       | (w, Err ex) => Some ([], set_world (reset e) w, Some ex)
       | (w, Ok u) =>
           match order_of sv a m u with
           | [] => Some ([], set_world (reset e) w, None)
           | names => drain clk shuffle f consumer k (start_env e w)
                        (GLoop (run_local e sv a u) (Cfg [(names, [])] []) 0)
           end
       end.
Proof.
  rewrite drain_S, begin_spec. cbv zeta. destruct (negb _); [reflexivity|].
  destruct (do_setup _ _ _) as [w [u|ex]]; [|reflexivity].
  destruct (order_of sv a _ u); reflexivity.
Qed.

Lemma order_facts cmp w add w' u sv a :
  shuffles shuffle -> well_named (w_model w) -> objects w (m_cons (w_model w) ++ add) ->
  do_setup cmp w add = (w', Ok u) ->
  let order := order_of sv a (w_model w) u in
  Permutation order (dkeys (pure_variables (m_vars (w_model w)))) /\ NoDup order /\
  (forall x, In x order -> In x (dkeys (u_doms u))).
Proof.
  intros Hs Hn Ho H order. destruct (do_setup_spec _ _ _ _ _ Ho H) as (_ & Hu & _).
  pose proof (order_perm sv a (w_model w) u Hs) as Hp. fold order in Hp.
  assert (Hp' : Permutation order (dkeys (pure_variables (m_vars (w_model w))))).
  { rewrite <- (ui_keys _ _ _ _ Hu). exact Hp. }
  split; [assumption|]. split.
  - eapply Permutation_NoDup; [symmetry; exact Hp'|]. apply pure_NoDup. apply Hn.
  - intros x Hx. eapply Permutation_in; [exact Hp|exact Hx].
Qed.

Lemma search_passive_world i xs k w s ys w' r :
  NoDup (dkeys s ++ xs) -> (forall x, In x xs -> In x (dkeys (i_doms i))) ->
  search i passive xs k w s = (ys, w', r) -> w' = w.
Proof. intros H1 H2 H. now destruct (search_enum w i xs k s ys w' r H1 H2 H). Qed.

Lemma run_spec f e sv a ys e' r :
  shuffles shuffle -> well_named (w_model (e_world e)) ->
  objects (e_world e) (all_cons (w_model (e_world e)) a) ->
  drain clk shuffle f passive 0 e (GInit sv a) = Some (ys, e', r) ->
  run_of e sv a ys e' r.
Proof.
  intros Hs Hn Ho H. destruct f as [|f]; [discriminate|]. rewrite drain_init in H. cbv zeta in H.
  destruct (m_solvable (w_model (e_world e))) eqn:Esol; cbn [negb] in H.
  2:{ inversion H; subst. now apply RunUnsolvable. }
  destruct (do_setup (s_compile sv) (e_world e) (x_additional a)) as [w [u|ex]] eqn:Es.
  2:{ inversion H; subst. eapply RunSetupError; eauto. }
  destruct (order_of sv a (w_model (e_world e)) u) as [|x names] eqn:Eo.
  { inversion H; subst. eapply RunNoVariables; eauto. }
  destruct (order_facts _ _ _ _ _ sv a Hs Hn Ho Es) as (Hp & Hnd & Hin).
  assert (Hne : order_of sv a (w_model (e_world e)) u <> []) by (rewrite Eo; discriminate).
  rewrite <- Eo in H.
  set (i := GInfo (u_doms u) (u_cons u) (u_ad u)) in *.
  destruct (search i passive (order_of sv a (w_model (e_world e)) u) 0 w []) as [[ys0 w0] r0] eqn:Esearch.
  assert (w0 = w) by (eapply search_passive_world; [| |exact Esearch]; [exact Hnd|exact Hin]). subst w0.
  destruct (urun_search i passive _ 0 w Hne Hnd) as (n & Hn'). specialize (Hn' 0%nat). rewrite Esearch in Hn'.
  assert (Hu : urun i passive (n + 0) 0 w (Cfg [(order_of sv a (w_model (e_world e)) u, [])] []) =
               Some (ys0, w, match r0 with Ok _ => None | Err ex => Some ex end)).
  { rewrite Hn'. destruct r0; reflexivity. }
  pose proof (drain_urun clk shuffle passive f 0 (start_env e w) (run_local e sv a u) _ 0 ys e' r
                (start_running e w) H _ _ _ _ Hu) as [Hpre Hfin].
  eapply RunLoop; eauto.
  apply drain_world in H; [exact H|discriminate].
Qed.

Lemma run_terminates e sv a consumer :
  shuffles shuffle -> well_named (w_model (e_world e)) ->
  objects (e_world e) (all_cons (w_model (e_world e)) a) ->
  exists f r, drain clk shuffle f consumer 0 e (GInit sv a) = Some r.
Proof.
  intros Hs Hn Ho.
  destruct (m_solvable (w_model (e_world e))) eqn:Esol.
  2:{ exists 1%nat. rewrite drain_init. cbv zeta. rewrite Esol. eexists. reflexivity. }
  destruct (do_setup (s_compile sv) (e_world e) (x_additional a)) as [w [u|ex]] eqn:Es.
  2:{ exists 1%nat. rewrite drain_init. cbv zeta. rewrite Esol, Es. eexists. reflexivity. }
  destruct (order_of sv a (w_model (e_world e)) u) as [|x names] eqn:Eo.
  { exists 1%nat. rewrite drain_init. cbv zeta. rewrite Esol, Es, Eo. eexists. reflexivity. }
  destruct (order_facts _ _ _ _ _ sv a Hs Hn Ho Es) as (Hp & Hnd & Hin).
  assert (Hne : order_of sv a (w_model (e_world e)) u <> []) by (rewrite Eo; discriminate).
  destruct (urun_search (GInfo (u_doms u) (u_cons u) (u_ad u)) consumer _ 0 w Hne Hnd) as (n & Hn').
  specialize (Hn' 0%nat).
  destruct (drain_terminates clk shuffle consumer _ 0 (start_env e w) (run_local e sv a u) _ 0 _
              (start_running e w) Hn') as (r & Hr).
  exists (S (2 * (n + 0))), r. rewrite drain_init. cbv zeta. rewrite Esol, Es. cbn [negb].
  rewrite Eo in *. exact Hr.
Qed.

(** ** Consequences *)

Lemma locals w m cs : well_named m -> objects w cs ->
  forall c, In c cs -> concerns m c -> c_local w c.
Proof.
  intros Hn [_ Hc] c Hin [_ Hv]. apply local_code; [|intros e f Hb Hf; eapply Hc; eauto].
  apply Forall_forall. intros x Hx. apply mentions_vars in Hx. destruct (Hv x Hx) as (d & Hd).
  eapply well_named_plain; [exact Hn|]. change x with (fst (x, VVar d)). now apply in_map.
Qed.

Section Loop.
Variables (e : env) (sv : solver) (a : args) (w : world) (u : setup).
Let m := w_model (e_world e).
Let cs := all_cons m a.
Hypothesis Hs : shuffles shuffle.
Hypothesis Hn : well_named m.
Hypothesis Ho : objects (e_world e) cs.
Hypothesis Es : do_setup (s_compile sv) (e_world e) (x_additional a) = (w, Ok u).
Let order := order_of sv a m u.
Let i := GInfo (u_doms u) (u_cons u) (u_ad u).

Lemma loop_setup :
  w = compile_all (s_compile sv) (e_world e) cs /\ uinv w (pure_variables (m_vars m)) cs u /\
  (forall c, In c cs -> is_ad c = true ->
     c_vars c <> [] /\ forall x, In x (c_vars c) -> In x (dkeys (pure_variables (m_vars m)))) /\
  objects w cs /\ w_model w = m /\
  Permutation order (dkeys (pure_variables (m_vars m))).
Proof.
  destruct (do_setup_spec _ _ _ _ _ Ho Es) as (Hw & Hu & Hg).
  split; [exact Hw|]. split; [exact Hu|]. split; [exact Hg|]. split; [|split].
  - rewrite Hw. now apply objects_compile.
  - rewrite Hw. apply compile_all_model.
  - now destruct (order_facts _ _ _ _ _ sv a Hs Hn Ho Es).
Qed.

Lemma loop_enum s : In s (enum w i order []) <-> map fst s = order /\ solves (evaluates_true w) m cs s.
Proof.
  destruct loop_setup as (_ & Hu & Hg & Hobj & _ & Hp).
  exact (enum_iff w m cs u order Hn Hu (locals w m cs Hn Hobj) Hg Hp s).
Qed.

Lemma loop_complete t : solves (evaluates_true w) m cs t -> exists s, In s (enum w i order []) /\ same_dict s t.
Proof.
  intros Ht. destruct loop_setup as (_ & Hu & Hg & Hobj & _ & Hp).
  destruct (solves_reorder w m cs order Hn (locals w m cs Hn Hobj) Hp t Ht) as (s & Hk & Hsame & Hsol).
  exists s. split; [|assumption]. apply loop_enum. auto.
Qed.

Lemma loop_sorted : ForallOrdPairs (lex_before order (dom i)) (enum w i order []).
Proof.
  destruct (order_facts _ _ _ _ _ sv a Hs Hn Ho Es) as (_ & Hnd & _). now apply enum_sorted.
Qed.

Lemma loop_dom x d p q : is_variable m x d -> before (dom i x) p q -> before d p q.
Proof.
  destruct loop_setup as (_ & Hu & _). intros Hd. apply pure_dget in Hd; [|assumption].
  destruct (ui_doms _ _ _ _ Hu x d Hd) as (f & Hf & _). unfold dom, dget_or. simpl. rewrite Hf. apply before_filter.
Qed.

Lemma loop_search ys0 r0 : search i passive order 0 w [] = (ys0, w, r0) ->
  prefix ys0 (enum w i order []) /\
  match r0 with Ok _ => ys0 = enum w i order [] | Err ex => eval_error w m cs ex end.
Proof.
  intros H. destruct (order_facts _ _ _ _ _ sv a Hs Hn Ho Es) as (_ & Hnd & Hin).
  destruct (search_enum w i order 0 [] ys0 w r0 Hnd Hin H) as (_ & Hp & Hr). split; [assumption|].
  destruct r0 as [k|ex]; [apply Hr|].
  destruct loop_setup as (_ & Hu & Hg & Hobj & _ & Hpm).
  exact (raises_eval w m cs u order Hn Hu Hpm ex Hr).
Qed.

End Loop.

End Run.
