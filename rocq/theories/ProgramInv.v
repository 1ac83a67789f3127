(** The objects of a program are those it made; when they keep their meaning. *)
From Verif Require Import Solver Program SpecFormula SpecSafe SpecSolve SpecIsolation SpecInterleave SpecProgram ExprFacts DictFacts ModelFacts CompileFacts CodeFacts
  SearchFacts LoopFacts SetupFacts MasterFacts HistoryFacts SolverProps SolverMore SolverExtra InterleaveFacts IsolationFacts InterleaveStats ProgramFacts ProgramRun.
Open Scope list_scope.
Open Scope Z_scope.

(** ** The API calls and the heap *)

Lemma obj_heap c w : let w' := fst (add_constraint_obj c w) in
  w_par w' = w_par w /\ w_code w' = w_code w /\ w_npar w' = w_npar w /\ w_ncon w' = w_ncon w /\
  forall c', In c' (m_cons (w_model w')) -> In c' (m_cons (w_model w)) \/ c' = c.
Proof.
  cbv zeta. unfold add_constraint_obj. destruct (c_vars c) as [|x l].
  - destruct (ceval w c []) as [[|]|]; cbn; repeat (split; [reflexivity|]); auto.
    intros c' H. apply in_app_or in H. destruct H as [H|[<-|[]]]; auto.
  - destruct (forallb _ _); cbn; repeat (split; [reflexivity|]); auto.
    intros c' H. apply in_app_or in H. destruct H as [H|[<-|[]]]; auto.
Qed.

(** Does the call make a constraint object?  Its body. *)
Definition makes (a : api) : option cbody :=
  match a with
  | AddConstraint (ABool b) => Some (CConst b)
  | AddConstraint (AExpr e) => Some (CExpr e)
  | AddAllDiff xs => Some (CAllDiff xs)
  | NewConstraint b => Some b
  | _ => None
  end.

Lemma api_heap a w : let w' := fst (run_api a w) in
  (w_npar w <= w_npar w')%nat /\
  w_ncon w' = (match makes a with Some _ => S (w_ncon w) | None => w_ncon w end) /\
  (match a with SetParam _ _ => True | _ => forall q, (q < w_npar w)%nat -> w_par w' q = w_par w q end) /\
  (match a with
   | CompileConstraint c => w' = ccompile w c
   | _ => forall id, (id < w_ncon w)%nat -> w_code w' id = w_code w id
   end) /\
  (match a with CompileConstraint _ => True | _ => forall id, w_code w' id = w_code w id \/ w_code w' id = None end) /\
  (forall c, In c (m_cons (w_model w')) -> In c (m_cons (w_model w)) \/ a = AddConstraint (ACons c) \/ c_id c = w_ncon w /\ makes a <> None).
Proof.
  cbv zeta.
  assert (Hint : forall d nm, let w' := fst (add_int_variable d nm w) in w_npar w' = w_npar w /\ w_ncon w' = w_ncon w /\ w_par w' = w_par w /\ w_code w' = w_code w /\ m_cons (w_model w') = m_cons (w_model w)).
  { intros d nm. unfold add_int_variable. destruct (has_dup d); [repeat split|]. destruct (choose_name _ _ _); repeat split. }
  assert (Hnew : forall b, let w' := fst (let '(c, w1) := new_constraint w b in add_constraint_obj c w1) in
     w_npar w' = w_npar w /\ w_ncon w' = S (w_ncon w) /\ w_par w' = w_par w /\ w_code w' = upd (w_code w) (w_ncon w) None /\
     forall c, In c (m_cons (w_model w')) -> In c (m_cons (w_model w)) \/ c_id c = w_ncon w).
  { intros b. cbn [new_constraint]. destruct (obj_heap (Constraint (w_ncon w) b)
      (World (w_par w) (upd (w_code w) (w_ncon w) None) (w_npar w) (S (w_ncon w)) (w_model w))) as (A1 & A2 & A3 & A4 & A5).
    cbn in A1, A2, A3, A4, A5 |- *. rewrite A1, A2, A3, A4. repeat (split; [reflexivity|]). intros c H. destruct (A5 c H) as [H'| ->]; auto. }
  assert (Hn : forall id, (id < w_ncon w)%nat -> upd (w_code w) (w_ncon w) None id = w_code w id) by (intros; apply upd_other; lia).
  assert (Hn2 : forall id, upd (w_code w) (w_ncon w) None id = w_code w id \/ upd (w_code w) (w_ncon w) None id = None).
  { intros id. unfold upd. destruct (Nat.eqb id (w_ncon w)); auto. }
  destruct a as [d nm|nm|v nm|[b|e|c|]|xs|b|p v|b|c]; cbn [run_api makes].
  - destruct (Hint d nm) as (A1 & A2 & A3 & A4 & A5). unfold drop. cbn [fst]. rewrite A1, A2, A3, A4, A5. repeat (split; [auto; lia|]). auto.
  - unfold add_bool_variable. destruct (Hint [0; 1] nm) as (A1 & A2 & A3 & A4 & A5). unfold drop. cbn [fst]. rewrite A1, A2, A3, A4, A5. repeat (split; [auto; lia|]). auto.
  - unfold add_parameter, drop. destruct (choose_name _ _ _); cbn; repeat (split; [auto; try lia; intros q Hq; apply upd_other; lia|]); auto.
  - unfold add_constraint. destruct (Hnew (CConst b)) as (A1 & A2 & A3 & A4 & A5). cbv zeta in *. rewrite A1, A2, A3, A4. repeat (split; [auto; try lia|]).
    intros c H. destruct (A5 c H); auto. right; right. split; [assumption|discriminate].
  - unfold add_constraint. destruct (Hnew (CExpr e)) as (A1 & A2 & A3 & A4 & A5). cbv zeta in *. rewrite A1, A2, A3, A4. repeat (split; [auto; try lia|]).
    intros c H. destruct (A5 c H); auto. right; right. split; [assumption|discriminate].
  - unfold add_constraint. destruct (obj_heap c w) as (A1 & A2 & A3 & A4 & A5). rewrite A1, A2, A3, A4. repeat (split; [auto; try lia|]).
    intros c' H. destruct (A5 c' H) as [H'| ->]; auto.
  - cbn. repeat (split; [auto; try lia|]). auto.
  - unfold add_all_different_constraint, add_constraint. destruct (Hnew (CAllDiff xs)) as (A1 & A2 & A3 & A4 & A5). cbv zeta in *. rewrite A1, A2, A3, A4. repeat (split; [auto; try lia|]).
    intros c H. destruct (A5 c H); auto. right; right. split; [assumption|discriminate].
  - cbn. repeat (split; [auto; try lia|]). auto.
  - cbn. repeat (split; [auto; try lia|]). auto.
  - cbn. repeat (split; [auto; try lia|]). auto.
  - cbn. unfold ccompile. destruct (c_body c); cbn; repeat (split; [auto; try lia|]); auto.
Qed.

(** ** What [next] does to the objects *)

Lemma micro_world clk shuffle e g e' g' ev : started g -> micro clk shuffle e g = (e', g', ev) -> e_world e' = e_world e.
Proof.
  intros Hs H. destruct g as [sv a|l c n|l c n|]; cbn [micro] in H; [now elim (Hs sv a)| | |].
  - destruct (g_stack c); [injection H as <- <- <-; reflexivity|].
    assert (Hc : forall e1, e_world e1 = e_world e ->
      match core_step (e_world e1) (l_info l) c with
      | CErr ex => (e1, GDone, EvRaise ex)
      | CNext c' => (e1, GLoop l c' n, EvNone)
      | CYield s c' => match do_stop clk e1 (l_timer l) with (e'', Err ex) => (e'', GDone, EvRaise ex) | (e'', Ok _) => (e'', GYield l c' (n + 1), EvYield s) end
      end = (e', g', ev) -> e_world e' = e_world e).
    { intros e1 He1 E. destruct (core_step _ _ _).
      - injection E as <- <- <-. exact He1.
      - unfold do_stop in E. destruct (timer_stop _ _ _) as [[t0 z]|]; injection E as <- <- <-; exact He1.
      - injection E as <- <- <-. exact He1. }
    unfold check_timeout in H. destruct (l_timeout l) as [|t|].
    + now apply (Hc e).
    + destruct (t <? _); [injection H as <- <- <-; reflexivity|]. now apply (Hc (tick e)).
    + injection H as <- <- <-. reflexivity.
  - assert (Hr : match do_start clk e (l_timer l) with (e1, Err ex) => (e1, GDone, EvRaise ex) | (e1, Ok _) => (e1, GLoop l c n, EvNone) end
      = (e', g', ev) -> e_world e' = e_world e).
    { unfold do_start. destruct (timer_start _ _); intros E; injection E as <- <- <-; reflexivity. }
    destruct (l_limit l) as [|m|]; [exact (Hr H)| |injection H as <- <- <-; reflexivity].
    destruct (m <=? n); [|exact (Hr H)]. injection H as <- <- <-. unfold do_abort. destruct (t_running _); reflexivity.
  - injection H as <- <- <-. reflexivity.
Qed.

Lemma next_world clk shuffle f : forall e g e' g' ev, timed e g -> started g -> next clk shuffle f e g = Some (e', g', ev) -> e_world e' = e_world e.
Proof.
  induction f as [|f IH]; intros e g e' g' ev Ht Hs H; [discriminate|]. cbn [next] in H.
  destruct (micro clk shuffle e g) as [[e1 g1] ev1] eqn:E. pose proof (micro_world _ _ _ _ _ _ _ Hs E) as Ew.
  destruct (micro_timed _ _ _ _ _ _ _ Ht E) as [Ht1 Hs1].
  destruct ev1; [rewrite (IH _ _ _ _ _ Ht1 Hs1 H); exact Ew| | |]; injection H as <- <- <-; exact Ew.
Qed.

Lemma next_world_init clk shuffle f e sv a e' g' ev : next clk shuffle f e (GInit sv a) = Some (e', g', ev) ->
  exists pre post, all_cons (w_model (e_world e)) a = pre ++ post /\ e_world e' = compile_all (s_compile sv) (e_world e) pre.
Proof.
  destruct f as [|f]; [discriminate|]. cbn [next micro]. intros H.
  destruct (begin clk shuffle e sv a) as [[e1 g1] ev1] eqn:E.
  assert (Hb : (exists pre post, all_cons (w_model (e_world e)) a = pre ++ post /\ e_world e1 = compile_all (s_compile sv) (e_world e) pre)).
  { unfold begin in E. change (e_world (reset e)) with (e_world e) in E. destruct (negb _).
    { injection E as <- <- <-. exists [], (all_cons (w_model (e_world e)) a). auto. }
    destruct (do_setup_world (s_compile sv) (e_world e) (x_additional a)) as (pre & post & Ep & Ef).
    exists pre, post. split; [exact Ep|]. rewrite <- Ef.
    destruct (do_setup (s_compile sv) (e_world e) (x_additional a)) as [w [u|ex]]; cbn [fst].
    2:{ injection E as <- <- <-. reflexivity. }
    destruct (select_order _ _ _ _); [injection E as <- <- <-; reflexivity|].
    unfold do_start in E. destruct (timer_start _ _); injection E as <- <- <-; reflexivity. }
  destruct (micro_timed clk shuffle e (GInit sv a) e1 g1 ev1 Logic.I E) as [Ht1 Hs1].
  destruct ev1; [rewrite (next_world _ _ _ _ _ _ _ _ Ht1 Hs1 H); exact Hb| | |]; injection H as <- <- <-; exact Hb.
Qed.

(** ** Objects *)

Definition pinv (B : nat -> cbody) (p : prog) : Prop :=
  (forall i, table B (world_of p i)) /\
  (forall i, ModelFacts.inv (world_of p i)) /\
  (forall i, domains_ok (p_models p i)) /\
  (forall i c, In c (m_cons (p_models p i)) -> (c_id c < p_ncon p)%nat) /\
  (forall id, (id < p_ncon p)%nat -> body_known p (B id)) /\
  (forall g a c, go_state (p_gens p g) = PNew a -> In c (x_additional a) -> known B p c).

Lemma pinv_init B : pinv B init_prog.
Proof.
  split; [intros i; split; [intros c []|discriminate]|]. split; [intros i; exact ModelFacts.inv_init|].
  split; [intros i x d []|]. split; [intros i c []|]. split; [cbn; lia|]. discriminate.
Qed.

(** A step that leaves the objects and the unstarted generators. *)
Lemma pinv_keep B p p' : pinv B p -> p_par p' = p_par p -> p_code p' = p_code p -> p_npar p' = p_npar p -> p_ncon p' = p_ncon p ->
  (forall i, p_models p' i = p_models p i) ->
  (forall g a, go_state (p_gens p' g) = PNew a -> go_state (p_gens p g) = PNew a \/ forall c, In c (x_additional a) -> known B p c) -> pinv B p'.
Proof.
  intros (H1 & H2 & H3 & H4 & H5 & H6) E1 E2 E3 E4 Em Hg. split; [|split; [|split; [|split; [|split]]]].
  - intros i. destruct (H1 i) as [A C]. split; cbn in *; rewrite ?Em, ?E2; assumption.
  - intros i. apply (ModelFacts.inv_same_model (world_of p i)); [apply H2|]. cbn. apply Em.
  - intros i. rewrite Em. apply H3.
  - intros i c. rewrite Em, E4. apply H4.
  - intros id Hid. unfold body_known. rewrite E3. rewrite E4 in Hid. now apply H5.
  - intros g a c Hs Hc. unfold known. rewrite E4. destruct (Hg g a Hs) as [H|H]; [eapply H6; eauto|now apply H].
Qed.

Lemma table_compile_all B cmp cs : forall w, table B w -> (forall c, In c cs -> B (c_id c) = c_body c) -> table B (compile_all cmp w cs).
Proof.
  induction cs as [|c cs IH]; intros w Ht Hc; [exact Ht|]. cbn [compile_all fold_left]. apply IH; [|intros; apply Hc; now right].
  destruct cmp; [|exact Ht]. exact (table_step B w (CompileConstraint c) Ht (Hc c (or_introl eq_refl))).
Qed.

Lemma pinv_cons B p g s i a : pinv B p -> p_gens p g = GenObj s i (PNew a) -> forall c, In c (all_cons (p_models p i) a) -> known B p c.
Proof.
  intros (H1 & _ & _ & H4 & _ & H6) Eg c Hc. apply in_app_or in Hc. destruct Hc as [Hc|Hc].
  - split; [eapply H4; eauto|]. now apply (proj1 (H1 i)).
  - apply (H6 g a); [now rewrite Eg|exact Hc].
Qed.

Lemma pinv_step clk shuffle f B p x p' o : tinv p -> pinv B p -> proper B p x -> step clk shuffle f p x = Some (p', o) -> pinv B p'.
Proof.
  intros Hti Hi Hx H. destruct x as [|i a|pl t lm c|s v|s v|s v|s v|s i a|g|g|s]; cbn [step] in H; cbv zeta in H.
  - injection H as <- <-. destruct Hi as (H1 & H2 & H3 & H4 & H5 & H6). split; [|split; [|split; [|split; [|split; [exact H5|exact H6]]]]].
    + intros i. destruct (H1 i) as [A C]. split; [|exact C]. cbn. unfold upd. destruct (Nat.eqb i (p_nmodels p)); [intros c []|exact A].
    + intros i. unfold upd; cbn. unfold world_of; cbn. unfold upd. destruct (Nat.eqb i (p_nmodels p)); [|exact (H2 i)].
      apply (ModelFacts.inv_same_model init_world); [exact ModelFacts.inv_init|reflexivity].
    + intros i. cbn. unfold upd. destruct (Nat.eqb i (p_nmodels p)); [intros x d []|apply H3].
    + intros i c. cbn. unfold upd. destruct (Nat.eqb i (p_nmodels p)); [intros []|apply H4].
  - destruct (Nat.ltb i (p_nmodels p)); [|injection H as <- <-; exact Hi].
    destruct (run_api a (world_of p i)) as [w r] eqn:Ea. injection H as <- <-.
    destruct Hi as (H1 & H2 & H3 & H4 & H5 & H6).
    assert (Hg : match a with
      | AddConstraint (ABool b) => B (w_ncon (world_of p i)) = CConst b
      | AddConstraint (AExpr e) => B (w_ncon (world_of p i)) = CExpr e
      | AddConstraint (ACons c) | CompileConstraint c => B (c_id c) = c_body c
      | AddAllDiff xs => B (w_ncon (world_of p i)) = CAllDiff xs
      | NewConstraint b => B (w_ncon (world_of p i)) = b
      | _ => True
      end).
    { destruct a as [d nm|nm|v nm|[b|e|c|]|xs|b|q v|b|c]; cbn in Hx |- *; auto; try (now destruct Hx). }
    pose proof (table_step B (world_of p i) a (H1 i) Hg) as Ht. pose proof (ModelFacts.inv_step a (world_of p i) (H2 i)) as Hv.
    pose proof (domains_step a (world_of p i) (H3 i)) as Hd. pose proof (api_heap a (world_of p i)) as Hh. cbv zeta in Hh.
    rewrite Ea in *. cbn [fst] in *. destruct Hh as (Hp & Hc & _ & _ & _ & Hm). cbn [world_of w_npar w_ncon w_model] in Hp, Hc, Hm.
    assert (Hle : (p_ncon p <= w_ncon w)%nat) by (rewrite Hc; destruct (makes a); lia).
    split; [|split; [|split; [|split; [|split]]]].
    + intros j. destruct Ht as [A C]. split; [|exact C]. cbn. unfold upd. destruct (Nat.eqb j i); [exact A|exact (proj1 (H1 j))].
    + intros j. unfold world_of; cbn. unfold upd. destruct (Nat.eqb j i).
      * now apply (ModelFacts.inv_same_model w).
      * now apply (ModelFacts.inv_same_model (world_of p j)).
    + intros j. cbn. unfold upd. destruct (Nat.eqb j i); [exact Hd|apply H3].
    + intros j c. cbn. unfold upd. destruct (Nat.eqb j i); intros Hin; [|specialize (H4 j c Hin); lia].
      destruct (Hm c Hin) as [H'|[->|[H' H'']]]; [specialize (H4 i c H'); lia| |].
      * cbn in Hx. destruct Hx as [Hx _]. lia.
      * rewrite H'. rewrite Hc. destruct (makes a); [lia|congruence].
    + intros id Hid e q Eb Hu. cbn in *. rewrite Hc in Hid.
      destruct (Nat.lt_ge_cases id (p_ncon p)) as [Hlt|Hge]; [specialize (H5 id Hlt e q Eb Hu); lia|].
      assert (id = p_ncon p) by (destruct (makes a); lia). subst id.
      assert (q < p_npar p)%nat; [|lia].
      destruct a as [d nm|nm|v nm|[b|e0|c|]|xs|b|q0 v|b|c]; cbn in Hx, Hc, Hid; try lia; try congruence.
      * destruct Hx as [Hx Hk]. rewrite Hx in Eb. eapply Hk; eauto.
      * destruct Hx as [Hx Hk]. rewrite Hx in Eb. eapply Hk; eauto.
    + intros g a' c Hs Hin. destruct (H6 g a' c Hs Hin) as [A C]. split; [cbn; lia|exact C].
  - injection H as <- <-. apply (pinv_keep B p); auto.
  - destruct (Nat.ltb s (p_nsolvers p)); injection H as <- <-; [|exact Hi]. apply (pinv_keep B p); auto.
  - destruct (Nat.ltb s (p_nsolvers p)); injection H as <- <-; [|exact Hi]. apply (pinv_keep B p); auto.
  - destruct (Nat.ltb s (p_nsolvers p)); injection H as <- <-; [|exact Hi]. apply (pinv_keep B p); auto.
  - destruct (Nat.ltb s (p_nsolvers p)); injection H as <- <-; [|exact Hi]. apply (pinv_keep B p); auto.
  - destruct (_ && _); injection H as <- <-; [|exact Hi]. apply (pinv_keep B p); auto.
    intros g a'. cbn. unfold upd. destruct (Nat.eqb g (p_ngens p)); [|auto]. cbn. intros E. injection E as <-. right. exact Hx.
  - destruct (Nat.ltb g (p_ngens p)) eqn:Eg; [|injection H as <- <-; exact Hi].
    assert (H' : step clk shuffle f p (Next g) = Some (p', o)) by (cbn [step]; cbv zeta; rewrite Eg; exact H).
    apply Nat.ltb_lt in Eg. destruct (step_next clk shuffle f p g p' o H' Eg) as (e & y & ev & En & -> & ->). clear H H'.
    destruct (p_gens p g) as [s i st] eqn:Egen.
    assert (Hw : exists cmp L, e_world e = compile_all cmp (world_of p i) L /\ forall c, In c L -> known B p c).
    { unfold own_env, starting in En. rewrite Egen in En. cbn [go_solver go_model go_state] in En. destruct st as [a|x].
      - destruct (next_world_init _ _ _ _ _ _ _ _ _ En) as (pre & post & E & Ew). do 2 eexists. split; [exact Ew|].
        intros c Hc. apply (pinv_cons B p g s i a Hi Egen). change (p_models p i) with (w_model (e_world (env_of p s i))). rewrite E.
        apply in_or_app. now left.
      - exists false, []. split; [|intros c []]. destruct Hti as (T1 & _). specialize (T1 g). rewrite Egen in T1. cbn in T1.
        change (compile_all false (world_of p i) []) with (e_world (env_of p s i)).
        eapply next_world; [| |exact En]; [|apply T1]. destruct x; apply T1. }
    cbn [go_solver go_model]. destruct Hw as (cmp & L & Ew & HL). destruct Hi as (H1 & H2 & H3 & H4 & H5 & H6).
    destruct (compile_all_sizes cmp L (world_of p i)) as [Es1 Es2].
    assert (Emod : w_model (e_world e) = p_models p i) by (rewrite Ew; apply compile_all_model).
    assert (Em : forall j, upd (p_models p) i (w_model (e_world e)) j = p_models p j).
    { intros j. unfold upd. destruct (Nat.eqb_spec j i) as [->|]; [exact Emod|reflexivity]. }
    split; [|split; [|split; [|split; [|split]]]].
    + intros j. split; cbn.
      * rewrite Em. exact (proj1 (H1 j)).
      * rewrite Ew. apply (table_compile_all B cmp L (world_of p i) (H1 i)). intros c Hc. now apply HL.
    + intros j. apply (ModelFacts.inv_same_model (world_of p j)); [apply H2|]. cbn. apply Em.
    + intros j. cbn. rewrite Em. apply H3.
    + intros j c. cbn. rewrite Em. rewrite Ew, Es1. apply H4.
    + intros id Hid e0 q. cbn in *. rewrite Ew, Es2. rewrite Ew, Es1 in Hid. now apply H5.
    + intros k a c. cbn. unfold upd. destruct (Nat.eqb k g); [discriminate|]. intros Hs Hc. destruct (H6 k a c Hs Hc) as [A C].
      split; [cbn; rewrite Ew, Es1; exact A|exact C].
  - destruct (Nat.ltb g (p_ngens p)); injection H as <- <-; [|exact Hi]. apply (pinv_keep B p); auto.
    intros k a. cbn. unfold upd. destruct (Nat.eqb k g); [discriminate|auto].
  - destruct (Nat.ltb s (p_nsolvers p)); injection H as <- <-; exact Hi.
Qed.

Lemma pinv_run clk shuffle f B xs : forall p log q, tinv p -> pinv B p -> proper_run clk shuffle f B p xs -> run clk shuffle f p xs = Some (log, q) -> pinv B q.
Proof.
  induction xs as [|x xs IH]; intros p log q Ht Hi Hp H; [injection H as <- <-; exact Hi|]. cbn [run proper_run] in *.
  destruct Hp as [Hx Hp]. destruct (step clk shuffle f p x) as [[p1 o]|] eqn:E; [|discriminate].
  destruct (run clk shuffle f p1 xs) as [[log' q']|] eqn:Er; [|discriminate]. injection H as <- <-.
  eapply (IH p1); eauto; [eapply tinv_step; eauto|eapply pinv_step; eauto].
Qed.

Lemma proper_run_app clk shuffle f B xs : forall p ys log q, proper_run clk shuffle f B p (xs ++ ys) -> run clk shuffle f p xs = Some (log, q) ->
  proper_run clk shuffle f B p xs /\ proper_run clk shuffle f B q ys.
Proof.
  induction xs as [|x xs IH]; intros p ys log q Hp H; [injection H as <- <-; split; [exact Logic.I|exact Hp]|]. cbn [app run proper_run] in *.
  destruct Hp as [Hx Hp]. destruct (step clk shuffle f p x) as [[p1 o]|] eqn:E; [|discriminate].
  destruct (run clk shuffle f p1 xs) as [[log' q']|] eqn:Er; [|discriminate]. injection H as <- <-.
  destruct (IH _ _ _ _ Hp Er). auto.
Qed.

(** Every model of the program is a setting for [solve]. *)
Lemma pinv_valid B p sh s i a : pinv B p -> (forall c, In c (x_additional a) -> known B p c) -> shuffles sh -> valid sh (env_of p s i) a.
Proof.
  intros (H1 & H2 & H3 & H4 & _) Ha Hs. split; [exact Hs|]. cbn. split.
  { destruct (H2 i) as (A1 & A2 & _). split; [exact A1|]. intros x Hx. destruct (A2 x Hx) as [|(k & _ & Hk)]; eauto. }
  split; [apply H3|].
  assert (Hall : forall c, In c (all_cons (p_models p i) a) -> B (c_id c) = c_body c).
  { intros c Hc. apply in_app_or in Hc. destruct Hc as [Hc|Hc]; [now apply (proj1 (H1 i))|now apply Ha]. }
  split.
  - intros c c' Hc Hc' E. rewrite <- (Hall c Hc), <- (Hall c' Hc'). now rewrite E.
  - intros c e f Hc Hb. apply (proj2 (H1 i)). rewrite (Hall c Hc). exact Hb.
Qed.
