(** Lemmas behind Properties_Solver.v: whole runs of [solve]. *)
From Coq Require Import Permutation.
From Verif Require Import Solver SpecFormula SpecSafe SpecSolve ExprFacts DictFacts ModelFacts CompileFacts CodeFacts
  SearchFacts LoopFacts EnumFacts SetupFacts SolveFacts MasterFacts HistoryFacts.
Open Scope list_scope.
Open Scope Z_scope.

Lemma prefix_In {A} (a b : list A) x : prefix a b -> In x a -> In x b.
Proof. intros (c & ->) H. apply in_or_app. now left. Qed.
Lemma prefix_trans {A} (a b c : list A) : prefix a b -> prefix b c -> prefix a c.
Proof. intros (p & ->) (q & ->). exists (p ++ q). now rewrite app_assoc. Qed.
Lemma prefix_nil {A} (a : list A) : prefix [] a.
Proof. now exists a. Qed.
Lemma prefix_FOP {A} (R : A -> A -> Prop) a b : prefix a b -> ForallOrdPairs R b -> ForallOrdPairs R a.
Proof.
  intros (c & ->). induction a as [|x a IH]; intros H; [constructor|]. inversion H; subst. constructor.
  - apply Forall_app in H2. apply H2.
  - auto.
Qed.
Lemma prefix_firstn {A} (a b : list A) : prefix a b -> a = firstn (length a) b.
Proof. intros (c & ->). rewrite firstn_app, Nat.sub_diag, firstn_all. simpl. now rewrite app_nil_r. Qed.

Lemma variables_pure vs : dkeys (pure_variables vs) =
  flat_map (fun p => match snd p with VVar _ => [fst p] | VPar _ => [] end) vs.
Proof. induction vs as [|[x [d|p]] vs IH]; simpl; [reflexivity|now f_equal|exact IH]. Qed.

Lemma variables_of_pure m : dkeys (pure_variables (m_vars m)) = variables_of m.
Proof. apply variables_pure. Qed.

Lemma variables_of_In m x : In x (variables_of m) <-> exists d, is_variable m x d.
Proof. rewrite <- variables_of_pure. apply pure_keys_In. Qed.

Lemma declared_variable m x d : well_named m -> is_variable m x d -> declared m x = d.
Proof.
  intros Hn Hd. unfold declared. rewrite (proj2 (dget_NoDup (m_vars m) x (VVar d) (proj1 Hn)) Hd). reflexivity.
Qed.

Lemma NoDup_before d a b : NoDup d -> before d a b -> a <> b.
Proof.
  intros Hd (l1 & l2 & l3 & ->) ->. apply NoDup_remove_2 in Hd. apply Hd. apply in_or_app. right.
  apply in_or_app. right. now left.
Qed.

Section Runs.
Variable clk : nat -> Z.
Variable shuffle : list name -> list name.

(** The enumeration a run is a prefix of. *)
Definition full (e : env) (sv : solver) (a : args) : list subst :=
  let m := w_model (e_world e) in
  if m_solvable m then
    match do_setup (s_compile sv) (e_world e) (x_additional a) with
    | (w, Ok u) =>
        match order_of shuffle sv a m u with
        | [] => []
        | order => enum w (GInfo (u_doms u) (u_cons u) (u_ad u)) order []
        end
    | _ => []
    end
  else [].

Section One.
Variables (f : nat) (e : env) (sv : solver) (a : args) (ys : list subst) (e' : env) (r : option exn).
Let m := w_model (e_world e).
Let cs := all_cons m a.
Hypothesis Hv : valid shuffle e a.
Hypothesis H : solve_all clk shuffle f e sv a = Some (ys, e', r).

Let Hs : shuffles shuffle := proj1 Hv.
Let Hn : well_named m := proj1 (proj2 Hv).
Let Hd : domains_ok m := proj1 (proj2 (proj2 Hv)).
Let Ho : objects (e_world e) cs := proj2 (proj2 (proj2 Hv)).

Lemma the_run : run_of clk shuffle e sv a ys e' r.
Proof. exact (run_spec clk shuffle f e sv a ys e' r Hs Hn Ho H). Qed.

(** In the loop case, everything about it. *)
Lemma run_cases :
  (ys = [] /\ e_interrupt e' = None /\ get_stats e' = (0, 0, None) /\
    ((m_solvable m = false /\ r = None /\ e_world e' = e_world e) \/
     (m_solvable m = true /\ ~ has_variable m /\ r = None /\ w_model (e_world e') = m /\ w_par (e_world e') = w_par (e_world e)) \/
     (m_solvable m = true /\ w_model (e_world e') = m /\ w_par (e_world e') = w_par (e_world e) /\
      exists ex, r = Some ex /\
      ((eval_error (e_world e') m cs ex /\ eval_error (compile_all (s_compile sv) (e_world e) cs) m cs ex) \/
        (~ groups_ok m cs /\ (ex = KeyError \/ ex = ValueError)))))) \/
  (m_solvable m = true /\ has_variable m /\ groups_ok m cs /\ exists u order ys0 r0,
     let w := e_world e' in let i := GInfo (u_doms u) (u_cons u) (u_ad u) in
     do_setup (s_compile sv) (e_world e) (x_additional a) = (w, Ok u) /\
     order = order_of shuffle sv a m u /\
     w = compile_all (s_compile sv) (e_world e) cs /\
     prefix ys ys0 /\ prefix ys0 (enum w i order []) /\
     match r0 with Ok _ => ys0 = enum w i order [] | Err ex => eval_error w m cs ex end /\
     finish clk passive (run_local e sv a u) (Cfg [(order, [])] []) 0 (start_env clk e w) e' ys r ys0 w
       (match r0 with Ok _ => None | Err ex => Some ex end) /\
     search i passive order 0 w [] = (ys0, w, r0) /\
     exists f', drain clk shuffle f' passive 0 (start_env clk e w)
      (GLoop (run_local e sv a u) (Cfg [(order, [])] []) 0) = Some (ys, e', r)).
Proof.
  assert (Hst : forall w, get_stats (set_world (reset e) w) = (0, 0, None)).
  { intros w. unfold get_stats. simpl. now rewrite upd_same. }
  destruct the_run as [Hsol -> -> ->|w ex Hsol Es -> -> ->|w u Hsol Es Eo -> -> ->|w u f' ys0 r0 Hsol Es Eo Esearch Ed Hp Hf Hw].
  - left. repeat split. { exact (Hst (e_world e)). } left. auto.
  - left. repeat split. { apply Hst. } right. right. split; [assumption|].
    destruct (do_setup_world (s_compile sv) (e_world e) (x_additional a)) as (pre & post & _ & E).
    rewrite Es in E. simpl in E. subst w. cbn [e_world set_world]. split; [apply compile_all_model|]. split; [apply compile_all_par|].
    exists ex. split; [reflexivity|]. exact (do_setup_err _ _ _ _ _ Hn Ho Es).
  - left. repeat split. { apply Hst. } right. left. split; [assumption|].
    destruct (order_facts shuffle _ _ _ _ _ sv a Hs Hn Ho Es) as (Hpm & _). rewrite Eo in Hpm. split; [|split; [reflexivity|]].
    + intros (x & d & Hx). apply Permutation_nil in Hpm.
      assert (In x (dkeys (pure_variables (m_vars (w_model (e_world e)))))) by (apply pure_keys_In; eauto).
      rewrite Hpm in H0. contradiction.
    + destruct (do_setup_spec _ _ _ _ _ Ho Es) as (-> & _). split; [apply compile_all_model|apply compile_all_par].
  - right. subst w. split; [assumption|].
    destruct (order_facts shuffle _ _ _ _ _ sv a Hs Hn Ho Es) as (Hpm & _).
    destruct (loop_setup shuffle e sv a _ u Hs Hn Ho Es) as (Hw & Hu & Hg & _).
    split; [|split].
    + destruct (order_of shuffle sv a (w_model (e_world e)) u) as [|x o]; [contradiction|].
      assert (Hin : In x (dkeys (pure_variables (m_vars (w_model (e_world e)))))).
      { eapply Permutation_in; [exact Hpm|now left]. }
      apply pure_keys_In in Hin. destruct Hin as (d & Hin). exists x, d. exact Hin.
    + intros c xs Hc Hb.
      assert (Had : is_ad c = true) by (unfold is_ad; now rewrite Hb).
      destruct (Hg c Hc Had) as [Hne Hall]. split.
      * destruct (c_vars c) as [|x l] eqn:E; [contradiction|]. exists x. apply mentions_vars. rewrite E. now left.
      * intros x Hx. apply pure_keys_In. apply Hall. now apply mentions_vars.
    + exists u, (order_of shuffle sv a m u), ys0, r0.
      destruct (loop_search shuffle e sv a _ u Hs Hn Ho Es ys0 r0 Esearch) as [Hp0 Hr0].
      repeat split; try assumption. exists f'. exact Ed.
Qed.

Lemma run_model : w_model (e_world e') = m /\ w_par (e_world e') = w_par (e_world e).
Proof.
  destruct run_cases as [(_ & _ & _ & [(_ & _ & ->)|[(_ & _ & _ & H1 & H2)|(_ & H1 & H2 & _)]])|(_ & _ & _ & u & order & ys0 & r0 & _ & _ & Hw & _)].
  - split; reflexivity.
  - auto.
  - auto.
  - rewrite Hw. split; [apply compile_all_model|apply compile_all_par].
Qed.

Lemma sound s : In s ys -> solves (evaluates_true (e_world e')) m cs s.
Proof.
  destruct run_cases as [(-> & _)|(Hsol & Hhv & Hg & u & order & ys0 & r0 & Es & Eo & Hw & Hp & Hp0 & _)]; [intros []|].
  intros Hin. apply (prefix_In _ _ _ Hp) in Hin. apply (prefix_In _ _ _ Hp0) in Hin. subst order.
  now apply (loop_enum shuffle e sv a _ u Hs Hn Ho Es).
Qed.

Lemma exhaustive :
  m_solvable m = true -> has_variable m -> r = None -> e_interrupt e' = None ->
  forall t, solves (evaluates_true (e_world e')) m cs t -> exists s, In s ys /\ same_dict s t.
Proof.
  intros Hsol Hhv Hr Hi t Ht.
  destruct run_cases as [(_ & _ & _ & [(E & _)|[(_ & E & _)|(_ & _ & _ & ex & E & _)]])|(_ & _ & Hg & u & order & ys0 & r0 & Es & Eo & Hw & Hp & Hp0 & Hr0 & Hf & _)];
    try congruence; try contradiction.
  subst order. destruct Hf as [Ey Er _ _ _ _ _| | | | ]; try congruence.
  rewrite Hr in Er. destruct r0 as [k|ex]; [|discriminate]. subst ys ys0.
  exact (loop_complete shuffle e sv a _ u Hs Hn Ho Es t Ht).
Qed.

Lemma unlimited_end :
  unlimited sv a -> no_raise (ceval (e_world e')) m cs -> groups_ok m cs ->
  r = None /\ e_interrupt e' = None.
Proof.
  intros [Hto Hli] Hnr Hgo.
  assert (Hne : forall ex, ~ eval_error (e_world e') m cs ex).
  { intros ex (c & s & Hc & Hcc & Hdom & Hall & He). destruct (Hnr c s Hc Hcc Hdom Hall) as (b & Hb). congruence. }
  destruct run_cases as [(_ & Hi & _ & [(_ & E & _)|[(_ & _ & E & _)|(_ & _ & _ & ex & _ & [[E _]|[E _]])]])|(_ & _ & Hg & u & order & ys0 & r0 & Es & Eo & Hw & Hp & Hp0 & Hr0 & Hf & _)].
  - auto.
  - auto.
  - exfalso. now apply (Hne ex).
  - contradiction.
  - destruct Hf as [Ey Er _ Ei _ _ _|n E|t E|E|E]; try (simpl in E; unfold timeout_of, limit_of in *; congruence).
    destruct r0 as [k|ex]; [|exfalso; now apply (Hne ex)]. split; [exact Er|]. rewrite Ei. reflexivity.
Qed.

Lemma complete :
  unlimited sv a -> m_solvable m = true -> has_variable m ->
  no_raise (ceval (e_world e')) m cs -> groups_ok m cs ->
  r = None /\ e_interrupt e' = None /\
  forall t, solves (evaluates_true (e_world e')) m cs t -> exists s, In s ys /\ same_dict s t.
Proof.
  intros Hu Hsol Hhv Hnr Hg. destruct (unlimited_end Hu Hnr Hg) as [Hr Hi].
  split; [exact Hr|]. split; [exact Hi|]. now apply exhaustive.
Qed.

Lemma ordered : exists order,
  Permutation order (variables_of m) /\
  (policy_of sv a = ORDERED -> order = variables_of m) /\
  (policy_of sv a = REVERSED -> order = rev (variables_of m)) /\
  (policy_of sv a = RANDOM -> order = shuffle (variables_of m)) /\
  (forall s, In s ys -> map fst s = order) /\
  ForallOrdPairs (lex_before order (declared m)) ys.
Proof.
  destruct run_cases as [(-> & _)|(Hsol & Hhv & Hg & u & order & ys0 & r0 & Es & Eo & Hw & Hp & Hp0 & _)].
  - exists (match policy_of sv a with REVERSED => rev (variables_of m) | RANDOM => shuffle (variables_of m) | _ => variables_of m end).
    split; [destruct (policy_of sv a); try apply Permutation_refl; try apply Hs; symmetry; apply Permutation_rev|].
    repeat split; try (intros ->; reflexivity); [intros s []|constructor].
  - destruct (do_setup_spec _ _ _ _ _ Ho Es) as (_ & Hu & _).
    assert (Hk : dkeys (u_doms u) = variables_of m).
    { rewrite (ui_keys _ _ _ _ Hu). apply variables_of_pure. }
    exists order. split; [|split; [|split; [|split; [|split]]]].
    + subst order. rewrite <- Hk. now apply select_order_perm.
    + intros Hpo. subst order. unfold order_of. fold (policy_of sv a). rewrite Hpo. exact Hk.
    + intros Hpo. subst order. unfold order_of. fold (policy_of sv a). rewrite Hpo. simpl. now rewrite Hk.
    + intros Hpo. subst order. unfold order_of. fold (policy_of sv a). rewrite Hpo. simpl. now rewrite Hk.
    + intros s Hin. apply (prefix_In _ _ _ Hp) in Hin. apply (prefix_In _ _ _ Hp0) in Hin. subst order.
      now apply (loop_enum shuffle e sv a _ u Hs Hn Ho Es).
    + apply (prefix_FOP _ _ _ (prefix_trans _ _ _ Hp Hp0)). subst order.
      eapply FOP_impl; [|exact (loop_sorted shuffle e sv a _ u Hs Hn Ho Es)].
      intros s s' Hin Hin' (p & x & q & b & c & E & Hpre & Hb & Hc & Hbef).
      exists p, x, q, b, c. repeat split; try assumption.
      assert (Hx : exists d, is_variable m x d).
      { apply variables_of_In. rewrite <- Hk. eapply Permutation_in; [now apply (select_order_perm shuffle (policy_of sv a) m u)|].
        unfold order_of in E. fold (policy_of sv a) in E. fold m in E. rewrite E. apply in_or_app. right. now left. }
      destruct Hx as (d & Hx). rewrite (declared_variable m x d Hn Hx).
      exact (loop_dom shuffle e sv a _ u Hs Hn Ho Es x d b c Hx Hbef).
Qed.

Lemma distinct : ForallOrdPairs (fun s s' => ~ same_dict s s') ys.
Proof.
  destruct ordered as (order & Hpm & _ & _ & _ & _ & Hsort).
  eapply FOP_impl; [|exact Hsort]. intros s s' Hin Hin' (p & x & q & b & c & E & _ & Hb & Hc & Hbef) Hsame.
  specialize (Hsame x). rewrite Hb, Hc in Hsame. inversion Hsame; subst c.
  assert (Hx : exists d, is_variable m x d).
  { apply variables_of_In. eapply Permutation_in; [exact Hpm|]. rewrite E. apply in_or_app. right. now left. }
  destruct Hx as (d & Hx). rewrite (declared_variable m x d Hn Hx) in Hbef.
  now apply (NoDup_before d b b (Hd x d Hx) Hbef).
Qed.

Lemma counted :
  t_count (e_timers e' (e_timer e')) = len ys /\
  exists segs, length segs = length ys /\
    match segs with
    | [] => True
    | (b, c) :: segs' => b = e_clk e /\ (b < c)%nat /\ ordered_from (S c) segs'
    end /\
    t_elapsed (e_timers e' (e_timer e')) = durations clk segs.
Proof.
  destruct run_cases as [(-> & _ & Hst & _)|(Hsol & Hhv & Hg & u & order & ys0 & r0 & Es & Eo & Hw & Hp & Hp0 & _ & _ & _ & f' & Hdr)].
  - unfold get_stats in Hst. injection Hst as E1 E2 E3. rewrite E1, E2. split; [reflexivity|]. exists []. repeat split.
  - destruct (drain_stats clk shuffle passive f' 0 (start_env clk e (e_world e')) (run_local e sv a u) (Cfg [(order, [])] []) 0 ys e' r (e_clk e)) as (H1 & H2 & H3 & H4 & segs & H5 & H6 & H7).
    + simpl. now rewrite upd_same.
    + simpl. lia.
    + exact Hdr.
    + simpl in H1. rewrite H1. simpl in H4, H7. rewrite upd_same in H4, H7. simpl in H4, H7. split; [exact H4|].
      exists segs. split; [exact H5|]. split; [|exact H7]. destruct segs as [|[b c] segs']; [exact I|]. destruct H6 as (-> & Hlt & Hof). auto.
Qed.

Lemma exceptions ex : r = Some ex ->
  eval_error (e_world e') m cs ex \/
  (~ groups_ok m cs /\ (ex = KeyError \/ ex = ValueError)) \/
  (ex = TypeError /\ (timeout_of sv a = LInfinity \/ limit_of sv a = LInfinity)).
Proof.
  intros Hr.
  destruct run_cases as [(_ & Hi & _ & [(_ & E & _)|[(_ & _ & E & _)|(_ & _ & _ & ex' & E1 & E)]])|(_ & _ & Hg & u & order & ys0 & r0 & Es & Eo & Hw & Hp & Hp0 & Hr0 & Hf & _)];
    try congruence.
  - rewrite Hr in E1. inversion E1; subst ex'. tauto.
  - destruct Hf as [Ey Er _ Ei _ _ _|n E E1|t E E1|E _ E1|E _ E1]; try congruence.
    + rewrite Hr in Er. destruct r0 as [k|ex']; [discriminate|]. inversion Er; subst ex'. auto.
    + right. right. split; [congruence|]. left. exact E.
    + right. right. split; [congruence|]. right. exact E.
Qed.

Lemma interrupts :
  match e_interrupt e' with
  | None => True
  | Some ILimit => r = None /\ exists n, limit_of sv a = LNum n /\ ys <> [] /\ n <= len ys /\ (len ys = n \/ len ys = 1)
  | Some ITimeout => r = None /\ exists t j, timeout_of sv a = LNum t /\ e_clk e' = S j /\
                       t < timer_elapsed (clk j) (e_timers e' (e_timer e'))
  end.
Proof.
  destruct run_cases as [(_ & -> & _)|(_ & _ & Hg & u & order & ys0 & r0 & Es & Eo & Hw & Hp & Hp0 & Hr0 & Hf & _ & f' & Hdr)]; [exact I|].
  assert (Htm : e_timer e' = e_ntimers e).
  { destruct (drain_stats clk shuffle passive f' 0 (start_env clk e (e_world e')) (run_local e sv a u) (Cfg [(order, [])] []) 0 ys e' r (e_clk e)) as (H1 & _); try assumption.
    - simpl. now rewrite upd_same.
    - simpl. lia. }
  destruct Hf as [_ _ _ ->  _ _ _|n E E1 -> H1 H2 H3|t E E1 -> H1 (j & H2 & H3)|_ _ _ ->|_ _ _ ->]; try exact I.
  - split; [assumption|]. exists n. repeat split; auto. destruct H3 as [H3|H3]; [left; lia|now right].
  - split; [assumption|]. exists t, j. rewrite Htm. repeat split; assumption.
Qed.

End One.

(** Runs end in the same way whatever the fuel. *)
Lemma run_det f1 f2 e sv a x y :
  solve_all clk shuffle f1 e sv a = Some x -> solve_all clk shuffle f2 e sv a = Some y -> x = y.
Proof. apply drain_det. Qed.

(** A run with no timeout and no limit against one with. *)
Section Two.
Variables (f1 f2 : nat) (e : env) (sv : solver) (a a0 : args).
Variables (ys1 ys2 : list subst) (e1 e2 : env) (r1 r2 : option exn).
Hypothesis Hadd : x_additional a = x_additional a0.
Hypothesis Hpol : x_policy a = x_policy a0.
Hypothesis Hv : valid shuffle e a.
Hypothesis H1 : solve_all clk shuffle f1 e sv a = Some (ys1, e1, r1).
Hypothesis H2 : solve_all clk shuffle f2 e sv a0 = Some (ys2, e2, r2).
Hypothesis Hu : unlimited sv a0.

Lemma truncation :
  prefix ys1 ys2 /\
  ((ys1 = ys2 /\ r1 = r2 /\ e_interrupt e1 = None /\ forall n, limit_of sv a = LNum n -> ys1 = [] \/ len ys1 < n) \/
   (r1 = None /\ e_interrupt e1 = Some ILimit /\ exists n, limit_of sv a = LNum n /\ (len ys1 = n \/ n <= 0 /\ len ys1 = 1)) \/
   (r1 = None /\ e_interrupt e1 = Some ITimeout /\ (forall n, limit_of sv a = LNum n -> ys1 = [] \/ len ys1 < n) /\
    exists t j, timeout_of sv a = LNum t /\ e_clk e1 = S j /\
      t < timer_elapsed (clk j) (e_timers e1 (e_timer e1))) \/
   (r1 = Some TypeError /\ e_interrupt e1 = None /\ (timeout_of sv a = LInfinity /\ ys1 = [] \/ limit_of sv a = LInfinity /\ len ys1 = 1))).
Proof.
  assert (Hv0 : valid shuffle e a0).
  { destruct Hv as (h1 & h2 & h3 & h4). repeat split; try assumption; try apply h2; unfold all_cons in *; rewrite <- Hadd; apply h4. }
  assert (Hint : forall n, (ys1 = [] \/ len ys1 < n \/ exists k w s ex, passive k w s = Err ex) -> ys1 = [] \/ len ys1 < n).
  { intros n [|[|(k & w & s & ex & E)]]; auto. discriminate. }
  pose proof (interrupts f1 e sv a ys1 e1 r1 Hv H1) as Hin1.
  destruct (run_spec clk shuffle f1 e sv a ys1 e1 r1 (proj1 Hv) (proj1 (proj2 Hv)) (proj2 (proj2 (proj2 Hv))) H1)
    as [Hsol -> -> ->|w ex Hsol Es -> -> ->|w u Hsol Es Eo -> -> ->|w u f' ys0 r0 Hsol Es Eo Esearch Ed Hp Hf Hw];
  destruct (run_spec clk shuffle f2 e sv a0 ys2 e2 r2 (proj1 Hv0) (proj1 (proj2 Hv0)) (proj2 (proj2 (proj2 Hv0))) H2)
    as [Hsol' -> -> ->|w' ex' Hsol' Es' -> -> ->|w' u' Hsol' Es' Eo' -> -> ->|w' u' f'' ys0' r0' Hsol' Es' Eo' Esearch' Ed' Hp' Hf' Hw'];
  try congruence; try (rewrite Hadd in Es; rewrite Es in Es'; try discriminate; inversion Es'; subst);
  try (split; [apply prefix_nil|]; left; auto; fail).
  1:{ exfalso. unfold order_of in *. rewrite Hpol in Eo. contradiction. }
  1:{ exfalso. unfold order_of in *. rewrite Hpol in Eo. contradiction. }
  destruct Hu as [Ht Hl].
  assert (Eord : order_of shuffle sv a (w_model (e_world e)) u' = order_of shuffle sv a0 (w_model (e_world e)) u').
  { unfold order_of. now rewrite Hpol. }
  rewrite Eord in *. injection Es' as Ew. rewrite <- Ew in Esearch'. rewrite Esearch in Esearch'. inversion Esearch'; subst ys0' r0'.
  destruct Hf' as [Ey Er _ Ei' _ _ _|n E|t E|E|E]; try (simpl in E; unfold timeout_of, limit_of in *; congruence).
  subst ys0 r2. split; [exact Hp|].
  destruct Hf as [Ey Er _ Ei Hlb _ _|n E E1 E2 E3 E4 E5|t E E1 E2 E3 E4|E E1 E2 E3|E E1 E2 E3].
  - left. repeat split; auto.
  - right. left. repeat split; auto. exists n. split; [exact E|].
    destruct E5 as [E5|E5]; [left; lia|]. destruct (Z.le_gt_cases n 0); [right; split; assumption|left; lia].
  - right. right. left. rewrite E2 in Hin1. split; [assumption|]. split; [assumption|]. split; [|apply Hin1].
    intros n En. specialize (E3 n En). apply Hint. exact E3.
  - right. right. right. repeat split; auto.
  - right. right. right. repeat split; auto.
Qed.
End Two.

End Runs.
