(** What the enumerations of a program give, and what the statistics report. *)
From Verif Require Import Solver Program SpecFormula SpecSafe SpecSolve SpecIsolation SpecInterleave SpecProgram ExprFacts DictFacts ModelFacts CompileFacts CodeFacts
  SearchFacts LoopFacts SetupFacts MasterFacts HistoryFacts SolverProps SolverMore SolverExtra InterleaveFacts IsolationFacts InterleaveStats ProgramFacts ProgramRun ProgramInv.
Open Scope list_scope.
Open Scope Z_scope.

Lemma py_expr_uses ps ps' e : (forall p, uses p e -> ps p = ps' p) -> py_expr ps e = py_expr ps' e.
Proof.
  induction e as [z|y|p y|e IH|e IH|e IH|o l r IHl IHr|es c IH|es c IH] using expr_ind'; intros H; try reflexivity.
  - cbn. f_equal. apply H. constructor.
  - cbn [py_expr]. rewrite IH; [reflexivity|]. intros; apply H; now constructor.
  - cbn [py_expr]. rewrite IHl, IHr; [reflexivity| |]; intros; apply H; now constructor.
  - cbn [py_expr]. f_equal. apply map_ext_in. intros e He. rewrite Forall_forall in IH. apply IH; [assumption|].
    intros x Hx. apply H. eapply use_sum; eauto.
  - cbn [py_expr]. f_equal. apply map_ext_in. intros e He. rewrite Forall_forall in IH. apply IH; [assumption|].
    intros x Hx. apply H. eapply use_prod; eauto.
Qed.

Lemma as_function_uses ps ps' e : (forall p, uses p e -> ps p = ps' p) -> as_function ps e = as_function ps' e.
Proof. intros H. unfold as_function, compile, py_source. now rewrite (py_expr_uses ps ps' e H). Qed.

Lemma drain_next_end clk shuffle F : forall k e g ys ex r e1 g1 ev, drain clk shuffle F passive k e g = Some (ys, ex, r) ->
  next clk shuffle F e g = Some (e1, g1, ev) -> (forall s, ev <> EvYield s) -> ex = e1.
Proof.
  induction F as [|F IH]; intros k e g ys ex r e1 g1 ev Hd H Hn; [discriminate|]. rewrite drain_S in Hd. cbn [next] in H.
  destruct (micro clk shuffle e g) as [[e2 g2] [|s| |x]].
  - eapply IH; eauto.
  - injection H as <- <- <-. now elim (Hn s).
  - congruence.
  - congruence.
Qed.

(** ** One statement and the heap *)

Definition keeps (p q : prog) : Prop :=
  (p_npar p <= p_npar q)%nat /\ (p_ncon p <= p_ncon q)%nat /\ forall r, (r < p_npar p)%nat -> p_par q r = p_par p r.

Lemma keeps_here p : keeps p p. Proof. split; [lia|]. split; [lia|reflexivity]. Qed.
Lemma keeps_then p q r : keeps p q -> keeps q r -> keeps p r.
Proof. intros (A & B & C) (A' & B' & C'). split; [lia|]. split; [lia|]. intros k Hk. rewrite C' by lia. now apply C. Qed.

Lemma step_heap clk shuffle f B p x p' o : tinv p -> pinv B p -> proper B p x -> step clk shuffle f p x = Some (p', o) -> assigns_nothing x ->
  keeps p p' /\
  forall c e, known B p c -> c_body c = CExpr e ->
    p_code p' (c_id c) = p_code p (c_id c) \/ p_code p' (c_id c) = Some (as_function (p_par p) e).
Proof.
  intros Ht Hi Hp H Hn. assert (Hsame : forall q, p_npar q = p_npar p -> p_ncon q = p_ncon p -> p_par q = p_par p -> p_code q = p_code p ->
    keeps p q /\ forall c e, known B p c -> c_body c = CExpr e -> p_code q (c_id c) = p_code p (c_id c) \/ p_code q (c_id c) = Some (as_function (p_par p) e)).
  { intros q E1 E2 E3 E4. rewrite E4. split; [|auto]. unfold keeps. rewrite E1, E2, E3. split; [lia|]. split; [lia|reflexivity]. }
  destruct x as [|i a|pl t lm c|s v|s v|s v|s v|s i a|g|g|s]; cbn [step] in H; cbv zeta in H.
  - injection H as <- <-. now apply Hsame.
  - destruct (Nat.ltb i (p_nmodels p)); [|injection H as <- <-; now apply Hsame].
    pose proof (api_heap a (world_of p i)) as Hh. cbv zeta in Hh.
    destruct (run_api a (world_of p i)) as [w r]. injection H as <- <-. cbn [fst world_of w_npar w_ncon w_par w_code w_model] in Hh.
    destruct Hh as (H1 & H2 & H3 & H4 & _). split.
    + split; [exact H1|]. split; [cbn; rewrite H2; destruct (makes a); lia|]. intros q Hq. cbn. destruct a; try (now apply H3). contradiction.
    + intros c e [Hc Hb] Eb. destruct a as [d nm|nm|v nm|ca|xs|b|q v|b|c']; try (left; now apply H4).
      rewrite H4. cbn. unfold ccompile. destruct (c_body c') as [b|e'|xs] eqn:Eb'; try (now left).
      cbn. unfold upd. destruct (Nat.eqb_spec (c_id c) (c_id c')) as [E|]; [|now left]. right.
      destruct Hp as [_ Hp]. rewrite <- E, Hb, Eb, Eb' in Hp. now injection Hp as ->.
  - injection H as <- <-. now apply Hsame.
  - destruct (Nat.ltb s (p_nsolvers p)); injection H as <- <-; now apply Hsame.
  - destruct (Nat.ltb s (p_nsolvers p)); injection H as <- <-; now apply Hsame.
  - destruct (Nat.ltb s (p_nsolvers p)); injection H as <- <-; now apply Hsame.
  - destruct (Nat.ltb s (p_nsolvers p)); injection H as <- <-; now apply Hsame.
  - destruct (_ && _); injection H as <- <-; now apply Hsame.
  - destruct (Nat.ltb g (p_ngens p)) eqn:Eg; [|injection H as <- <-; now apply Hsame].
    assert (H' : step clk shuffle f p (Next g) = Some (p', o)) by (cbn [step]; cbv zeta; rewrite Eg; exact H).
    apply Nat.ltb_lt in Eg. destruct (step_next clk shuffle f p g p' o H' Eg) as (e & y & ev & En & -> & ->). clear H H'.
    destruct (p_gens p g) as [s i st] eqn:Egen.
    unfold own_env, starting in En. rewrite Egen in En. cbn [go_solver go_model go_state] in En. destruct st as [a|x].
    + destruct (next_world_init _ _ _ _ _ _ _ _ _ En) as (pre & post & E & Ew).
      set (cmp := s_compile _) in Ew. cbn [env_of e_world] in Ew, E. cbn [world_of w_model] in E.
      destruct (compile_all_sizes cmp pre (world_of p i)) as [Es1 Es2].
      assert (Hk : forall c, In c pre -> known B p c).
      { intros c Hc. apply (pinv_cons B p g s i a Hi Egen). rewrite E. apply in_or_app. now left. }
      split.
      * unfold keeps. cbn. rewrite Ew, Es1, Es2, compile_all_par. cbn. split; [lia|]. split; [lia|reflexivity].
      * intros c e0 [Hc Hb] Eb. cbn. rewrite Ew.
        destruct (compile_all_code cmp pre (world_of p i) c e0) as [Ec|(_ & c' & _ & _ & Ec)]; auto.
        intros c' Hc' Eid. destruct (Hk c' Hc') as [_ Hb']. congruence.
    + assert (Ew : e_world e = e_world (env_of p s i)).
      { destruct Ht as (T1 & _). specialize (T1 g). rewrite Egen in T1. cbn in T1. eapply next_world; [| |exact En]; [|apply T1]. destruct x; apply T1. }
      cbn [env_of e_world] in Ew. cbn [go_solver go_model]. apply Hsame; cbn; rewrite Ew; reflexivity.
  - destruct (Nat.ltb g (p_ngens p)); injection H as <- <-; now apply Hsame.
  - destruct (Nat.ltb s (p_nsolvers p)); injection H as <- <-; now apply Hsame.
Qed.

(** From a state [p] on, the known constraints [cs] have the code of state [p]. *)
Definition frozen (B : nat -> cbody) (p : prog) (cs : list constraint) (q : prog) : Prop :=
  keeps p q /\ forall c e, In c cs -> c_body c = CExpr e -> p_code q (c_id c) = Some (as_function (p_par p) e).

Lemma frozen_run clk shuffle f B p cs xs : forall q log q', pinv B p -> (forall c, In c cs -> known B p c) ->
  tinv q -> pinv B q -> frozen B p cs q -> proper_run clk shuffle f B q xs -> Forall assigns_nothing xs ->
  run clk shuffle f q xs = Some (log, q') -> frozen B p cs q'.
Proof.
  induction xs as [|x xs IH]; intros q log q' Hp Hk Ht Hi Hf Hpr Hn H; [injection H as <- <-; exact Hf|]. cbn [run proper_run] in *.
  destruct Hpr as [Hx Hpr]. destruct (step clk shuffle f q x) as [[q1 o]|] eqn:E; [|discriminate].
  destruct (run clk shuffle f q1 xs) as [[log' q2]|] eqn:Er; [|discriminate]. injection H as <- <-.
  apply Forall_cons_iff in Hn. destruct Hn as [Hn1 Hn].
  destruct (step_heap clk shuffle f B q x q1 o Ht Hi Hx E Hn1) as [K C].
  apply (IH q1 log' q2); auto; [eapply tinv_step; eauto|eapply pinv_step; eauto|].
  destruct Hf as [K0 C0]. split; [eapply keeps_then; eauto|]. intros c e Hc Eb.
  destruct (Hk c Hc) as [Hid Hb].
  destruct (C c e) as [->| ->]; auto.
  - split; [|exact Hb]. destruct K0 as (_ & A & _). lia.
  - f_equal. apply as_function_uses. intros r Hu. destruct K0 as (_ & _ & A). apply A.
    destruct Hp as (_ & _ & _ & _ & H5 & _). apply (H5 (c_id c) Hid e r); [congruence|exact Hu].
Qed.

Lemma frozen_eval B p cs q c s : frozen B p cs q -> In c cs ->
  ceval (world_of q 0) c s = match c_body c with CExpr e => (let! v := call_code (as_function (p_par p) e) s in Ok (truthy v)) | _ => ceval (world_of p 0) c s end.
Proof.
  intros [_ H] Hc. unfold ceval. destruct (c_body c) as [b|e|xs] eqn:Eb; try reflexivity. cbn. now rewrite (H c e Hc Eb).
Qed.

(** *** Solvers that compile *)

Lemma program_compiled clk clk' shuffle f F B xs0 log0 p g s i a xs log q ys e r :
  run clk shuffle f init_prog xs0 = Some (log0, p) -> proper_run clk shuffle f B init_prog (xs0 ++ Next g :: xs) ->
  p_gens p g = GenObj s i (PNew a) -> s_compile (so_opts (p_solvers p s)) = true -> timeout_of (so_opts (p_solvers p s)) a = LNone ->
  solve_all clk' (shuffle g) F (env_of p s i) (so_opts (p_solvers p s)) a = Some (ys, e, r) ->
  run clk shuffle f p (Next g :: xs) = Some (log, q) -> ~ In (Close g) xs -> Forall assigns_nothing xs ->
  results_of g log = answers (next_calls g (Next g :: xs)) ys r.
Proof.
  intros H0 Hpr Eg Hcmp Hto Hs Hr Hcl Hn.
  pose proof (tinv_run clk shuffle f xs0 _ _ _ tinv_init H0) as Ht.
  destruct (proper_run_app clk shuffle f B xs0 _ _ _ _ Hpr H0) as [Hp0 Hp1].
  pose proof (pinv_run clk shuffle f B xs0 _ _ _ tinv_init (pinv_init B) Hp0 H0) as Hi.
  set (cs := all_cons (p_models p i) a).
  assert (Hk : forall c, In c cs -> known B p c) by exact (pinv_cons B p g s i a Hi Eg).
  assert (Ho : objects (world_of p i) cs).
  { apply (pinv_valid B p (fun l => l) s i a Hi); [|intros l; apply Permutation.Permutation_refl]. intros c Hc. apply Hk. apply in_or_app. now right. }
  assert (Hg : (g < p_ngens p)%nat).
  { destruct (Nat.lt_ge_cases g (p_ngens p)) as [H|H]; [exact H|]. destruct Ht as (_ & H2 & _). specialize (H2 g H).
    rewrite Eg in H2. discriminate. }
  cbn [run proper_run] in Hr, Hp1. destruct Hp1 as [Hpx Hp1].
  destruct (step clk shuffle f p (Next g)) as [[p1 o]|] eqn:Es; [|discriminate].
  destruct (run clk shuffle f p1 xs) as [[log' q2]|] eqn:Er; [|discriminate]. injection Hr as <- <-.
  destruct (step_next clk shuffle f p g p1 o Es Hg) as (e1 & z & ev & En & Eo & Ep1).
  set (sv := so_opts (p_solvers p s)) in *.
  assert (Hdead : local_of z = None \/ local_of z <> None) by (destruct (local_of z); [right|left]; congruence).
  assert (Hrun : run clk shuffle f p (Next g :: xs) = Some ((Next g, o) :: log', q2)) by (cbn [run]; now rewrite Es, Er).
  destruct Hdead as [Hd|Hl].
  - apply (snapshot_core clk shuffle clk' f F p g s i a xs _ q2 ys e r [] Ht Eg Ho Hto Hs Hrun Hcl).
    + intros pre post log1 m _ _ c s0 [].
    + intros p2 o2 x E2 Ex Hx. rewrite Es in E2. injection E2 as <- <-. rewrite Ep1 in Ex. cbn in Ex. rewrite upd_same in Ex. cbn in Ex.
      injection Ex as <-. contradiction.
  - apply (snapshot_core clk shuffle clk' f F p g s i a xs _ q2 ys e r cs Ht Eg Ho Hto Hs Hrun Hcl).
    2:{ intros. apply incl_refl. }
    assert (Est : starting p g = GInit sv a) by (unfold starting; rewrite Eg; reflexivity).
    assert (Eenv : own_env p g = env_of p s i) by (unfold own_env; now rewrite Eg).
    rewrite Est, Eenv in En.
    destruct (next_agree_init clk clk' (shuffle g) f (env_of p s i) (env_of p s i) sv a eq_refl Ho Ho (fun c s0 H => eq_refl) Hto)
      as [[H _]|(e2 & g2 & e1' & g1' & ev' & E & E' & Htw1 & Ht1 & Ht1' & Hst1 & Hw1 & Hlw)]; [congruence|].
    rewrite En in E. injection E as <- <- <-. destruct (Hlw Hl) as (_ & Ew1 & Ew1'). cbn [env_of e_world world_of w_model] in Ew1, Ew1'.
    fold (world_of p i) in Ew1, Ew1'. fold cs in Ew1, Ew1'. rewrite Hcmp in Ew1, Ew1'.
    assert (Ewe : e_world e = compile_all true (world_of p i) cs).
    { unfold solve_all in Hs. destruct (drain_next clk' (shuffle g) F 0 _ _ ys e r Hs) as (e3 & g3 & ev3 & E3 & Hevs).
      pose proof (next_det _ _ _ _ _ _ _ _ E' E3) as Eq. injection Eq as <- <- <-.
      assert (Hst' : forall sv0 a0, g1' <> GInit sv0 a0).
      { intros sv0 a0 ->. destruct z; cbn in Htw1; contradiction. }
      destruct ev as [|s0| |y0]; [contradiction| | |].
      - destruct Hevs as (ys' & k' & -> & Hd'). rewrite (drain_world _ _ _ _ _ _ _ _ _ Hst' Hd'). exact Ew1'.
      - destruct Hevs as (_ & _ & ->). destruct z; cbn in Htw1; contradiction.
      - destruct Hevs as (_ & _ & ->). destruct z; cbn in Htw1; contradiction. }
    destruct (step_heap clk shuffle f B p (Next g) p1 o Ht Hi Hpx Es Logic.I) as [Kp _].
    assert (Hf1 : frozen B p cs p1).
    { split; [exact Kp|]. intros c e0 Hc Eb. rewrite Ep1. cbn. rewrite Ew1.
      apply (compile_all_in (world_of p i) cs c e0 Hc Eb). intros c' Hc' E. now apply (proj1 Ho). }
    intros pre post log1 m -> Hm c s0 Hc. cbn [run] in Hm. rewrite Es in Hm.
    destruct (run clk shuffle f p1 pre) as [[log2 m']|] eqn:Epre; [|discriminate]. injection Hm as <- <-.
    assert (Hfm : frozen B p cs m').
    { apply (frozen_run clk shuffle f B p cs pre p1 log2 m' Hi Hk); auto.
      - eapply tinv_step; eauto.
      - eapply pinv_step; eauto.
      - now apply (proper_run_app clk shuffle f B pre p1 post log2 m').
      - apply Forall_app in Hn. apply Hn. }
    rewrite (frozen_eval B p cs m' c s0 Hfm Hc), Ewe, eval_after; auto.
    2:{ intros c' Hc' E. now apply (proj1 Ho). }
    cbn [compile1]. unfold ceval, ccompile. destruct (c_body c); try reflexivity. cbn. now rewrite upd_same.
Qed.

(** *** Programs that never compile *)

Definition interpreted (p : prog) : Prop :=
  (forall id, p_code p id = None) /\ forall s, (s < p_nsolvers p)%nat -> s_compile (so_opts (p_solvers p s)) = false.

Definition owned (p : prog) : Prop := forall g, (g < p_ngens p)%nat -> (go_solver (p_gens p g) < p_nsolvers p)%nat.

Lemma owned_step clk shuffle f p x p' o : owned p -> step clk shuffle f p x = Some (p', o) -> owned p'.
Proof.
  intros Ho H. destruct x as [|i a|pl t lm c|s v|s v|s v|s v|s i a|g|g|s]; cbn [step] in H; cbv zeta in H.
  - injection H as <- <-. exact Ho.
  - destruct (Nat.ltb i (p_nmodels p)); [destruct (run_api a (world_of p i))|]; injection H as <- <-; exact Ho.
  - injection H as <- <-. intros g Hg. cbn in *. specialize (Ho g Hg). lia.
  - destruct (Nat.ltb s (p_nsolvers p)); injection H as <- <-; exact Ho.
  - destruct (Nat.ltb s (p_nsolvers p)); injection H as <- <-; exact Ho.
  - destruct (Nat.ltb s (p_nsolvers p)); injection H as <- <-; exact Ho.
  - destruct (Nat.ltb s (p_nsolvers p)); injection H as <- <-; exact Ho.
  - destruct (Nat.ltb s (p_nsolvers p)) eqn:Es; cbn [andb] in H; [|injection H as <- <-; exact Ho].
    destruct (Nat.ltb i (p_nmodels p)); injection H as <- <-; [|exact Ho].
    apply Nat.ltb_lt in Es. intros g Hg. cbn in *. unfold upd. destruct (Nat.eqb_spec g (p_ngens p)); [exact Es|]. apply Ho. lia.
  - destruct (Nat.ltb g (p_ngens p)); [|injection H as <- <-; exact Ho].
    destruct (next _ _ _ _ _) as [[[e y] ev]|]; [|discriminate]. injection H as <- <-.
    intros k Hk. cbn in *. unfold upd. destruct (Nat.eqb_spec k g) as [->|]; cbn; now apply Ho.
  - destruct (Nat.ltb g (p_ngens p)); injection H as <- <-; [|exact Ho].
    intros k Hk. cbn in *. unfold upd. destruct (Nat.eqb_spec k g) as [->|]; cbn; now apply Ho.
  - destruct (Nat.ltb s (p_nsolvers p)); injection H as <- <-; exact Ho.
Qed.

Lemma interpreted_step clk shuffle f p x p' o : tinv p -> owned p -> interpreted p -> interprets x -> step clk shuffle f p x = Some (p', o) -> interpreted p'.
Proof.
  intros Ht Ho [H1 H2] Hx H.
  assert (Hset : forall s v, s_compile v = s_compile (so_opts (p_solvers p s)) \/ s_compile v = false -> interpreted (set_opts p s v)).
  { intros s v Hv. split; [exact H1|]. intros k Hk. cbn in *. unfold upd. destruct (Nat.eqb_spec k s) as [->|]; cbn; [|now apply H2].
    destruct Hv as [->|Hv]; [now apply H2|exact Hv]. }
  destruct x as [|i a|pl t lm c|s v|s v|s v|s v|s i a|g|g|s]; cbn [step] in H; cbv zeta in H.
  - injection H as <- <-. split; assumption.
  - destruct (Nat.ltb i (p_nmodels p)); [|injection H as <- <-; split; assumption].
    pose proof (api_heap a (world_of p i)) as Hh. cbv zeta in Hh.
    destruct (run_api a (world_of p i)) as [w r]. injection H as <- <-. cbn [fst world_of w_code] in Hh.
    destruct Hh as (_ & _ & _ & _ & H5 & _). split; [|exact H2]. intros id. cbn.
    destruct a; try (destruct (H5 id) as [->| ->]; [apply H1|reflexivity]). contradiction.
  - injection H as <- <-. split; [exact H1|]. intros k Hk. cbn in *. unfold upd. destruct (Nat.eqb_spec k (p_nsolvers p)); cbn; [|apply H2; lia].
    destruct c; [contradiction|reflexivity].
  - destruct (Nat.ltb s (p_nsolvers p)); injection H as <- <-; [|split; assumption]. apply Hset. now left.
  - destruct (Nat.ltb s (p_nsolvers p)); injection H as <- <-; [|split; assumption]. apply Hset. now left.
  - destruct (Nat.ltb s (p_nsolvers p)); injection H as <- <-; [|split; assumption]. apply Hset. now left.
  - destruct (Nat.ltb s (p_nsolvers p)); injection H as <- <-; [|split; assumption]. apply Hset. right. destruct v; [contradiction|reflexivity].
  - destruct (_ && _); injection H as <- <-; split; assumption.
  - destruct (Nat.ltb g (p_ngens p)) eqn:Eg; [|injection H as <- <-; split; assumption].
    assert (H' : step clk shuffle f p (Next g) = Some (p', o)) by (cbn [step]; cbv zeta; rewrite Eg; exact H).
    apply Nat.ltb_lt in Eg. destruct (step_next clk shuffle f p g p' o H' Eg) as (e & y & ev & En & -> & ->). clear H H'.
    pose proof (Ho g Eg) as Hs. destruct (p_gens p g) as [s i st] eqn:Egen. cbn [go_solver] in Hs.
    assert (Ew : e_world e = world_of p i).
    { unfold own_env, starting in En. rewrite Egen in En. cbn [go_solver go_model go_state] in En. destruct st as [a|x].
      - destruct (next_world_init _ _ _ _ _ _ _ _ _ En) as (pre & post & E & Ew). rewrite (H2 s Hs), compile_all_false in Ew. exact Ew.
      - destruct Ht as (T1 & _). specialize (T1 g). rewrite Egen in T1. cbn in T1.
        change (world_of p i) with (e_world (env_of p s i)). eapply next_world; [| |exact En]; [|apply T1]. destruct x; apply T1. }
    split; cbn.
    + intros id. rewrite Ew. apply H1.
    + intros k Hk. unfold upd. destruct (Nat.eqb_spec k s) as [->|]; cbn; now apply H2.
  - destruct (Nat.ltb g (p_ngens p)); injection H as <- <-; split; assumption.
  - destruct (Nat.ltb s (p_nsolvers p)); injection H as <- <-; split; assumption.
Qed.

Lemma interpreted_run clk shuffle f xs : forall p log q, tinv p -> owned p -> interpreted p -> Forall interprets xs -> run clk shuffle f p xs = Some (log, q) ->
  interpreted q /\ owned q.
Proof.
  induction xs as [|x xs IH]; intros p log q Ht Ho Hi Hp H; [injection H as <- <-; auto|]. cbn [run] in *.
  apply Forall_cons_iff in Hp. destruct Hp as [Hx Hp]. destruct (step clk shuffle f p x) as [[p1 o]|] eqn:E; [|discriminate].
  destruct (run clk shuffle f p1 xs) as [[log' q']|] eqn:Er; [|discriminate]. injection H as <- <-.
  eapply (IH p1); eauto; [eapply tinv_step; eauto|eapply owned_step; eauto|eapply interpreted_step; eauto].
Qed.

Lemma keeps_run clk shuffle f B xs : forall p log q, tinv p -> pinv B p -> proper_run clk shuffle f B p xs -> Forall assigns_nothing xs ->
  run clk shuffle f p xs = Some (log, q) -> keeps p q.
Proof.
  induction xs as [|x xs IH]; intros p log q Ht Hi Hpr Hn H; [injection H as <- <-; apply keeps_here|]. cbn [run proper_run] in *.
  destruct Hpr as [Hx Hpr]. apply Forall_cons_iff in Hn. destruct Hn as [Hn1 Hn]. destruct (step clk shuffle f p x) as [[p1 o]|] eqn:E; [|discriminate].
  destruct (run clk shuffle f p1 xs) as [[log' q']|] eqn:Er; [|discriminate]. injection H as <- <-.
  eapply keeps_then; [eapply step_heap; eauto|]. eapply IH; eauto; [eapply tinv_step; eauto|eapply pinv_step; eauto].
Qed.

Lemma owned_init : owned init_prog. Proof. intros g Hg. cbn in Hg. lia. Qed.
Lemma interpreted_init : interpreted init_prog. Proof. split; [reflexivity|]. intros s Hs. cbn in Hs. lia. Qed.

Lemma program_interpreted clk clk' shuffle f F B xs0 log0 p g s i a xs log q ys e r :
  run clk shuffle f init_prog xs0 = Some (log0, p) -> proper_run clk shuffle f B init_prog (xs0 ++ Next g :: xs) ->
  p_gens p g = GenObj s i (PNew a) -> Forall interprets (xs0 ++ xs) -> timeout_of (so_opts (p_solvers p s)) a = LNone ->
  solve_all clk' (shuffle g) F (env_of p s i) (so_opts (p_solvers p s)) a = Some (ys, e, r) ->
  run clk shuffle f p (Next g :: xs) = Some (log, q) -> ~ In (Close g) xs -> Forall assigns_nothing xs ->
  results_of g log = answers (next_calls g (Next g :: xs)) ys r.
Proof.
  intros H0 Hpr Eg Hint Hto Hs Hr Hcl Hn.
  pose proof (tinv_run clk shuffle f xs0 _ _ _ tinv_init H0) as Ht.
  destruct (proper_run_app clk shuffle f B xs0 _ _ _ _ Hpr H0) as [Hp0 Hp1].
  pose proof (pinv_run clk shuffle f B xs0 _ _ _ tinv_init (pinv_init B) Hp0 H0) as Hi.
  apply Forall_app in Hint. destruct Hint as [Hint0 Hint].
  destruct (interpreted_run clk shuffle f xs0 _ _ _ tinv_init owned_init interpreted_init Hint0 H0) as [Hip How].
  set (cs := all_cons (p_models p i) a).
  assert (Hk : forall c, In c cs -> known B p c) by exact (pinv_cons B p g s i a Hi Eg).
  assert (Ho : objects (world_of p i) cs).
  { apply (pinv_valid B p (fun l => l) s i a Hi); [|intros l; apply Permutation.Permutation_refl]. intros c Hc. apply Hk. apply in_or_app. now right. }
  assert (Hg : (g < p_ngens p)%nat).
  { destruct (Nat.lt_ge_cases g (p_ngens p)) as [H|H]; [exact H|]. destruct Ht as (_ & H2 & _). specialize (H2 g H).
    rewrite Eg in H2. discriminate. }
  assert (Hcmp : s_compile (so_opts (p_solvers p s)) = false).
  { apply Hip. specialize (How g Hg). rewrite Eg in How. exact How. }
  apply (snapshot_core clk shuffle clk' f F p g s i a xs log q ys e r cs Ht Eg Ho Hto Hs Hr Hcl).
  2:{ intros. apply incl_refl. }
  assert (Ewe : e_world e = world_of p i).
  { unfold solve_all in Hs. destruct (drain_next clk' (shuffle g) F 0 _ _ ys e r Hs) as (e3 & g3 & ev3 & E3 & Hevs).
    pose proof (next_world_init _ _ _ _ _ _ _ _ _ E3) as (pre & post & _ & Ew3). rewrite Hcmp, compile_all_false in Ew3. cbn in Ew3.
    destruct (next_timed _ _ _ _ _ _ _ _ (Logic.I : timed (env_of p s i) (GInit _ a)) E3) as [_ Hst3].
    destruct ev3 as [|s0| |y0]; [contradiction| | |].
    - destruct Hevs as (ys' & k' & -> & Hd'). rewrite (drain_world _ _ _ _ _ _ _ _ _ Hst3 Hd'). exact Ew3.
    - rewrite (drain_next_end clk' (shuffle g) F 0 _ _ _ _ _ _ _ _ Hs E3) by discriminate. exact Ew3.
    - rewrite (drain_next_end clk' (shuffle g) F 0 _ _ _ _ _ _ _ _ Hs E3) by discriminate. exact Ew3. }
  intros pre post log1 m -> Hm c s0 Hc.
  assert (Hnp : Forall assigns_nothing (Next g :: pre)).
  { apply Forall_app in Hn. constructor; [exact Logic.I|apply Hn]. }
  assert (Hip' : Forall interprets (Next g :: pre)).
  { apply Forall_app in Hint. constructor; [exact Logic.I|apply Hint]. }
  assert (Kp : keeps p m).
  { apply (keeps_run clk shuffle f B (Next g :: pre) p log1 m Ht Hi); auto.
    change (Next g :: pre ++ post) with ((Next g :: pre) ++ post) in Hp1. now apply (proper_run_app clk shuffle f B (Next g :: pre) p post log1 m). }
  destruct (interpreted_run clk shuffle f (Next g :: pre) _ _ _ Ht How Hip Hip' Hm) as [[Hm1 _] _]. rewrite Ewe.
  unfold ceval. destruct (c_body c) as [b|e0|xs1] eqn:Eb; try reflexivity. cbn. rewrite Hm1, (proj1 Hip).
  rewrite (evaluate_uses (p_par m) (p_par p)); [reflexivity|]. intros q0 Hu. destruct Kp as (_ & _ & A). apply A.
  destruct (Hk c Hc) as [Hid Hb]. destruct Hi as (_ & _ & _ & _ & H5 & _). apply (H5 (c_id c) Hid e0 q0); [congruence|exact Hu].
Qed.
