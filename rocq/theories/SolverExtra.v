(** Further lemmas behind Properties_Solver.v. *)
From Coq Require Import Permutation.
From Verif Require Import Solver SpecFormula SpecSafe SpecSolve ExprFacts DictFacts ModelFacts CompileFacts SafeFacts CodeFacts
  SearchFacts LoopFacts EnumFacts SetupFacts SolveFacts MasterFacts HistoryFacts SolverProps SolverMore.
Open Scope list_scope.
Open Scope Z_scope.

(** ** C09: assigning a parameter before a solve *)

Definition assign_param (e : env) (p : nat) (v : Z) : env := set_world e (set_param (e_world e) p v).

Lemma valid_assign shuffle e a p v : valid shuffle e a -> valid shuffle (assign_param e p v) a.
Proof. intros H. exact H. Qed.

Lemma parameter_update clk shuffle f e sv a ys e' r p v :
  let m := w_model (e_world e) in let cs := all_cons m a in
  let ps := fun q => if Nat.eqb q p then v else w_par (e_world e) q in
  valid shuffle e a -> faithful (e_world e) (s_compile sv) cs -> no_error ps m cs ->
  solve_all clk shuffle f (assign_param e p v) sv a = Some (ys, e', r) ->
  (forall s, In s ys -> solves (holds ps) m cs s) /\
  (unlimited sv a -> m_solvable m = true -> has_variable m -> groups_ok m cs ->
   r = None /\ forall t, solves (holds ps) m cs t -> exists s, In s ys /\ same_dict s t).
Proof.
  intros m cs ps Hv Hf Hn H.
  assert (Hps : w_par (e_world (assign_param e p v)) = ps).
  { unfold ps, assign_param, set_param. cbn. reflexivity. }
  destruct (solutions_hold clk shuffle f (assign_param e p v) sv a ys e' r) as [H1 H2].
  - now apply valid_assign.
  - exact Hf.
  - rewrite Hps. exact Hn.
  - exact H.
  - rewrite Hps in H1, H2. split; [exact H1|].
    intros Hu Hs Hh Hg. destruct (H2 Hu Hs Hh Hg) as (E1 & E2 & E3). split; assumption.
Qed.

(** ** C27: the solver does not misuse its timer *)

Lemma bin_op_runtime o a b : bin_op o a b <> Err RuntimeError.
Proof.
  destruct o; cbn; try discriminate; unfold py_floordiv, py_mod, py_pow;
    repeat match goal with |- context[if ?x then _ else _] => destruct x end; discriminate.
Qed.

Lemma evaluate_runtime ps s e : evaluate ps s e <> Err RuntimeError.
Proof.
  induction e as [z|y|p y|e IH|e IH|e IH|o l r IHl IHr|es c IH|es c IH] using expr_ind'; cbn.
  - discriminate.
  - destruct (dget s y); discriminate.
  - discriminate.
  - destruct (evaluate ps s e); cbn; congruence.
  - destruct (evaluate ps s e); cbn; congruence.
  - destruct (evaluate ps s e); cbn; congruence.
  - destruct (evaluate ps s l); cbn; [|congruence]. destruct (evaluate ps s r); cbn; [|congruence]. apply bin_op_runtime.
  - revert c. induction IH as [|x l Hx Hl IHl]; intros c; [discriminate|].
    destruct (evaluate ps s x); cbn; [apply IHl|congruence].
  - revert c. induction IH as [|x l Hx Hl IHl]; intros c; [discriminate|].
    destruct (evaluate ps s x); cbn; [apply IHl|congruence].
Qed.

Lemma py_bin_runtime o a b : py_bin o a b <> Err RuntimeError.
Proof.
  destruct o; cbn; try discriminate; unfold py_floordiv, py_mod, py_pow;
    repeat match goal with |- context[if ?x then _ else _] => destruct x end; discriminate.
Qed.
Lemma call_fun_runtime s f vs : call_fun s f vs <> Err RuntimeError.
Proof. unfold call_fun. repeat match goal with |- context[if ?x then _ else _] => destruct x end; discriminate. Qed.
Lemma call_fun1_runtime s f v : call_fun1 s f v <> Err RuntimeError.
Proof. unfold call_fun1. repeat match goal with |- context[if ?x then _ else _] => destruct x end; discriminate. Qed.

Fixpoint aeval_runtime s (a : ast) {struct a} : aeval s a <> Err RuntimeError.
Proof.
  destruct a as [n|x|b|b|b|b|b c|b c|o b c|b l|f b|f l]; cbn.
  - discriminate.
  - destruct (dget s x); discriminate.
  - specialize (aeval_runtime s b). destruct (aeval s b); cbn; congruence.
  - apply aeval_runtime.
  - specialize (aeval_runtime s b). destruct (aeval s b); cbn; congruence.
  - specialize (aeval_runtime s b). destruct (aeval s b); cbn; congruence.
  - pose proof (aeval_runtime s b) as H. destruct (aeval s b) as [v|]; cbn; [|congruence].
    destruct (truthy v); [apply aeval_runtime|discriminate].
  - pose proof (aeval_runtime s b) as H. destruct (aeval s b) as [v|]; cbn; [|congruence].
    destruct (truthy v); [discriminate|apply aeval_runtime].
  - pose proof (aeval_runtime s b) as H. destruct (aeval s b) as [v|]; cbn; [|congruence].
    pose proof (aeval_runtime s c) as Hc. destruct (aeval s c) as [w|]; cbn; [|congruence]. apply py_bin_runtime.
  - pose proof (aeval_runtime s b) as H. destruct (aeval s b) as [v|]; cbn; [|congruence]. clear H b. revert v.
    induction l as [|[o c] l IH]; intros v; [discriminate|].
    pose proof (aeval_runtime s c) as Hc. destruct (aeval s c) as [w|]; cbn; [|congruence].
    destruct (py_cmp o v w); [apply IH|discriminate].
  - pose proof (aeval_runtime s b) as H. destruct (aeval s b) as [v|]; cbn; [|congruence]. apply call_fun1_runtime.
  - match goal with |- bind ?X _ <> _ => assert (HX : X <> Err RuntimeError) end.
    { induction l as [|b l IH]; [discriminate|].
      pose proof (aeval_runtime s b) as H. destruct (aeval s b) as [v|]; cbn; [|congruence].
      match goal with |- bind ?X _ <> _ => destruct X end; cbn; congruence. }
    match goal with |- bind ?X _ <> _ => destruct X end; cbn; [apply call_fun_runtime|congruence].
Qed.

Lemma ceval_runtime w c s : ceval w c s <> Err RuntimeError.
Proof.
  unfold ceval. destruct (c_body c) as [b|e|xs]; [discriminate| |].
  - destruct (w_code w (c_id c)) as [[args body|]|]; cbn.
    + destruct (forallb _ _); [|discriminate].
      match goal with |- context[aeval ?s ?b] => pose proof (aeval_runtime s b) as H; destruct (aeval s b) end; cbn; congruence.
    + discriminate.
    + pose proof (evaluate_runtime (w_par w) s e) as H. destruct (evaluate (w_par w) s e); cbn; congruence.
  - unfold ad_evaluate. match goal with |- context[mapM ?f ?l] => assert (HX : mapM f l <> Err RuntimeError) end.
    { induction (dedup xs) as [|x l IH]; [discriminate|]. cbn. destruct (dget s x); [|discriminate]. cbn.
      destruct (mapM _ l); cbn; congruence. }
    destruct (mapM _ _); cbn; congruence.
Qed.

Lemma no_timer_error clk shuffle f e sv a ys e' r :
  valid shuffle e a -> solve_all clk shuffle f e sv a = Some (ys, e', r) -> r <> Some RuntimeError.
Proof.
  intros Hv H E. destruct (exceptions clk shuffle f e sv a ys e' r Hv H RuntimeError E) as [(c & s & _ & _ & _ & _ & Hc)|[(_ & [?|?])|(? & _)]];
    try discriminate. exact (ceval_runtime _ _ _ Hc).
Qed.

(** ** C28: all different *)

Lemma alldiff_eval w id xs s :
  (forall x, In x xs -> In x (map fst s)) ->
  exists b, ceval w (Constraint id (CAllDiff xs)) s = Ok b /\
    (b = true <-> forall x y, In x xs -> In y xs -> x <> y -> dget s x <> dget s y).
Proof.
  intros Hall. set (c := Constraint id (CAllDiff xs)).
  assert (Hded : forall x, In x (dedup xs) <-> In x xs).
  { intros x. pose proof (mentions_vars c x) as Hmv. unfold mentions, c_vars in Hmv. cbn in Hmv. tauto. }
  destruct (ad_evaluate_spec s (dedup xs)) as (b & Hb & Hiff).
  - pose proof (c_vars_NoDup c) as Hnd. exact Hnd.
  - intros x Hx. apply dget_Some. apply Hall. now apply Hded.
  - exists b. split; [exact Hb|]. rewrite Hiff. split; intros HH x y Hx Hy Hxy E;
      apply (HH x y); try assumption; now apply Hded.
Qed.

Lemma alldiff_enforced clk shuffle f e sv a ys e' r c xs s x y :
  valid shuffle e a -> solve_all clk shuffle f e sv a = Some (ys, e', r) ->
  In c (all_cons (w_model (e_world e)) a) -> c_body c = CAllDiff xs ->
  In s ys -> In x xs -> In y xs -> x <> y -> exists v w, dget s x = Some v /\ dget s y = Some w /\ v <> w.
Proof.
  intros Hv H Hc Hb Hs Hx Hy Hxy.
  destruct (run_cases clk shuffle f e sv a ys e' r Hv H) as [(E & _)|(_ & _ & Hg & _)]; [subst; contradiction|].
  pose proof (Hg c xs Hc Hb) as Hcc.
  destruct (sound clk shuffle f e sv a ys e' r Hv H s Hs) as [Has Hev].
  specialize (Hev c Hc Hcc). destruct c as [id body]. cbn in Hb. subst body.
  destruct (assigns_dom _ _ Has) as [_ Hdom]. specialize (Hdom _ Hcc).
  destruct (alldiff_eval (e_world e') id xs s) as (b & Eb & Hiff).
  { intros z Hz. apply Hdom. exact Hz. }
  unfold evaluates_true in Hev. rewrite Hev in Eb. inversion Eb; subst b. apply proj1 in Hiff. specialize (Hiff eq_refl x y Hx Hy Hxy).
  destruct (proj1 (dget_Some s x)) as (v & Ev); [now apply Hdom|].
  destruct (proj1 (dget_Some s y)) as (w & Ew); [now apply Hdom|].
  exists v, w. repeat split; try assumption. rewrite Ev, Ew in Hiff. congruence.
Qed.

(** ** C30 and C29 *)

Lemma no_variable_run clk shuffle f e sv a ys e' r :
  valid shuffle e a -> solve_all clk shuffle f e sv a = Some (ys, e', r) ->
  ~ has_variable (w_model (e_world e)) -> ys = [].
Proof.
  intros Hv H Hn. destruct (run_cases clk shuffle f e sv a ys e' r Hv H) as [(E & _)|(_ & Hh & _)]; [assumption|contradiction].
Qed.

(** ** C58 *)

Lemma infinity_attribute p t l cmp a :
  x_timeout a = None -> x_limit a = None -> t = LInfinity -> l = LInfinity ->
  unlimited (new_solver p t l cmp) a.
Proof. intros H1 H2 -> ->. unfold unlimited, timeout_of, limit_of. rewrite H1, H2. split; reflexivity. Qed.

(** ** A finished generator stays finished *)

Lemma done_stays clk shuffle f e : next clk shuffle (S f) e GDone = Some (e, GDone, EvStop).
Proof. reflexivity. Qed.

Lemma next_end clk shuffle f : forall e g e' g' v, next clk shuffle f e g = Some (e', g', v) ->
  match v with EvYield _ => True | EvNone => False | EvStop | EvRaise _ => g' = GDone end.
Proof.
  induction f as [|f IH]; intros e g e' g' v H; [discriminate|]. cbn [next] in H.
  destruct (micro clk shuffle e g) as [[e1 g1] v1] eqn:Em.
  assert (Hm : match v1 with EvYield _ | EvNone => True | EvStop | EvRaise _ => g1 = GDone end).
  { clear - Em. destruct g as [sv a|l c n|l c n|]; cbn in Em.
    - unfold begin in Em.
      repeat match type of Em with context[match ?x with _ => _ end] => destruct x end; inversion Em; subst; auto.
    - repeat match type of Em with context[match ?x with _ => _ end] => destruct x end; inversion Em; subst; auto.
      all: try (destruct v1; auto).
    - repeat match type of Em with context[match ?x with _ => _ end] => destruct x end; inversion Em; subst; auto.
    - inversion Em; subst; auto. }
  destruct v1; try (inversion H; subst; auto; fail). eapply IH; eassumption.
Qed.

(** ** Statements of Properties_Model.v in terms of occurrences *)

Lemma constraints_mention_declared h c x :
  In c (m_cons (w_model (run_history h init_world))) -> mentions c x ->
  In x (map fst (m_vars (w_model (run_history h init_world)))).
Proof. intros Hc Hx. apply (constraints_declared h c x Hc). now apply mentions_vars. Qed.

Lemma constant_expression w e v :
  (forall x, ~ occurs x e) -> evaluate (w_par w) [] e = Ok v ->
  let r := add_constraint (AExpr e) w in
  snd r = Ok tt /\ m_vars (w_model (fst r)) = m_vars (w_model w) /\
  if v =? 0 then m_solvable (w_model (fst r)) = false else w_model (fst r) = w_model w.
Proof. intros Hx. apply const_expr_call. intros x H. apply (Hx x). now apply vars_occurs. Qed.

(** ** C22, C24: truncation *)

Lemma limit_truncates clk shuffle f1 f2 e sv a a0 ys1 ys2 e1 e2 r1 r2 n :
  x_additional a = x_additional a0 -> x_policy a = x_policy a0 -> valid shuffle e a ->
  solve_all clk shuffle f1 e sv a = Some (ys1, e1, r1) ->
  solve_all clk shuffle f2 e sv a0 = Some (ys2, e2, r2) ->
  unlimited sv a0 -> timeout_of sv a = LNone -> limit_of sv a = LNum n -> 1 <= n ->
  ys1 = firstn (Z.to_nat n) ys2 /\
  (e_interrupt e1 = Some ILimit <-> len ys1 = n) /\
  (len ys1 < n -> ys1 = ys2 /\ r1 = r2 /\ e_interrupt e1 = None).
Proof.
  intros Ha Hp Hv H1 H2 Hu Ht Hl Hn.
  destruct (truncation clk shuffle f1 f2 e sv a a0 ys1 ys2 e1 e2 r1 r2 Ha Hp Hv H1 H2 Hu) as [Hpre Hc].
  destruct Hc as [(E1 & E2 & E3 & E4)|[(E1 & E2 & k & Hk & E3)|[(_ & _ & _ & t & j & E & _)|(_ & _ & [(E & _)|(E & _)])]]].
  - subst ys2. specialize (E4 n Hl).
    assert (Hlt : len ys1 < n). { destruct E4 as [->|E4]; [unfold len; simpl; lia|exact E4]. }
    unfold len in Hlt. split; [symmetry; apply firstn_all2; lia|]. split; [|auto].
    rewrite E3. split; [discriminate|]. unfold len. lia.
  - rewrite Hl in Hk. inversion Hk; subst k. assert (E : len ys1 = n) by (destruct E3 as [?|[? ?]]; lia).
    unfold len in E. split; [|split].
    + destruct Hpre as [c ->]. replace (Z.to_nat n) with (length ys1) by lia.
      rewrite firstn_app, firstn_all, Nat.sub_diag. simpl. now rewrite app_nil_r.
    + unfold len. tauto.
    + unfold len. lia.
  - congruence.
  - congruence.
  - congruence.
Qed.

Lemma timeout_truncates clk shuffle f1 f2 e sv a a0 ys1 ys2 e1 e2 r1 r2 :
  x_additional a = x_additional a0 -> x_policy a = x_policy a0 -> valid shuffle e a ->
  solve_all clk shuffle f1 e sv a = Some (ys1, e1, r1) ->
  solve_all clk shuffle f2 e sv a0 = Some (ys2, e2, r2) ->
  unlimited sv a0 -> timeout_of sv a <> LInfinity -> limit_of sv a = LNone ->
  prefix ys1 ys2 /\
  match e_interrupt e1 with
  | None => ys1 = ys2 /\ r1 = r2
  | Some ILimit => False
  | Some ITimeout => r1 = None /\ exists t j, timeout_of sv a = LNum t /\ e_clk e1 = S j /\
                     t < timer_elapsed (clk j) (e_timers e1 (e_timer e1))
  end.
Proof.
  intros Ha Hp Hv H1 H2 Hu Ht Hl.
  destruct (truncation clk shuffle f1 f2 e sv a a0 ys1 ys2 e1 e2 r1 r2 Ha Hp Hv H1 H2 Hu) as [Hpre Hc].
  split; [exact Hpre|].
  destruct Hc as [(E1 & E2 & E3 & _)|[(_ & _ & k & Hk & _)|[(E1 & E2 & _ & t & j & E)|(_ & _ & [(E & _)|(E & _)])]]].
  - rewrite E3. auto.
  - congruence.
  - rewrite E2. split; [assumption|]. exists t, j. exact E.
  - congruence.
  - congruence.
Qed.

(** ** C31, C25 *)

Lemma stats_exhaustive clk shuffle f e sv a ys e' r :
  let m := w_model (e_world e) in
  valid shuffle e a -> solve_all clk shuffle f e sv a = Some (ys, e', r) ->
  fst (fst (get_stats e')) = len ys /\
  (m_solvable m = true -> has_variable m -> r = None -> snd (get_stats e') = None ->
   forall t, solves (evaluates_true (e_world e')) m (all_cons m a) t -> exists s, In s ys /\ same_dict s t).
Proof.
  intros m Hv H. split.
  - destruct (counted clk shuffle f e sv a ys e' r Hv H) as [E _]. exact E.
  - intros Hs Hh Hr Hi. exact (exhaustive clk shuffle f e sv a ys e' r Hv H Hs Hh Hr Hi).
Qed.

Lemma model_unchanged clk shuffle f e sv a ys e' r :
  valid shuffle e a -> solve_all clk shuffle f e sv a = Some (ys, e', r) ->
  w_model (e_world e') = w_model (e_world e) /\ w_par (e_world e') = w_par (e_world e).
Proof. apply run_model. Qed.

(** ** C32 *)

Lemma exceptions_propagate clk shuffle f e sv a ys e' ex :
  let m := w_model (e_world e) in let cs := all_cons m a in
  valid shuffle e a -> solve_all clk shuffle f e sv a = Some (ys, e', Some ex) ->
  (forall s, In s ys -> solves (evaluates_true (e_world e')) m cs s) /\
  (eval_error (e_world e') m cs ex \/
   (~ groups_ok m cs /\ (ex = KeyError \/ ex = ValueError)) \/
   (ex = TypeError /\ (timeout_of sv a = LInfinity \/ limit_of sv a = LInfinity))).
Proof.
  intros m cs Hv H. split.
  - intros s Hs. exact (sound clk shuffle f e sv a ys e' (Some ex) Hv H s Hs).
  - exact (exceptions clk shuffle f e sv a ys e' (Some ex) Hv H ex eq_refl).
Qed.
