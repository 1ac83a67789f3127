(** Proofs about the printed statistics. *)
From Verif Require Import DemoStats SpecStats SpecSolve SpecOptimize DecFacts ExprFacts LoopFacts MasterFacts SolverProps SolverExtra SolverCases HistoryFacts OptimizeMore OptimizeCases.
From Coq Require Import Lia.
Open Scope list_scope.
Open Scope Z_scope.

(** ** Numbers followed by a blank *)
Fixpoint blank_free (s : string) : bool := match s with EmptyString => true | String c s' => negb (Ascii.eqb c " "%char) && blank_free s' end.
Lemma digits_blank s : all_digits s = true -> blank_free s = true.
Proof.
  induction s as [|c s IH]; [reflexivity|]. cbn. intros H. apply andb_true_iff in H. destruct H as [H1 H2]. rewrite IH by assumption.
  destruct (Ascii.eqb_spec c " "%char) as [->|_]; [discriminate|reflexivity].
Qed.
Lemma str_int_blank z : blank_free (str_int z) = true.
Proof.
  unfold str_int. destruct (Z.ltb_spec z 0).
  - cbn. apply digits_blank. apply (proj1 (str_nonneg_dec (- z) ltac:(lia))).
  - apply digits_blank. apply (proj1 (str_nonneg_dec z ltac:(lia))).
Qed.
Lemma blank_split s : forall s' t t', blank_free s = true -> blank_free s' = true ->
  (s ++ String " "%char t = s' ++ String " "%char t')%string -> s = s'.
Proof.
  induction s as [|c s IH]; intros [|c' s'] t t' H H' E; cbn in *; try (injection E as E1 E2; subst; discriminate); [reflexivity|].
  apply andb_true_iff in H, H'. injection E as E1 E2. subst. f_equal. now apply (IH s' t t').
Qed.
Lemma str_int_first z : exists c s, str_int z = String c s /\ (is_digit c = true \/ c = "-"%char).
Proof.
  unfold str_int. destruct (Z.ltb_spec z 0); [eauto|].
  destruct (dec_of_head z (str_nonneg z)) as (c & s & E & H'); [now apply str_nonneg_dec|]. eauto.
Qed.

Lemma says_app out t u : says out (t ++ u)%string -> says out t.
Proof. intros (rest & ->). exists (u ++ rest)%string. f_equal. rewrite !sapp_assoc. reflexivity. Qed.

(** ** Numbers of solutions *)
Lemma counted_any clk shuffle consumer f k e sv a ys e' r :
  drain clk shuffle f consumer k e (GInit sv a) = Some (ys, e', r) -> fst (fst (get_stats e')) = len ys.
Proof.
  destruct f as [|f]; [discriminate|]. rewrite drain_S. cbn [micro]. unfold begin.
  assert (Z0 : t_count (e_timers (reset e) (e_timer (reset e))) = 0) by (cbn; now rewrite upd_same).
  destruct (negb _); [intros H; injection H as <- <- <-; exact Z0|].
  destruct (do_setup (s_compile sv) (e_world (reset e)) (x_additional a)) as [w [u|ex]]; [|intros H; injection H as <- <- <-; exact Z0].
  destruct (select_order shuffle (arg_or (x_policy a) (s_policy sv)) (w_model (e_world (reset e))) u) as [|x names]; [intros H; injection H as <- <- <-; exact Z0|].
  assert (E : do_start clk (set_world (reset e) w) (e_timer (set_world (reset e) w)) = (start_env clk e w, Ok tt)).
  { unfold do_start. cbn. rewrite upd_same. cbn. reflexivity. }
  rewrite E. intros H.
  eapply (drain_stats clk shuffle consumer f k (start_env clk e w)) with (a := e_clk e) in H.
  - destruct H as (H1 & _ & _ & H4 & _). cbn [l_timer] in H4. unfold get_stats. cbn [fst]. rewrite H1. cbn in H4 |- *. rewrite upd_same in H4. exact H4.
  - cbn. now rewrite upd_same.
  - cbn. lia.
Qed.

Lemma solve_counted clk shuffle f e sv a ys e' r : solve_all clk shuffle f e sv a = Some (ys, e', r) -> fst (fst (get_stats e')) = len ys.
Proof. apply counted_any. Qed.
Lemma optimize_counted clk shuffle f e sv os a ys e' : optimize_all clk shuffle f e sv os a = Some (ys, e', None) -> fst (fst (get_stats e')) = len ys.
Proof.
  unfold optimize_all. destruct (make_constraints os (e_world e)) as [w [oms|ex]]; [|discriminate]. apply counted_any.
Qed.

(** ** print_solve_stats *)
Lemma says_unique seconds stats : says (print_solve_stats seconds stats) "Found unique solution in " <-> fst (fst stats) = 1 /\ snd stats = None.
Proof.
  destruct stats as [[n el] i]. cbn [fst snd]. split.
  - intros (rest & E). cbn in E. destruct i as [i|].
    + destruct (str_int_first n) as (c & s & E' & [D|D]); rewrite E' in E; cbn in E; injection E as E _; subst c; discriminate.
    + destruct (Z.eqb_spec n 1); [auto|]. cbn in E. discriminate.
  - intros [-> ->]. eexists. cbn. reflexivity.
Qed.
Lemma says_all seconds stats n : says (print_solve_stats seconds stats) ("Found all " ++ str_int n ++ " solutions in ") <-> fst (fst stats) = n /\ n <> 1 /\ snd stats = None.
Proof.
  destruct stats as [[k el] i]. cbn [fst snd]. split.
  - intros (rest & E). cbn in E. destruct i as [i|].
    + destruct (str_int_first k) as (c & s & E' & [D|D]); rewrite E' in E; cbn in E; injection E as E _; subst c; discriminate.
    + destruct (Z.eqb_spec k 1); [cbn in E; discriminate|]. cbn in E. injection E as E.
      rewrite !sapp_assoc in E. cbn in E. apply blank_split in E; try apply str_int_blank. apply str_int_inj in E. now subst.
  - intros (-> & H & ->). eexists. cbn. destruct (Z.eqb_spec n 1); [contradiction|]. unfold suffix. destruct (Z.eqb_spec n 1); [contradiction|].
    cbn. rewrite !sapp_assoc. cbn. reflexivity.
Qed.
Lemma says_partial seconds stats n : says (print_solve_stats seconds stats) ("Found " ++ str_int n ++ " partial solution") <-> fst (fst stats) = n /\ snd stats <> None.
Proof.
  destruct stats as [[k el] i]. cbn [fst snd]. split.
  - intros (rest & E). cbn in E. destruct i as [i|].
    + injection E as E. rewrite !sapp_assoc in E. cbn in E. apply blank_split in E; try apply str_int_blank. apply str_int_inj in E.
      split; [congruence|discriminate].
    + destruct (str_int_first n) as (c & s & E' & [D|D]); rewrite E' in E; destruct (Z.eqb_spec k 1); cbn in E; injection E as E _; subst c; discriminate.
  - intros (-> & H). destruct i as [i|]; [|contradiction]. eexists. cbn. rewrite !sapp_assoc. cbn. reflexivity.
Qed.
Lemma truthful seconds clk shuffle f e sv a ys e' :
  valid shuffle e a -> solve_all clk shuffle f e sv a = Some (ys, e', None) ->
  let m := w_model (e_world e) in let out := print_solve_stats seconds (get_stats e') in
  m_solvable m = true -> has_variable m ->
  (says out "Found unique solution in " -> len ys = 1 /\ exhausts (evaluates_true (e_world e')) m (all_cons m a) ys) /\
  (forall n, says out ("Found all " ++ str_int n ++ " solutions in ") -> len ys = n /\ exhausts (evaluates_true (e_world e')) m (all_cons m a) ys) /\
  (forall n, says out ("Found " ++ str_int n ++ " partial solution") -> len ys = n) /\
  (says out "Found unique solution in " \/ says out ("Found all " ++ str_int (len ys) ++ " solutions in ") \/
   says out ("Found " ++ str_int (len ys) ++ " partial solution")).
Proof.
  intros Hv H m out Hs Hh. destruct (stats_exhaustive clk shuffle f e sv a ys e' None Hv H) as [Hc He]. fold m in He. specialize (He Hs Hh eq_refl).
  split; [|split; [|split]].
  - intros F. apply says_unique in F. destruct F as [E1 E2]. split; [congruence|]. exact (He E2).
  - intros n F. apply says_all in F. destruct F as (E1 & _ & E2). split; [congruence|]. exact (He E2).
  - intros n F. apply says_partial in F. destruct F as (E1 & _). congruence.
  - unfold out. rewrite says_unique, says_all, says_partial. rewrite Hc. destruct (snd (get_stats e')) as [i|]; [right; right; split; [reflexivity|discriminate]|].
    destruct (Z.eq_dec (len ys) 1); auto.
Qed.

(** The bracket at the end. *)
Lemma ends_app s t : ends (s ++ t) t.
Proof. now exists s. Qed.
Lemma ends_more out s t : ends out t -> ends (s ++ out) t.
Proof. intros (u & ->). exists (s ++ u)%string. now rewrite sapp_assoc. Qed.

Lemma says_interrupt seconds stats i : snd stats = Some i -> ends (print_solve_stats seconds stats) (" seconds [" ++ interrupt_text i ++ " reached]").
Proof.
  destruct stats as [[k el] i']. cbn [snd]. intros ->. unfold print_solve_stats. repeat first [exists ""%string; reflexivity|apply ends_more].
Qed.
Lemma says_no_interrupt seconds stats : snd stats = None -> ends (print_solve_stats seconds stats) " seconds".
Proof.
  destruct stats as [[k el] i']. cbn [snd]. intros ->. unfold print_solve_stats. destruct (k =? 1); repeat first [exists ""%string; reflexivity|apply ends_more].
Qed.

Lemma says_reason seconds stats :
  match snd stats with
  | None => ends (print_solve_stats seconds stats) " seconds"
  | Some ILimit => ends (print_solve_stats seconds stats) " seconds [limit reached]"
  | Some ITimeout => ends (print_solve_stats seconds stats) " seconds [timeout reached]"
  end.
Proof.
  destruct (snd stats) as [[|]|] eqn:E; [exact (says_interrupt seconds stats ILimit E)|exact (says_interrupt seconds stats ITimeout E)|].
  now apply says_no_interrupt.
Qed.

(** ** print_optimization_stats *)
Lemma says_optimal seconds stats b : says (print_optimization_stats seconds stats b) "Found optimal solution in " <->
  b = Some true \/ b = None /\ snd stats = None.
Proof.
  destruct stats as [[k el] i]. cbn [snd]. unfold print_optimization_stats. split.
  - intros (rest & E). destruct b as [[|]|]; [auto|discriminate|]. destruct i; [discriminate|auto].
  - intros [->|[-> ->]]; eexists; cbn; reflexivity.
Qed.
Lemma optimum seconds clk shuffle f e sv os a e' b sol : optimal_solution clk shuffle f e sv os a = Some (e', Ok (b, sol)) ->
  (says (print_optimization_stats seconds (get_stats e') (Some b)) "Found optimal solution in " <-> sol <> None /\ e_interrupt e' = None).
Proof.
  intros H. rewrite says_optimal. rewrite <- (optimal_flag clk shuffle f e sv os a e' b sol H). split; [intros [E|[E _]]; congruence|]. intros ->. now left.
Qed.
Lemma optimum_count seconds clk shuffle f e sv os a ys e' b : optimize_all clk shuffle f e sv os a = Some (ys, e', None) ->
  exists kind, In kind ["optimal"; "sub-optimal"]%string /\
    print_optimization_stats seconds (get_stats e') b =
    (String newline "" ++ "Found " ++ kind ++ " solution in " ++ seconds (snd (fst (get_stats e'))) ++ " seconds after " ++ str_int (len ys) ++
     (if (len ys =? 1)%Z then " solve iteration" else " solve iterations") ++
     match e_interrupt e' with None => "" | Some ILimit => " [limit reached]" | Some ITimeout => " [timeout reached]" end)%string.
Proof.
  intros H. apply optimize_counted in H. unfold print_optimization_stats. destruct (get_stats e') as [[k el] i] eqn:E. cbn [fst snd] in *. subst k.
  assert (Ei : e_interrupt e' = i) by (unfold get_stats in E; congruence). rewrite Ei.
  set (o := match b with None => _ | Some b => b end). exists (if o then "optimal" else "sub-optimal")%string.
  split; [destruct o; cbn; auto|]. unfold suffix. destruct (len ys =? 1); destruct i as [[|]|]; cbn; rewrite ?sapp_assoc; reflexivity.
Qed.

(** No solution: the empty domain. *)
Definition e_none : env := new_env (run_history [AddInt [] (Some "x"%string)] init_world).
Definition run_none := optimize_all clk0 noshuffle 100 e_none default_solver [OObj o_minx] no_args.
Lemma none_valid : opt_valid noshuffle e_none [OObj o_minx] no_args.
Proof. apply plain_valid; [intros B; cbn; auto|cbn; auto|]. intros o [E|[]]. inversion E. reflexivity. Qed.
Lemma none_run : optimize_all clk0 noshuffle 100 e_none default_solver [OObj o_minx] no_args = Some ([], env_of e_none run_none, None).
Proof. unfold run_none. apply view_run. vm_compute. reflexivity. Qed.
Lemma none_end : e_interrupt (env_of e_none run_none) = None.
Proof. vm_compute. reflexivity. Qed.
Lemma none_optimal : optimal_solution clk0 noshuffle 100 e_none default_solver [OObj o_minx] no_args = Some (env_of e_none run_none, Ok (false, None)).
Proof. unfold optimal_solution. now rewrite none_run. Qed.
Lemma none_solution sat t : ~ solves sat (w_model (e_world e_none)) (all_cons (w_model (e_world e_none)) no_args) t.
Proof.
  intros ((_ & H1 & H2) & _). assert (Hx : In "x"%string (map fst t)) by (apply H1; exists []; now left).
  apply in_map_iff in Hx. destruct Hx as ((x & v) & E & Hin). cbn in E. subst x. exact (H2 "x"%string v [] Hin (or_introl eq_refl)).
Qed.

Lemma none_printed seconds : says (print_optimization_stats seconds (get_stats (env_of e_none run_none)) None) "Found optimal solution in " /\
  says (print_optimization_stats seconds (get_stats (env_of e_none run_none)) (Some false)) "Found sub-optimal solution in ".
Proof.
  split; [apply says_optimal; right; split; [reflexivity|exact none_end]|]. unfold print_optimization_stats. destruct (get_stats _) as [[k el] i].
  eexists. cbn. reflexivity.
Qed.

Lemma none_announced : exists clk shuffle f e os e', opt_valid shuffle e os no_args /\
  optimal_solution clk shuffle f e default_solver os no_args = Some (e', Ok (false, None)) /\
  (forall sat t, ~ solves sat (w_model (e_world e)) (all_cons (w_model (e_world e)) no_args) t) /\
  forall seconds, says (print_optimization_stats seconds (get_stats e') None) "Found optimal solution in " /\
    says (print_optimization_stats seconds (get_stats e') (Some false)) "Found sub-optimal solution in ".
Proof.
  exists clk0, noshuffle, 100%nat, e_none, [OObj o_minx], (env_of e_none run_none). split; [exact none_valid|]. split; [exact none_optimal|].
  split; [exact none_solution|exact none_printed].
Qed.

(** No variable: nothing is yielded. *)
Lemma no_variable_printed : exists clk shuffle f e a e' out, forall seconds,
  valid shuffle e a /\ solve_all clk shuffle f e default_solver a = Some ([], e', None) /\
  print_solve_stats seconds (get_stats e') = out seconds /\ says (out seconds) "Found all 0 solutions in " /\
  solves (evaluates_true (e_world e')) (w_model (e_world e)) (all_cons (w_model (e_world e)) a) [].
Proof.
  eexists clk0, noshuffle, 5%nat, (new_env init_world), no_args, _, _. intros seconds. split; [|split; [vm_compute; reflexivity|]].
  - apply (valid_reachable (fun _ => CConst true) []); [exact I|reflexivity|intros c []|apply noshuffle_ok].
  - split; [reflexivity|]. split; [eexists; reflexivity|].
    split; [|intros c []]. split; [constructor|]. split; [|intros x v d []]. intros x. split; [intros []|intros (d & [])].
Qed.
