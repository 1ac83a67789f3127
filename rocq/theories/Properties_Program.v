(** C85: several models, solvers and enumerations in one program. *)
From Verif Require Import SolverCases Solver SpecSolve SpecInterleave Program SpecProgram ProgramProps ProgramStats ProgramTotal ProgramMore ProgramCases.
Open Scope string_scope.
Open Scope list_scope.
Open Scope Z_scope.

(** C85: every model of a program meets the hypotheses of the properties of a single call of
    [solve], for every solver and every choice of arguments. *)
Theorem C85_valid : forall clk shuffle f B xs log p s i a shuffle1,
  run clk shuffle f init_prog xs = Some (log, p) -> proper_run clk shuffle f B init_prog xs ->
  (forall c, In c (x_additional a) -> known B p c) -> shuffles shuffle1 -> valid shuffle1 (env_of p s i) a.
Proof. exact program_valid. Qed.
Print Assumptions C85_valid.

(** C85: every statement of every program ends. *)
Theorem C85_runs : forall clk shuffle B xs, (forall g, shuffles (shuffle g)) -> (forall f, proper_run clk shuffle f B init_prog xs) ->
  exists f log q, run clk shuffle f init_prog xs = Some (log, q).
Proof. exact program_runs. Qed.
Print Assumptions C85_runs.

Example C85_runs_case : (forall l, Permutation.Permutation (noshuffle l) l) /\ (forall f, proper_run clk0 (fun _ => noshuffle) f two_bodies init_prog before_next) /\
  p_nmodels p_before = 2%nat /\ p_ngens p_before = 2%nat /\
  List.length (m_cons (p_models p_before 0)) = 2%nat /\ List.length (m_cons (p_models p_before 1)) = 2%nat.
Proof. split; [intros l; apply Permutation.Permutation_refl|]. split; [intros f; proper_literal|]. repeat split. Qed.

(** C85: a model is changed by the calls on it only: not by calls on other models, nor by
    solving it or any other model. *)
Theorem C85_frame : forall clk shuffle f xs0 log0 p xs log q i,
  run clk shuffle f init_prog xs0 = Some (log0, p) -> run clk shuffle f p xs = Some (log, q) ->
  Forall (leaves_model i) xs -> (i < p_nmodels p)%nat -> p_models q i = p_models p i.
Proof. exact program_frame. Qed.
Print Assumptions C85_frame.

Example C85_frame_case : exists log q, run clk0 (fun _ => noshuffle) 100 init_prog before_next = Some (log, p_before) /\
  run clk0 (fun _ => noshuffle) 100 p_before mixed = Some q /\ Forall (leaves_model 1) mixed /\ (1 < p_nmodels p_before)%nat /\
  map fst (m_vars (p_models p_before 1)) = ["x"; "z"] /\ map fst (m_vars (p_models p_before 0)) = ["x"; "p"; "y"].
Proof.
  eexists _, _. split; [vm_compute; reflexivity|]. split; [vm_compute; reflexivity|]. split; [repeat constructor; discriminate|].
  split; [vm_compute; repeat constructor|]. split; reflexivity.
Qed.

(** C85: a compiling solver finds the same solutions of a model, in the same order, before and
    after any statements which neither call that model nor assign a parameter. *)
Theorem C85_independent_partial : forall clk clk1 clk2 shuffle shuffle1 shuffle2 f F F' B xs0 log0 p xs log q i s s' sv a ys e r ys' e' r',
  run clk shuffle f init_prog xs0 = Some (log0, p) -> proper_run clk shuffle f B init_prog (xs0 ++ xs) ->
  run clk shuffle f p xs = Some (log, q) -> Forall (leaves_model i) xs -> Forall assigns_nothing xs -> (i < p_nmodels p)%nat ->
  (forall c, In c (x_additional a) -> known B p c) -> s_compile sv = true -> timeout_of sv a = LNone ->
  (arg_or (x_policy a) (s_policy sv) = RANDOM -> forall l, shuffle2 l = shuffle1 l) ->
  solve_all clk1 shuffle1 F (env_of p s i) sv a = Some (ys, e, r) -> solve_all clk2 shuffle2 F' (env_of q s' i) sv a = Some (ys', e', r') ->
  ys' = ys /\ r' = r.
Proof. exact program_independent. Qed.
Print Assumptions C85_independent_partial.

Example C85_independent_case : exists log0 log q e e',
  run clk0 (fun _ => noshuffle) 100 init_prog before_next = Some (log0, p_before) /\ proper_run clk0 (fun _ => noshuffle) 100 two_bodies init_prog (before_next ++ mixed) /\
  run clk0 (fun _ => noshuffle) 100 p_before mixed = Some (log, q) /\ Forall (leaves_model 1) mixed /\ Forall assigns_nothing mixed /\ (1 < p_nmodels p_before)%nat /\
  solve_all clk0 noshuffle 100 (env_of p_before 0 1) default_solver no_args = Some ([[("z", 0); ("x", 3)]; [("z", 0); ("x", 2)]; [("z", 1); ("x", 3)]; [("z", 1); ("x", 2)]], e, None) /\
  solve_all clk0 noshuffle 100 (env_of q 1 1) default_solver no_args = Some ([[("z", 0); ("x", 3)]; [("z", 0); ("x", 2)]; [("z", 1); ("x", 3)]; [("z", 1); ("x", 2)]], e', None).
Proof.
  eexists _, _, _, _, _. split; [vm_compute; reflexivity|]. split; [proper_literal|]. split; [vm_compute; reflexivity|].
  split; [repeat constructor; discriminate|]. split; [repeat constructor|]. split; [vm_compute; repeat constructor|]. split; vm_compute; reflexivity.
Qed.

(** C85: for a solver that does not compile this is false, if the constraint is shared with
    a model which another solver compiles. *)
Theorem C85_independent_refuted : exists f B xs0 log0 p xs log q i s sv ys e r ys' e' r',
  run clk0 (fun _ => noshuffle) f init_prog xs0 = Some (log0, p) /\ proper_run clk0 (fun _ => noshuffle) f B init_prog (xs0 ++ xs) /\
  run clk0 (fun _ => noshuffle) f p xs = Some (log, q) /\ Forall (leaves_model i) xs /\ Forall assigns_nothing xs /\ (i < p_nmodels p)%nat /\
  s_compile sv = false /\ timeout_of sv no_args = LNone /\
  solve_all clk0 noshuffle f (env_of p s i) sv no_args = Some (ys, e, r) /\ solve_all clk0 noshuffle f (env_of q s i) sv no_args = Some (ys', e', r') /\
  ys = [[("y", 2); ("x", 1)]; [("y", 3); ("x", 1)]; [("y", 3); ("x", 2)]] /\ ys' = [[("y", 3); ("x", 2)]].
Proof.
  exists 100%nat, two_bodies, stale_build. eexists _, _. exists again. eexists _, _. exists 0%nat, 1%nat, sv_interp. eexists _, _, _, _, _, _.
  split; [vm_compute; reflexivity|]. split; [proper_literal|].
  split; [vm_compute; reflexivity|]. split; [repeat constructor|]. split; [repeat constructor|]. split; [vm_compute; repeat constructor|].
  split; [reflexivity|]. split; [reflexivity|]. split; [vm_compute; reflexivity|]. split; [vm_compute; reflexivity|]. split; reflexivity.
Qed.
Print Assumptions C85_independent_refuted.

(** C85: the answers of an enumeration by a compiling solver are those of the same call
    consumed alone at the moment of the first [next], whatever statements are executed between the
    calls of [next] -- calls on that model and on others, changes of the solver, other
    enumerations -- as long as no parameter is assigned. *)
Theorem C85_interleaved : forall clk clk' shuffle f F B xs0 log0 p g s i a xs log q ys e r,
  run clk shuffle f init_prog xs0 = Some (log0, p) -> proper_run clk shuffle f B init_prog (xs0 ++ Next g :: xs) ->
  p_gens p g = GenObj s i (PNew a) -> s_compile (so_opts (p_solvers p s)) = true -> timeout_of (so_opts (p_solvers p s)) a = LNone ->
  solve_all clk' (shuffle g) F (env_of p s i) (so_opts (p_solvers p s)) a = Some (ys, e, r) ->
  run clk shuffle f p (Next g :: xs) = Some (log, q) -> ~ In (Close g) xs -> Forall assigns_nothing xs ->
  results_of g log = answers (next_calls g (Next g :: xs)) ys r.
Proof. exact program_compiled. Qed.
Print Assumptions C85_interleaved.

Example C85_interleaved_case : exists log0 log q e,
  run clk0 (fun _ => noshuffle) 100 init_prog before_next = Some (log0, p_before) /\ proper_run clk0 (fun _ => noshuffle) 100 two_bodies init_prog (before_next ++ mixed) /\
  p_gens p_before 1 = GenObj 0 1 (PNew no_args) /\ s_compile (so_opts (p_solvers p_before 0)) = true /\ ~ In (Close 1) mixed /\ Forall assigns_nothing mixed /\
  solve_all clk0 noshuffle 100 (env_of p_before 0 1) (so_opts (p_solvers p_before 0)) no_args =
    Some ([[("z", 0); ("x", 3)]; [("z", 0); ("x", 2)]; [("z", 1); ("x", 3)]; [("z", 1); ("x", 2)]], e, None) /\
  run clk0 (fun _ => noshuffle) 100 p_before mixed = Some (log, q) /\
  results_of 1 log = [EvYield [("z", 0); ("x", 3)]; EvYield [("z", 0); ("x", 2)]; EvYield [("z", 1); ("x", 3)]; EvYield [("z", 1); ("x", 2)]] /\
  results_of 0 log = [EvYield [("_v3", 7); ("y", 3); ("x", 2)]; EvStop; EvStop; EvStop].
Proof.
  eexists _, _, _, _. split; [vm_compute; reflexivity|]. split; [proper_literal|]. split; [reflexivity|]. split; [reflexivity|].
  split; [intros H; repeat (destruct H as [H|H]; [discriminate|]); exact H|]. split; [repeat constructor|]. split; [vm_compute; reflexivity|].
  split; [vm_compute; reflexivity|]. split; vm_compute; reflexivity.
Qed.

(** C85: the same for solvers that do not compile, in programs where nothing is compiled. *)
Theorem C85_interpreted : forall clk clk' shuffle f F B xs0 log0 p g s i a xs log q ys e r,
  run clk shuffle f init_prog xs0 = Some (log0, p) -> proper_run clk shuffle f B init_prog (xs0 ++ Next g :: xs) ->
  p_gens p g = GenObj s i (PNew a) -> Forall interprets (xs0 ++ xs) -> timeout_of (so_opts (p_solvers p s)) a = LNone ->
  solve_all clk' (shuffle g) F (env_of p s i) (so_opts (p_solvers p s)) a = Some (ys, e, r) ->
  run clk shuffle f p (Next g :: xs) = Some (log, q) -> ~ In (Close g) xs -> Forall assigns_nothing xs ->
  results_of g log = answers (next_calls g (Next g :: xs)) ys r.
Proof. exact program_interpreted. Qed.
Print Assumptions C85_interpreted.

Example C85_interpreted_case : exists log0 p log q e,
  run clk0 (fun _ => noshuffle) 100 init_prog build_plain = Some (log0, p) /\ proper_run clk0 (fun _ => noshuffle) 100 two_bodies init_prog (build_plain ++ mixed_plain) /\
  p_gens p 1 = GenObj 0 1 (PNew no_args) /\ Forall interprets (build_plain ++ mixed_plain) /\ Forall assigns_nothing mixed_plain /\
  solve_all clk0 noshuffle 100 (env_of p 0 1) (so_opts (p_solvers p 0)) no_args =
    Some ([[("z", 0); ("x", 3)]; [("z", 0); ("x", 2)]; [("z", 1); ("x", 3)]; [("z", 1); ("x", 2)]], e, None) /\
  run clk0 (fun _ => noshuffle) 100 p mixed_plain = Some (log, q) /\
  results_of 1 log = [EvYield [("z", 0); ("x", 3)]; EvYield [("z", 0); ("x", 2)]; EvYield [("z", 1); ("x", 3)]].
Proof.
  eexists _, _, _, _, _. split; [vm_compute; reflexivity|]. split; [proper_literal|]. split; [reflexivity|]. split; [repeat constructor|].
  split; [repeat constructor|]. split; [vm_compute; reflexivity|]. split; vm_compute; reflexivity.
Qed.

(** C85: the count in [get_stats()] of a solver is the number of solutions received from the
    enumeration of that solver which was started last. *)
Theorem C85_stats : forall clk shuffle f xs pre g ev suf q s st,
  run clk shuffle f init_prog (xs ++ [GetStats s]) = Some ((pre ++ (Next g, OEvent ev) :: suf) ++ [(GetStats s, OStats st)], q) ->
  latest_start (fun k => go_solver (p_gens q k)) s pre g suf ->
  fst (fst st) = solutions_in (results_of g (pre ++ (Next g, OEvent ev) :: suf)).
Proof. exact program_read. Qed.
Print Assumptions C85_stats.

Example C85_stats_case : exists pre suf q,
  run clk0 (fun _ => noshuffle) 100 init_prog ((before_next ++ mixed) ++ [GetStats 0]) =
    Some ((pre ++ (Next 0, OEvent (EvYield [("_v3", 7); ("y", 3); ("x", 2)])) :: suf) ++ [(GetStats 0, OStats (1, 1, Some ILimit))], q) /\
  latest_start (fun k => go_solver (p_gens q k)) 0 pre 0 suf /\
  List.length pre = 19%nat /\ List.length suf = 12%nat.
Proof.
  destruct (run clk0 (fun _ => noshuffle) 100 init_prog ((before_next ++ mixed) ++ [GetStats 0])) as [[log q]|] eqn:E; [|vm_compute in E; discriminate].
  exists (firstn 19 log), (firstn 12 (skipn 20 log)), q. revert E. vm_compute. intros E. injection E as <- <-.
  split; [reflexivity|]. split; [|repeat split; reflexivity]. split; [reflexivity|]. split.
  - intros [(ev & H)|H]; repeat (destruct H as [H|H]; [discriminate|]); exact H.
  - intros l1 k ev l2 E Hk.
    repeat (destruct l1 as [|y l1]; [injection E; intros; subst; try discriminate; (left; reflexivity) || (right; left; eexists; cbn; repeat (first [left; reflexivity|right]); fail) || idtac|
      injection E; clear E; intros E <-]).
    all: destruct l1; discriminate.
Qed.

(** C85: the options of a solver are those it was made with, changed by the assignments to its own
    properties only; [INFINITY] stands for no bound. *)
Theorem C85_options : forall clk shuffle f p pl t l c xs log q,
  run clk shuffle f p (NewSolver pl t l c :: xs) = Some (log, q) ->
  so_opts (p_solvers q (p_nsolvers p)) = fold_left (setting (p_nsolvers p)) xs (Solver pl (bound t) (bound l) c).
Proof. exact solver_made. Qed.
Print Assumptions C85_options.

Example C85_options_case : exists log q,
  run clk0 (fun _ => noshuffle) 100 init_prog
    (build ++ [NewSolver MAX_BOUND (LNum 3) LInfinity true; SetTimeout 2 LInfinity; SetLimit 1 (LNum 9); SetCompile 2 false; SetLimit 2 (LNum 4); SetPolicy 0 MIN_BOUND])
    = Some (log, q) /\
  so_opts (p_solvers q 2) = Solver MAX_BOUND LNone (LNum 4) false /\ so_opts (p_solvers q 1) = Solver GROUPS LNone (LNum 9) false /\
  so_opts (p_solvers q 0) = Solver MIN_BOUND LNone LNone true.
Proof. eexists _, _. split; [vm_compute; reflexivity|]. repeat split. Qed.

(** C85: [solver.solve(model, ...)] makes a generator of that solver, that model and those
    arguments, which stays unstarted until [next] is called on it. *)
Theorem C85_generator : forall clk shuffle f p s i a xs log q,
  (s < p_nsolvers p)%nat -> (i < p_nmodels p)%nat -> run clk shuffle f p (Solve s i a :: xs) = Some (log, q) ->
  ~ In (Next (p_ngens p)) xs -> ~ In (Close (p_ngens p)) xs -> p_gens q (p_ngens p) = GenObj s i (PNew a).
Proof. exact generator_made. Qed.
Print Assumptions C85_generator.

Example C85_generator_case : exists log q,
  run clk0 (fun _ => noshuffle) 100 (after build) [Solve 1 0 no_args; Solve 0 1 no_args; Next 1; Call 0 (AddInt [4] None); Close 1] = Some (log, q) /\
  p_gens q 0 = GenObj 1 0 (PNew no_args).
Proof. eexists _, _. split; vm_compute; reflexivity. Qed.

(** C85: a closed generator gives nothing any more, whether it had been started or not. *)
Theorem C85_close : forall clk shuffle f p g xs log q, (g < p_ngens p)%nat -> run clk shuffle f p (Close g :: xs) = Some (log, q) ->
  results_of g log = repeat EvStop (next_calls g xs).
Proof. exact program_close. Qed.
Print Assumptions C85_close.

Example C85_close_case : exists log q,
  run clk0 (fun _ => noshuffle) 100 (after (before_next ++ [Next 1])) [Close 1; Next 0; Next 1; Close 1; Next 1] = Some (log, q) /\
  results_of 1 log = [EvStop; EvStop] /\ results_of 1 (fst (log, q)) = repeat EvStop 2 /\ List.length (results_of 0 log) = 1%nat.
Proof. eexists _, _. split; [vm_compute; reflexivity|]. repeat split. Qed.

(** C85: only calls of [next] on its own generators change the statistics of a solver. *)
Theorem C85_stats_frame : forall clk shuffle f xs0 log0 xs log q s st st',
  run clk shuffle f init_prog ((xs0 ++ [GetStats s]) ++ xs ++ [GetStats s]) = Some ((log0 ++ [(GetStats s, OStats st)]) ++ log ++ [(GetStats s, OStats st')], q) ->
  List.length log0 = List.length xs0 -> (forall k ev, In (Next k, OEvent ev) log -> go_solver (p_gens q k) <> s) -> st' = st.
Proof. exact program_read_frame. Qed.
Print Assumptions C85_stats_frame.

(** C85: those of a new solver are zero. *)
Theorem C85_stats_new : forall clk shuffle f xs0 log0 p pl t l c xs log q st, let s := p_nsolvers p in
  run clk shuffle f init_prog xs0 = Some (log0, p) -> run clk shuffle f p (NewSolver pl t l c :: xs ++ [GetStats s]) = Some (log ++ [(GetStats s, OStats st)], q) ->
  (forall k ev, In (Next k, OEvent ev) log -> go_solver (p_gens q k) <> s) -> st = (0, 0, None).
Proof. exact program_read_new. Qed.
Print Assumptions C85_stats_new.

Example C85_stats_frame_case : exists log0 log q,
  run clk0 (fun _ => noshuffle) 100 init_prog (((before_next ++ [Next 0; Next 1]) ++ [GetStats 0]) ++
    [NewSolver GROUPS LNone LNone true; Solve 2 0 no_args; Next 2; Close 0; Next 2; Close 1; Solve 0 0 no_args] ++ [GetStats 0]) =
    Some ((log0 ++ [(GetStats 0, OStats (1, 1, None))]) ++ log ++ [(GetStats 0, OStats (1, 1, None))], q) /\
  List.length log0 = List.length (before_next ++ [Next 0; Next 1]) /\
  (forall k ev, In (Next k, OEvent ev) log -> go_solver (p_gens q k) <> 0%nat) /\ fst (fst (get_stats (env_of q 2 0))) = 1.
Proof.
  destruct (run clk0 (fun _ => noshuffle) 100 init_prog _) as [[l q]|] eqn:E; [|vm_compute in E; discriminate].
  exists (firstn 18 l), (firstn 7 (skipn 19 l)), q. revert E. vm_compute. intros E. injection E as <- <-.
  split; [reflexivity|]. split; [reflexivity|]. split; [|reflexivity].
  intros k ev H; repeat (destruct H as [H|H]; [injection H as <- _ || discriminate H; vm_compute; discriminate|]); contradiction.
Qed.

Example C85_stats_new_case : exists log q, p_nsolvers p_before = 2%nat /\
  run clk0 (fun _ => noshuffle) 100 p_before (NewSolver GROUPS LNone LNone true :: [Next 0; Solve 2 0 no_args; Next 1] ++ [GetStats 2]) = Some (log ++ [(GetStats 2, OStats (0, 0, None))], q) /\
  (forall k ev, In (Next k, OEvent ev) log -> go_solver (p_gens q k) <> 2%nat) /\ List.length (results_of 0 log) = 1%nat.
Proof.
  destruct (run clk0 (fun _ => noshuffle) 100 p_before _) as [[l q]|] eqn:E; [|vm_compute in E; discriminate].
  exists (firstn 4 l), q. revert E. vm_compute. intros E. injection E as <- <-.
  split; [reflexivity|]. split; [reflexivity|]. split; [|reflexivity].
  intros k ev H; repeat (destruct H as [H|H]; [injection H as <- _ || discriminate H; vm_compute; discriminate|]); contradiction.
Qed.
