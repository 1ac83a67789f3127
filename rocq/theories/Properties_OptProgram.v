(** C87: optimizations among the enumerations of a program. *)
From Verif Require Import SolverCases Solver Optimize SpecSolve SpecInterleave SpecOptimize Program SpecProgram OptProgram SpecOptProgram ProgramCases
  OptProgramProps OptProgramTotal OptProgramCases.
Open Scope string_scope.
Open Scope list_scope.
Open Scope Z_scope.

(** C87: the calls of [next()] on an enumeration or on an optimization of a compiling solver
    return what it would return if it were run alone, to its end, when the first of them is
    made: whatever other enumerations and optimizations are started and advanced in between,
    of the same model and by the same solver too, and whatever is added to the models. *)
Theorem C87_interleaved : forall clk clk' shuffle f F B xs0 log0 q h s a xs log q' ys e r,
  orun clk shuffle f init_oprog xs0 = Some (log0, q) -> oproper_run clk shuffle f B init_oprog (xs0 ++ Plain (Next h) :: xs) ->
  fresh q h s a -> s_compile (so_opts (p_solvers (q_base q) s)) = true -> timeout_of (so_opts (p_solvers (q_base q) s)) a = LNone ->
  by_itself clk' shuffle F q h = Some (ys, e, r) ->
  orun clk shuffle f q (Plain (Next h) :: xs) = Some (log, q') -> ~ In (Plain (Close h)) xs -> Forall assigns_none xs ->
  oresults_of h log = answers (onext_calls h (Plain (Next h) :: xs)) (filter (valued (p_par (q_base q)) (objectives_of q h)) ys) r.
Proof. exact oprogram_interleaved. Qed.
Print Assumptions C87_interleaved.

Example C87_interleaved_case : exists log0 rest log e,
  orun clk0 (fun _ => noshuffle) 100 init_oprog obuild = Some (log0, q_before) /\ oproper_run clk0 (fun _ => noshuffle) 100 obodies init_oprog (obuild ++ omixed) /\
  omixed = Plain (Next 0) :: rest /\ fresh q_before 0 0 no_args /\ s_compile (so_opts (p_solvers (q_base q_before) 0)) = true /\
  timeout_of (so_opts (p_solvers (q_base q_before) 0)) no_args = LNone /\
  by_itself clk0 (fun _ => noshuffle) 100 q_before 0 = Some ([[("y", 1); ("x", 1)]; [("y", 1); ("x", 2)]; [("y", 1); ("x", 3)]; [("y", 2); ("x", 3)]], e, None) /\
  orun clk0 (fun _ => noshuffle) 100 q_before omixed = Some log /\ ~ In (Plain (Close 0)) rest /\ Forall assigns_none rest /\
  oresults_of 0 olog = [EvYield [("y", 1); ("x", 1)]; EvYield [("y", 1); ("x", 2)]; EvYield [("y", 1); ("x", 3)]; EvYield [("y", 2); ("x", 3)]; EvStop] /\
  oresults_of 1 olog = [EvYield [("y", 1); ("x", 1)]; EvYield [("y", 1); ("x", 2)]; EvYield [("y", 1); ("x", 3)]] /\
  oresults_of 2 olog = [EvYield [("y", 1); ("x", 1)]; EvYield [("y", 1); ("x", 2)]; EvYield [("y", 1); ("x", 3)]].
Proof.
  eexists _, _, _, _. split; [vm_compute; reflexivity|]. split; [exact oproper_case|]. split; [reflexivity|].
  split; [right; eexists _, _; reflexivity|]. split; [reflexivity|]. split; [reflexivity|]. split; [vm_compute; reflexivity|]. split; [vm_compute; reflexivity|].
  split; [cbn; intuition discriminate|]. split; [repeat constructor|]. repeat split; vm_compute; reflexivity.
Qed.

(** C87: the same for solvers that do not compile, in programs where nothing is compiled. *)
Theorem C87_interpreted : forall clk clk' shuffle f F B xs0 log0 q h s a xs log q' ys e r,
  orun clk shuffle f init_oprog xs0 = Some (log0, q) -> oproper_run clk shuffle f B init_oprog (xs0 ++ Plain (Next h) :: xs) ->
  fresh q h s a -> Forall ointerprets (xs0 ++ xs) -> timeout_of (so_opts (p_solvers (q_base q) s)) a = LNone ->
  by_itself clk' shuffle F q h = Some (ys, e, r) ->
  orun clk shuffle f q (Plain (Next h) :: xs) = Some (log, q') -> ~ In (Plain (Close h)) xs -> Forall assigns_none xs ->
  oresults_of h log = answers (onext_calls h (Plain (Next h) :: xs)) (filter (valued (p_par (q_base q)) (objectives_of q h)) ys) r.
Proof. exact oprogram_interpreted. Qed.
Print Assumptions C87_interpreted.

Example C87_interpreted_case : exists log0 rest log q' e,
  orun clk0 (fun _ => noshuffle) 100 init_oprog obuild_plain = Some (log0, q_plain) /\ oproper_run clk0 (fun _ => noshuffle) 100 obodies init_oprog (obuild_plain ++ omixed) /\
  omixed = Plain (Next 0) :: rest /\ fresh q_plain 0 0 no_args /\ Forall ointerprets (obuild_plain ++ rest) /\
  timeout_of (so_opts (p_solvers (q_base q_plain) 0)) no_args = LNone /\
  by_itself clk0 (fun _ => noshuffle) 100 q_plain 0 = Some ([[("y", 1); ("x", 1)]; [("y", 1); ("x", 2)]; [("y", 1); ("x", 3)]; [("y", 2); ("x", 3)]], e, None) /\
  orun clk0 (fun _ => noshuffle) 100 q_plain omixed = Some (log, q') /\ ~ In (Plain (Close 0)) rest /\ Forall assigns_none rest /\
  oresults_of 0 log = [EvYield [("y", 1); ("x", 1)]; EvYield [("y", 1); ("x", 2)]; EvYield [("y", 1); ("x", 3)]; EvYield [("y", 2); ("x", 3)]; EvStop] /\
  oresults_of 2 log = [EvYield [("y", 1); ("x", 1)]; EvYield [("y", 1); ("x", 2)]; EvYield [("y", 1); ("x", 3)]].
Proof.
  eexists _, _, _, _, _. split; [vm_compute; reflexivity|]. split; [exact oproper_plain|]. split; [reflexivity|].
  split; [right; eexists _, _; reflexivity|]. split; [repeat constructor|]. split; [reflexivity|]. split; [vm_compute; reflexivity|]. split; [vm_compute; reflexivity|].
  split; [cbn; intuition discriminate|]. split; [repeat constructor|]. split; vm_compute; reflexivity.
Qed.

(** C87: statements that are not calls on a model only add parameters to it: enumerations
    nothing at all, optimizations the parameters of their bounds. *)
Theorem C87_frame : forall clk shuffle f B xs0 log0 q xs log q' j,
  orun clk shuffle f init_oprog xs0 = Some (log0, q) -> oproper_run clk shuffle f B init_oprog (xs0 ++ xs) ->
  orun clk shuffle f q xs = Some (log, q') -> Forall (leaves j) xs -> (j < p_nmodels (q_base q))%nat ->
  exists aux, p_models (q_base q') j = Model (m_vars (p_models (q_base q) j) ++ aux) (m_cons (p_models (q_base q) j)) (m_solvable (p_models (q_base q) j)) /\
    forall x v, In (x, v) aux -> exists r, v = VPar r.
Proof. exact oprogram_frame. Qed.
Print Assumptions C87_frame.

Example C87_frame_case : exists log0 log q',
  orun clk0 (fun _ => noshuffle) 100 init_oprog obuild = Some (log0, q_before) /\
  oproper_run clk0 (fun _ => noshuffle) 100 obodies init_oprog (obuild ++ [Plain (Next 0); Plain (Next 2)]) /\
  orun clk0 (fun _ => noshuffle) 100 q_before [Plain (Next 0); Plain (Next 2)] = Some (log, q') /\
  Forall (leaves 0) [Plain (Next 0); Plain (Next 2)] /\ (0 < p_nmodels (q_base q_before))%nat /\
  map fst (m_vars (p_models (q_base q_before) 0)) = ["x"; "y"; "p"] /\
  map fst (m_vars (p_models (q_base q') 0)) = ["x"; "y"; "p"; "_p3"; "_p4"; "_p5"; "_p6"; "_p7"; "_p8"].
Proof.
  eexists _, _, _. split; [vm_compute; reflexivity|]. split; [unfold obuild; cbn [map app]; oproper_literal|]. split; [vm_compute; reflexivity|].
  split; [repeat constructor|]. split; [vm_compute; repeat constructor|]. split; reflexivity.
Qed.

(** C87: the parameters of the program keep their values, unless the program assigns them. *)
Theorem C87_parameters : forall clk shuffle f B xs0 log0 q xs log q' r,
  orun clk shuffle f init_oprog xs0 = Some (log0, q) -> oproper_run clk shuffle f B init_oprog (xs0 ++ xs) ->
  orun clk shuffle f q xs = Some (log, q') -> Forall assigns_none xs -> (r < p_npar (q_base q))%nat -> ~ hidden q r ->
  p_par (q_base q') r = p_par (q_base q) r.
Proof. exact oprogram_parameters. Qed.
Print Assumptions C87_parameters.

Example C87_parameters_case : exists log0 log q',
  orun clk0 (fun _ => noshuffle) 100 init_oprog obuild = Some (log0, q_before) /\ oproper_run clk0 (fun _ => noshuffle) 100 obodies init_oprog (obuild ++ omixed) /\
  orun clk0 (fun _ => noshuffle) 100 q_before omixed = Some (log, q') /\ Forall assigns_none omixed /\ (0 < p_npar (q_base q_before))%nat /\ ~ hidden q_before 0 /\
  p_par (q_base q_before) 0 = 6 /\ p_npar (q_base q') = 7%nat /\ map (p_par (q_base q')) [1; 2; 3; 4; 5; 6]%nat = [0; 5; 0; 3; 0; -5].
Proof.
  eexists _, _, _. split; [vm_compute; reflexivity|]. split; [exact oproper_case|]. split; [vm_compute; reflexivity|]. split; [repeat constructor|].
  split; [vm_compute; repeat constructor|]. split; [apply nothing_hidden; intros [|[|[|k]]]; intros; vm_compute; discriminate|]. repeat split; vm_compute; reflexivity.
Qed.

(** C87: every statement of every program ends. *)
Theorem C87_runs : forall clk shuffle B xs, (forall g, shuffles (shuffle g)) -> (forall f, oproper_run clk shuffle f B init_oprog xs) ->
  exists f log q, orun clk shuffle f init_oprog xs = Some (log, q).
Proof. exact oprogram_runs. Qed.
Print Assumptions C87_runs.

Example C87_runs_case : shuffles noshuffle /\ (forall f, oproper_run clk0 (fun _ => noshuffle) f obodies init_oprog (obuild ++ omixed)) /\
  match orun clk0 (fun _ => noshuffle) 100 init_oprog (obuild ++ omixed) with Some (log, q) => q_nhandles q = 3%nat /\ List.length log = 22%nat | None => False end.
Proof.
  split; [intros l; apply Permutation.Permutation_refl|]. split; [exact oproper_every|]. vm_compute. split; reflexivity.
Qed.

(** C87: a call of [solve] or [optimize] only makes a generator, which stays as it is until it is
    advanced or closed. *)
Theorem C87_generator : forall clk shuffle f B xs0 log0 q s i os a x xs log q',
  orun clk shuffle f init_oprog xs0 = Some (log0, q) -> (x = Plain (Solve s i a) /\ os = [] \/ x = Optimize s i os a) ->
  oproper_run clk shuffle f B init_oprog (xs0 ++ x :: xs) -> (s < p_nsolvers (q_base q))%nat -> (i < p_nmodels (q_base q))%nat ->
  orun clk shuffle f q (x :: xs) = Some (log, q') -> ~ In (Plain (Next (q_nhandles q))) xs -> ~ In (Plain (Close (q_nhandles q))) xs ->
  fresh q' (q_nhandles q) s a /\ objectives_of q' (q_nhandles q) = os.
Proof. exact oprogram_generator. Qed.
Print Assumptions C87_generator.

Example C87_generator_case : exists log0 log q',
  orun clk0 (fun _ => noshuffle) 100 init_oprog obuild = Some (log0, q_before) /\
  oproper_run clk0 (fun _ => noshuffle) 100 obodies init_oprog (obuild ++ [Optimize 0 0 [largest] no_args; Plain (Next 0); Plain (Next 2)]) /\
  orun clk0 (fun _ => noshuffle) 100 q_before [Optimize 0 0 [largest] no_args; Plain (Next 0); Plain (Next 2)] = Some (log, q') /\
  q_nhandles q_before = 3%nat /\ (0 < p_nsolvers (q_base q_before))%nat /\ (0 < p_nmodels (q_base q_before))%nat /\ objectives_of q' 3 = [largest].
Proof.
  eexists _, _, _. split; [vm_compute; reflexivity|]. split; [unfold obuild; cbn [map app]; oproper_literal|]. split; [vm_compute; reflexivity|].
  split; [reflexivity|]. split; [vm_compute; repeat constructor|]. split; [vm_compute; repeat constructor|]. reflexivity.
Qed.

(** C87: a closed generator gives nothing any more, whether it had been started or not. *)
Theorem C87_close : forall clk shuffle f B xs0 log0 q h xs log q',
  orun clk shuffle f init_oprog xs0 = Some (log0, q) -> oproper_run clk shuffle f B init_oprog (xs0 ++ Plain (Close h) :: xs) -> (h < q_nhandles q)%nat ->
  orun clk shuffle f q (Plain (Close h) :: xs) = Some (log, q') -> oresults_of h log = repeat EvStop (onext_calls h xs).
Proof. exact oprogram_close. Qed.
Print Assumptions C87_close.

Example C87_close_case : exists log0 log q',
  orun clk0 (fun _ => noshuffle) 100 init_oprog obuild = Some (log0, q_before) /\
  oproper_run clk0 (fun _ => noshuffle) 100 obodies init_oprog (obuild ++ map Plain [Next 0; Close 0; Next 2; Next 0; Next 1; Close 1; Next 0; Next 1]) /\
  orun clk0 (fun _ => noshuffle) 100 q_before (map Plain [Next 0; Close 0; Next 2; Next 0; Next 1; Close 1; Next 0; Next 1]) = Some (log, q') /\
  oresults_of 0 log = [EvYield [("y", 1); ("x", 1)]; EvStop; EvStop] /\ oresults_of 1 log = [EvYield [("y", 1); ("x", 1)]; EvStop].
Proof.
  eexists _, _, _. split; [vm_compute; reflexivity|]. split; [unfold obuild; cbn [map app]; oproper_literal|]. split; [vm_compute; reflexivity|].
  split; reflexivity.
Qed.
