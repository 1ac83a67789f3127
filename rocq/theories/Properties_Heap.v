(** C89: the objects that a running [solve] shares with the program. *)
From Verif Require Import Solver SpecSolve SolverCases HeapSolver SpecHeap HeapProps HeapCases.
Open Scope string_scope.
Open Scope list_scope.
Open Scope Z_scope.

(** C89: a loop whose body changes the solutions it has received (and other objects of its
    own) receives the same solutions, and ends in the same way, as a loop that changes nothing. *)
Theorem C89_solutions : forall clk shuffle home dicts lists body e H sv a fuel,
  homes home H -> up_to_date home H (e_world e) -> spare home H dicts lists -> changes_own dicts lists body ->
  outcomes (hloop clk shuffle home fuel body [] e H (KInit sv a)) = solve_all clk shuffle fuel e sv a.
Proof. exact heap_solutions. Qed.
Print Assumptions C89_solutions.

Example C89_solutions_case :
  homes home0 heap0 /\ up_to_date home0 heap0 (e_world e_lists) /\ spare home0 heap0 none own_list /\ changes_own none own_list wipe /\
  view (solve_all clk0 noshuffle 100 e_lists ordered no_args) =
    Some ([[("y", 1); ("x", 1)]; [("y", 2); ("x", 1)]; [("y", 2); ("x", 2)]; [("y", 3); ("x", 1)]; [("y", 3); ("x", 2)]], None) /\
  contents (hloop clk0 noshuffle home0 100 wipe [] e_lists heap0 (KInit ordered no_args)) =
    Some ([([("y", 1); ("x", 1)], []); ([("y", 2); ("x", 1)], []); ([("y", 2); ("x", 2)], []); ([("y", 3); ("x", 1)], []); ([("y", 3); ("x", 2)], [])],
          [1; 2], [5; 4; 3; 2; 1; 5], None).
Proof.
  split; [apply home0_ok; reflexivity|]. split; [exact up_to_date0|]. split; [apply spare0; reflexivity|]. split; [exact wipe_own|].
  split; vm_compute; reflexivity.
Qed.

(** C89: domain lists that were changed before the loop count with their contents at the first
    [next()]: the model is the one with these domains. *)
Theorem C89_current : forall clk shuffle home dicts lists body e H sv a fuel,
  homes home H -> spare home H dicts lists -> changes_own dicts lists body ->
  outcomes (hloop clk shuffle home fuel body [] e H (KInit sv a)) =
  solve_all clk shuffle fuel (set_world e (current_world home H (e_world e))) sv a.
Proof. exact heap_current. Qed.
Print Assumptions C89_current.

Example C89_current_case :
  homes home0 (set_list heap0 0 [3; 1]) /\ spare home0 (set_list heap0 0 [3; 1]) none own_list /\ changes_own none own_list wipe /\
  contents (hloop clk0 noshuffle home0 100 wipe [] e_lists (set_list heap0 0 [3; 1]) (KInit ordered no_args)) =
    Some ([([("y", 1); ("x", 1)], []); ([("y", 2); ("x", 1)], []); ([("y", 3); ("x", 3)], []); ([("y", 3); ("x", 1)], [])], [3; 1], [4; 3; 2; 1; 5], None).
Proof.
  split; [apply home0_ok; reflexivity|]. split; [apply spare0; reflexivity|]. split; [exact wipe_own|]. vm_compute; reflexivity.
Qed.

(** C89: each solution received is another new object. *)
Theorem C89_new : forall clk shuffle home dicts lists body e H sv a fuel ys H2 e2 o,
  homes home H -> spare home H dicts lists -> changes_own dicts lists body ->
  hloop clk shuffle home fuel body [] e H (KInit sv a) = Some (ys, H2, e2, o) ->
  NoDup (map fst ys) /\ (forall r, In r (map fst ys) -> (h_ndicts H <= r)%nat).
Proof. exact heap_new. Qed.
Print Assumptions C89_new.

Example C89_new_case : exists ys H2 e2,
  hloop clk0 noshuffle home0 100 wipe [] e_lists heap0 (KInit ordered no_args) = Some (ys, H2, e2, None) /\
  homes home0 heap0 /\ spare home0 heap0 none own_list /\ changes_own none own_list wipe /\ map fst ys = [3; 6; 7; 10; 11]%nat /\ h_ndicts heap0 = 1%nat.
Proof.
  eexists _, _, _. split; [vm_compute; reflexivity|].
  split; [apply home0_ok; reflexivity|]. split; [apply spare0; reflexivity|]. split; [exact wipe_own|]. split; vm_compute; reflexivity.
Qed.

(** C89: solutions that the body leaves alone still hold at the end what they held when they
    were received. *)
Theorem C89_kept : forall clk shuffle home dicts lists body e H sv a fuel ys H2 e2 o,
  homes home H -> spare home H dicts lists -> changes_own dicts lists body ->
  (forall given K r, In r given -> h_dicts (body given K) r = h_dicts K r) ->
  hloop clk shuffle home fuel body [] e H (KInit sv a) = Some (ys, H2, e2, o) ->
  forall r s, In (r, s) ys -> h_dicts H2 r = s.
Proof. exact heap_kept. Qed.
Print Assumptions C89_kept.

Example C89_kept_case : exists ys H2 e2 o,
  hloop clk0 noshuffle home0 100 collect [] e_lists heap0 (KInit ordered no_args) = Some (ys, H2, e2, o) /\
  homes home0 heap0 /\ spare home0 heap0 none own_list /\ changes_own none own_list collect /\
  map fst ys = [3; 6; 7; 10; 11]%nat /\
  contents (Some (ys, H2, e2, o)) =
    Some (map (fun s => (s, s)) [[("y", 1); ("x", 1)]; [("y", 2); ("x", 1)]; [("y", 2); ("x", 2)]; [("y", 3); ("x", 1)]; [("y", 3); ("x", 2)]],
          [1; 2], [5], None).
Proof.
  eexists _, _, _, _. split; [vm_compute; reflexivity|].
  split; [apply home0_ok; reflexivity|]. split; [apply spare0; reflexivity|]. split; [apply collect_own|]. split; vm_compute; reflexivity.
Qed.

(** C89: the search changes no object of the program; the domains given to the model in
    particular. *)
Theorem C89_frame : forall clk shuffle home dicts lists body e H sv a fuel ys H2 e2 o,
  homes home H -> spare home H dicts lists -> changes_own dicts lists body ->
  hloop clk shuffle home fuel body [] e H (KInit sv a) = Some (ys, H2, e2, o) ->
  (forall r, (r < h_ndicts H)%nat -> ~ dicts r -> h_dicts H2 r = h_dicts H r) /\
  (forall r, (r < h_nlists H)%nat -> ~ lists r -> h_lists H2 r = h_lists H r).
Proof. exact heap_frame. Qed.
Print Assumptions C89_frame.

Example C89_frame_case : exists ys H2 e2,
  hloop clk0 noshuffle home0 100 wipe [] e_lists heap0 (KInit ordered no_args) = Some (ys, H2, e2, None) /\
  homes home0 heap0 /\ spare home0 heap0 none own_list /\ changes_own none own_list wipe /\
  List.length ys = 5%nat /\ h_lists H2 0 = [1; 2] /\ h_lists H2 1 = [5; 4; 3; 2; 1; 5] /\ h_dicts H2 0 = [("mine", 7)].
Proof.
  eexists _, _, _. split; [vm_compute; reflexivity|].
  split; [apply home0_ok; reflexivity|]. split; [apply spare0; reflexivity|]. split; [exact wipe_own|]. repeat split; vm_compute; reflexivity.
Qed.

(** C89: it is not so for domains: a body that appends to a domain list of the model changes
    the solutions that it receives. *)
Theorem C89_domain_refuted : exists clk shuffle home body e H sv a fuel,
  homes home H /\ up_to_date home H (e_world e) /\ changes_own (fun _ => False) (fun r => r = 0%nat) body /\
  option_map (fun q => fst (fst q)) (outcomes (hloop clk shuffle home fuel body [] e H (KInit sv a))) <>
  option_map (fun q => fst (fst q)) (solve_all clk shuffle fuel e sv a).
Proof.
  exists clk0, noshuffle, home0, extend, e_lists, heap0, ordered, no_args, 100%nat.
  split; [apply home0_ok; reflexivity|]. split; [exact up_to_date0|]. split; [exact extend_own|]. vm_compute. discriminate.
Qed.
Print Assumptions C89_domain_refuted.

(** C89: the check of [add_int_variable] for repeated values is about the list at that time:
    after [domain[0] = 2] solutions are repeated. *)
Theorem C89_repeated_refuted : exists clk shuffle home e H l sv a fuel ys e2,
  homes home H /\ up_to_date home H (e_world e) /\
  outcomes (hloop clk shuffle home fuel (fun _ K => K) [] e (set_list H 0 l) (KInit sv a)) = Some (ys, e2, None) /\ ~ NoDup ys.
Proof.
  exists clk0, noshuffle, home0, e_lists, heap0, [2; 2], ordered, no_args, 100%nat. eexists _, _.
  split; [apply home0_ok; reflexivity|]. split; [exact up_to_date0|]. split; [vm_compute; reflexivity|].
  intros N. inversion N as [|? ? N1 N2]. apply N1. left. reflexivity.
Qed.
Print Assumptions C89_repeated_refuted.
