(** Properties of EinsteinRiddleSolver. *)
From Coq Require Import Permutation.
From Verif Require Import Einstein SpecPuzzle SpecEinstein SpecSolve EinsteinFacts EinsteinUnique.
Open Scope string_scope.
Open Scope list_scope.
Open Scope Z_scope.

(** C54: whatever the options, the solutions are the arrangements that satisfy the statements. *)
Theorem C54_solutions : forall clk shuffle o, shuffles shuffle ->
  exactly (fun fuel => einstein_run clk shuffle fuel o) riddle_answer (o_timeout o) (o_limit o).
Proof. exact einstein_exact. Qed.
Print Assumptions C54_solutions.

(** C54: there is exactly one such arrangement, and in it the German owns the zebra. *)
Theorem C54_unique : forall z, riddle_answer z <-> z =
  [(1, [("owner", "Norwegian"); ("color", "yellow"); ("drink", "water"); ("smoke", "Dunhill"); ("animal", "cats")]);
   (2, [("owner", "Dane"); ("color", "blue"); ("drink", "tea"); ("smoke", "Blend"); ("animal", "a horse")]);
   (3, [("owner", "English"); ("color", "red"); ("drink", "milk"); ("smoke", "Pall Mall"); ("animal", "birds")]);
   (4, [("owner", "German"); ("color", "green"); ("drink", "coffee"); ("smoke", "Prince"); ("animal", "a zebra")]);
   (5, [("owner", "Swede"); ("color", "white"); ("drink", "beer"); ("smoke", "Blue Master"); ("animal", "a dog")])].
Proof. exact riddle_unique. Qed.
Print Assumptions C54_unique.

(** C54: a run without timeout yields that arrangement once and nothing else, whatever the
    policy, the positive limit and the compilation. *)
Theorem C54_run : forall clk shuffle fuel o bs r i, shuffles shuffle -> o_timeout o = LNone ->
  (forall n, o_limit o = Solver.LNum n -> 1 <= n) ->
  einstein_run clk shuffle fuel o = Some (bs, r, i) -> r = None /\ exists z, bs = [z] /\ riddle_answer z.
Proof. exact one_answer. Qed.
Print Assumptions C54_run.

Example C54_case :
  option_map (fun out => (map (map (fun row => map snd (snd row))) (fst (fst out)), snd (fst out), snd out))
    (einstein_run (fun _ => 0) (fun l => l) (Z.to_nat 1000000) default_options) =
  Some ([[["Norwegian"; "yellow"; "water"; "Dunhill"; "cats"]; ["Dane"; "blue"; "tea"; "Blend"; "a horse"]; ["English"; "red"; "milk"; "Pall Mall"; "birds"];
         ["German"; "green"; "coffee"; "Prince"; "a zebra"]; ["Swede"; "white"; "beer"; "Blue Master"; "a dog"]]], None, None) /\
  o_timeout default_options = LNone /\ o_limit default_options = LNone /\ shuffles (fun l => l).
Proof. split; [vm_compute; reflexivity|]. repeat split. intros l. apply Permutation_refl. Qed.
