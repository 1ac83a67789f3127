(** C84: the command line.  ["--"] is not modelled, and the texts of help and errors are not. *)
From Verif Require Import DemoMain SpecMain MainFacts.
Open Scope string_scope.
Open Scope list_scope.
Open Scope Z_scope.

(** C84: the commands and their options. *)
Theorem C84_commands : forall s c, In (s, c) commands <-> s = command_name c.
Proof. exact commands_iff. Qed.
Print Assumptions C84_commands.
Theorem C84_options : forall c o, In o (options_of c) <-> has_option c (o_short o) (o_long o) (o_nargs o) (o_action o).
Proof. exact options_iff. Qed.
Print Assumptions C84_options.
Example C84_options_case : map o_long (options_of CNonogram) = ["help"; "input-file"; "input-image"; "timeout"; "limit"; "show-model"].
Proof. reflexivity. Qed.

(** C84: words can be read as options and arguments in at most one way. *)
Theorem C84_one_reading : forall c gs gs' ws, line (options_of c) gs ws -> line (options_of c) gs' ws -> gs = gs'.
Proof. intros c gs gs' ws. exact (line_unique (options_of c) gs gs' ws (options_wf c)). Qed.
Print Assumptions C84_one_reading.

(** C84: a program runs exactly for the valid lines of options, with the last value of each. *)
Theorem C84_runs : forall files to_float clk shuffle fuel gfuel order morder seconds colored argv out,
  main files to_float clk shuffle fuel gfuel order morder seconds colored argv = Some (Ran out) <->
  ~ In "--" argv /\ exists c rest gs n, argv = command_name c :: rest /\ line (options_of c) gs rest /\
    valid files to_float (takes_source c) gs /\ settings files to_float gs n /\
    out = program clk shuffle fuel gfuel order morder seconds colored c n.
Proof. exact main_run. Qed.
Print Assumptions C84_runs.
Theorem C84_line_runs : forall files to_float clk shuffle fuel gfuel order morder seconds colored c rest gs,
  ~ In "--" rest -> line (options_of c) gs rest -> valid files to_float (takes_source c) gs ->
  exists n, settings files to_float gs n /\ (forall n', settings files to_float gs n' -> n' = n) /\
    main files to_float clk shuffle fuel gfuel order morder seconds colored (command_name c :: rest) =
    Some (Ran (program clk shuffle fuel gfuel order morder seconds colored c n)).
Proof. exact main_line. Qed.
Print Assumptions C84_line_runs.
(** An abbreviated name, a value with an equals sign, an option without value, flags in one word, an option
    given twice, and a negative number. *)
Example C84_words_case : let t := options_of CQueens in
  exists gs, gs = [GOpt (Opt "t" "timeout" Optional ATimeout) []; GOpt o_board ["5"]; GOpt (Opt "s" "show-model" Zero AShow) [];
      GOpt (Opt "l" "limit" Optional ALimit) ["3"]; GOpt o_board ["6"]; GOpt (Opt "l" "limit" Optional ALimit) ["-1"]] /\
    line t gs ["-t"; "--board=5"; "-sl3"; "-b"; "6"; "--limit"; "-1"] /\
    parse_args (fun _ => None) (fun _ => Err ValueError) ["queens"; "-t"; "--board=5"; "-sl3"; "-b"; "6"; "--limit"; "-1"] =
      Parsed (Some (CQueens, Namespace LInfinity (LNum (-1)) true None None ["red"; "blue"; "green"] ["red"; "blue"; "green"; "yellow"] 6 true None)).
Proof. exact words_case. Qed.

(** C84: other lines end with status 2, and help with status 0. *)
Theorem C84_usage : forall files to_float clk shuffle fuel gfuel order morder seconds colored c rest gs,
  ~ In "--" rest -> line (options_of c) gs rest -> ~ gives AHelp gs -> ~ valid files to_float (takes_source c) gs ->
  main files to_float clk shuffle fuel gfuel order morder seconds colored (command_name c :: rest) = Some (Exit 2).
Proof. exact main_usage. Qed.
Print Assumptions C84_usage.
Theorem C84_help : forall files to_float clk shuffle fuel gfuel order morder seconds colored c rest gs1 o vs gs2,
  ~ In "--" rest -> line (options_of c) (gs1 ++ GOpt o vs :: gs2) rest -> valid files to_float (takes_source c) gs1 -> o_action o = AHelp ->
  main files to_float clk shuffle fuel gfuel order morder seconds colored (command_name c :: rest) = Some (Exit 0).
Proof. exact main_help. Qed.
Print Assumptions C84_help.
Theorem C84_no_line : forall files to_float clk shuffle fuel gfuel order morder seconds colored c rest,
  ~ In "--" rest -> (forall gs, ~ line (options_of c) gs rest) ->
  main files to_float clk shuffle fuel gfuel order morder seconds colored (command_name c :: rest) = Some (Exit 2) \/
  main files to_float clk shuffle fuel gfuel order morder seconds colored (command_name c :: rest) = Some (Exit 0).
Proof. exact main_noline. Qed.
Print Assumptions C84_no_line.
Theorem C84_unknown : forall files to_float clk shuffle fuel gfuel order morder seconds colored w rest,
  ~ In "--" (w :: rest) -> (forall c, w <> command_name c) -> (forall s, w <> String "-" s) ->
  main files to_float clk shuffle fuel gfuel order morder seconds colored (w :: rest) = Some (Exit 2).
Proof. exact main_unknown. Qed.
Print Assumptions C84_unknown.
(** A limit that is no number, two sources, both kinds of file, an ambiguous and an unknown option, and help. *)
Example C84_usage_case : let main := main (fun _ => Some "") (fun _ => Err ValueError) (fun _ => 0) (fun l => l) 9 9 (fun l => l) (fun l => l) (fun _ => "") (fun _ s => Ok s) in
  main ["queens"; "-l"; "two"] = Some (Exit 2) /\ main ["cryptarithm"; "A==B"; "C==D"] = Some (Exit 2) /\
  main ["nonogram"; "-i"; "f"; "-I"; "f"] = Some (Exit 2) /\ main ["nonogram"; "--input"; "f"] = Some (Exit 2) /\
  main ["sudoku"; "-x"] = Some (Exit 2) /\ main ["sudoku"; "-x"; "-h"] = Some (Exit 0) /\ main ["sudoky"] = Some (Exit 2) /\ main [] = Some (Exit 0).
Proof. vm_compute. repeat split. Qed.

(** C84: the claim that options may come before the source is false: an option that may have a value
    takes it. *)
Theorem C84_source_taken : forall files to_float clk shuffle fuel gfuel order morder seconds colored source,
  (forall s, source <> String "-" s) -> (forall b, type_on_off source <> Ok b) ->
  main files to_float clk shuffle fuel gfuel order morder seconds colored ["cryptarithm"; "-z"; source] = Some (Exit 2).
Proof. exact source_taken. Qed.
Print Assumptions C84_source_taken.
Theorem C84_source_refuted : forall files to_float clk shuffle fuel gfuel order morder seconds colored, exists source,
  main files to_float clk shuffle fuel gfuel order morder seconds colored ["cryptarithm"; source; "-z"] =
    Some (Ran (cryptarithm_main clk shuffle fuel seconds order (Some source) true LNone LNone false)) /\
  main files to_float clk shuffle fuel gfuel order morder seconds colored ["cryptarithm"; "-z"; source] = Some (Exit 2).
Proof. exact source_order. Qed.
Print Assumptions C84_source_refuted.
