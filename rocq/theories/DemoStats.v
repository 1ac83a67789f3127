(** Model of src/satisfy/tool/demo_utils.py (print_solve_stats, print_optimization_stats): the
    printed text, without the newline added by [print].  Simplification: how the elapsed time
    is written ("{:.3f}") is a parameter [seconds]. *)
From Verif Require Export Optimize Dec.
Open Scope string_scope.
Open Scope Z_scope.

(** [str(stats.interrupt)], solver.py:231, 280. *)
Definition interrupt_text (i : interrupt) : string := match i with ILimit => "limit" | ITimeout => "timeout" end.

(** The variable [suffix], demo_utils.py:18-21 and 41-44. *)
Definition suffix (count : Z) : string := if count =? 1 then "" else "s".

(** [print_solve_stats], demo_utils.py:17-29. *)
Definition print_solve_stats (seconds : Z -> string) (stats : Z * Z * option interrupt) : string :=
  let '(count, elapsed, interrupt) := stats in
  String newline "" ++
  match interrupt with
  | Some i => "Found " ++ str_int count ++ " partial solution" ++ suffix count ++ " in " ++ seconds elapsed ++ " seconds [" ++ interrupt_text i ++ " reached]"
  | None =>
      if count =? 1 then "Found unique solution" ++ suffix count ++ " in " ++ seconds elapsed ++ " seconds"
      else "Found all " ++ str_int count ++ " solution" ++ suffix count ++ " in " ++ seconds elapsed ++ " seconds"
  end.

(** [print_optimization_stats], demo_utils.py:32-48; [None] is the default of [optimal]. *)
Definition print_optimization_stats (seconds : Z -> string) (stats : Z * Z * option interrupt) (optimal : option bool) : string :=
  let '(count, elapsed, interrupt) := stats in
  let optimal := match optimal with None => match interrupt with None => true | Some _ => false end | Some b => b end in
  let kind := if optimal then "optimal" else "sub-optimal" in
  String newline "" ++ "Found " ++ kind ++ " solution in " ++ seconds elapsed ++ " seconds after " ++ str_int count ++ " solve iteration" ++ suffix count ++
  match interrupt with Some i => " [" ++ interrupt_text i ++ " reached]" | None => "" end.
