(** Model of src/satisfy/tool/einstein_riddle.py (EinsteinRiddleSolver).
    Simplification: a Variable object is represented by its name. *)
From Verif Require Export Graph.
From Coq Require Import Ascii.
Open Scope string_scope.
Open Scope Z_scope.

(** [mkname], einstein_riddle.py:33-34, called with two tokens. *)
Fixpoint underscores (s : string) : string :=
  match s with
  | "" => ""
  | String c s' => String (if Ascii.eqb c " " then "_"%char else c) (underscores s')
  end.
Definition mkname (kind value : string) : name := underscores kind ++ "_" ++ underscores value.

(** Lines 36-52. *)
Definition indices : list Z := zrange 1 6.
Definition l_owner := ["English"; "Swede"; "Dane"; "Norwegian"; "German"].
Definition l_color := ["red"; "green"; "white"; "yellow"; "blue"].
Definition l_drink := ["water"; "coffee"; "tea"; "milk"; "beer"].
Definition l_smoke := ["Pall Mall"; "Prince"; "Dunhill"; "Blend"; "Blue Master"].
Definition l_animal := ["cats"; "a dog"; "birds"; "a horse"; "a zebra"].
Definition kind_variables (kind : string) (values : list string) : op (dict name) :=
  op_for (fun v => do! x := int_variable indices (mkname kind v) in op_ret (v, x)) values.

Definition equal (d d' : dict name) (k k' : string) : op unit :=
  do! x := op_item d k in
  do! y := op_item d' k' in
  add_formula (FBin UEq (FVar x) (FVar y)).
(** A new variable with domain [[-1, 1]] that is equal to a difference, as in lines 98-99. *)
Definition adjacent (z : name) (d d' : dict name) (k k' : string) : op unit :=
  do! z := int_variable [-1; 1] z in
  do! x := op_item d k in
  do! y := op_item d' k' in
  add_formula (FBin UEq (FBin USub (FVar x) (FVar y)) (FVar z)).

(** Lines 70-117. *)
Definition einstein_statements (d_owner d_color d_drink d_smoke d_animal : dict name) : op unit :=
  do! _ := equal d_owner d_color "English" "red" in
  do! _ := equal d_owner d_animal "Swede" "a dog" in
  do! _ := equal d_owner d_drink "Dane" "tea" in
  do! x := op_item d_color "green" in
  do! y := op_item d_color "white" in
  do! _ := add_formula (FBin UEq (FVar x) (FBin USub (FVar y) (FInt 1))) in
  do! _ := equal d_color d_drink "green" "coffee" in
  do! _ := equal d_smoke d_animal "Pall Mall" "birds" in
  do! _ := equal d_color d_smoke "yellow" "Dunhill" in
  do! x := op_item d_drink "milk" in
  do! _ := add_formula (FBin UEq (FVar x) (FInt 3)) in
  do! x := op_item d_owner "Norwegian" in
  do! _ := add_formula (FBin UEq (FVar x) (FInt 1)) in
  do! _ := adjacent "Blend_cats" d_smoke d_animal "Blend" "cats" in
  do! _ := adjacent "Dunhill_horse" d_smoke d_animal "Dunhill" "a horse" in
  do! _ := equal d_smoke d_drink "Blue Master" "beer" in
  do! _ := equal d_owner d_smoke "German" "Prince" in
  do! _ := adjacent "Norwegian_blue" d_owner d_color "Norwegian" "blue" in
  adjacent "water_Blend" d_drink d_smoke "water" "Blend".

(** [EinsteinRiddleSolver.__init__] (27-121); the object is [self._variables]. *)
Definition einstein_init : op (list (string * dict name)) :=
  do! d_owner := kind_variables "owner" l_owner in
  do! d_color := kind_variables "color" l_color in
  do! d_drink := kind_variables "drink" l_drink in
  do! d_smoke := kind_variables "smoke" l_smoke in
  do! d_animal := kind_variables "animal" l_animal in
  do! _ := add_all_different_constraint (map snd d_owner) in
  do! _ := add_all_different_constraint (map snd d_color) in
  do! _ := add_all_different_constraint (map snd d_drink) in
  do! _ := add_all_different_constraint (map snd d_smoke) in
  do! _ := add_all_different_constraint (map snd d_animal) in
  do! _ := einstein_statements d_owner d_color d_drink d_smoke d_animal in
  op_ret [("owner", d_owner); ("color", d_color); ("drink", d_drink); ("smoke", d_smoke); ("animal", d_animal)].

(** [z_sol[house][kind] = value]: KeyError if there is no such house. *)
Definition house_set (z : list (Z * dict string)) (house : Z) (kind value : string) : res (list (Z * dict string)) :=
  if existsb (fun p => house =? fst p) z
  then Ok (map (fun p : Z * dict string => if house =? fst p then (fst p, dset (snd p) kind value) else p) z)
  else Err KeyError.
Fixpoint set_values (s : subst) (kind : string) (vars : dict name) (z : list (Z * dict string)) : res (list (Z * dict string)) :=
  match vars with
  | [] => Ok z
  | (value, x) :: vars' =>
      let! house := get_item s x in
      let! z' := house_set z house kind value in
      set_values s kind vars' z'
  end.
Fixpoint set_kinds (s : subst) (kinds : list (string * dict name)) (z : list (Z * dict string)) : res (list (Z * dict string)) :=
  match kinds with
  | [] => Ok z
  | (kind, vars) :: kinds' => let! z' := set_values s kind vars z in set_kinds s kinds' z'
  end.
(** [__iter__] (135-148). *)
Definition einstein_decode (variables : list (string * dict name)) (s : subst) : res (list (Z * dict string)) :=
  set_kinds s variables (map (fun i => (i, [])) indices).

(** [list(EinsteinRiddleSolver(...))] with the given options. *)
Definition einstein_run clk shuffle fuel (o : options) :=
  puzzle_run clk shuffle fuel einstein_init einstein_decode (options_solver MIN_BOUND o).
