(** Specification: how the words of a command line give options and arguments, and which settings
    result from them. *)
From Verif Require Import DemoMain.
Open Scope string_scope.
Open Scope list_scope.
Open Scope Z_scope.

(** ** Words *)
Definition takes_value (o : optdef) : Prop := o_nargs o <> Zero.

Definition letters (fs : list optdef) : string := string_of_list_ascii (map o_short fs).

(** The names of an option: its letter after a dash, or its long name after two dashes; of the long
    name it is enough to give a beginning that no other option has. *)
Inductive names (t : list optdef) (o : optdef) : string -> Prop :=
| name_short : In o t -> names t o (String "-" (String (o_short o) ""))
| name_long p q : In o t -> o_long o = (p ++ q)%string ->
    (q = "" \/ forall o' q', In o' t -> o_long o' = (p ++ q')%string -> o' = o) ->
    names t o ("--" ++ p)%string.

(** A word for flags [fs] and then an option [o], which may have its value in the same word.  After
    the letter of an option there may be an equals sign. *)
Inductive word_gives (t : list optdef) : string -> list optdef -> optdef -> option string -> Prop :=
| word_name o w : names t o w -> word_gives t w [] o None
| word_equal o w v : names t o w -> takes_value o -> word_gives t (w ++ "=" ++ v)%string [] o (Some v)
| word_glued o c v : In o t -> takes_value o -> c <> "="%char ->
    word_gives t (String "-" (String (o_short o) (String c v))) [] o (Some (String c v))
| word_flags f fs eq o : (forall x, In x (f :: fs) -> In x t /\ ~ takes_value x) -> In o t -> eq = "" \/ eq = "=" ->
    word_gives t (String "-" (String (o_short f) (eq ++ letters (fs ++ [o])))) (f :: fs) o None
| word_flags_glued f fs eq o c v : (forall x, In x (f :: fs) -> In x t /\ ~ takes_value x) -> In o t -> takes_value o -> eq = "" \/ eq = "=" ->
    word_gives t (String "-" (String (o_short f) (eq ++ letters (fs ++ [o]) ++ String c v))) (f :: fs) o (Some (String c v)).

(** The words that may begin with a name of an option. *)
Inductive claims (o : optdef) : string -> Prop :=
| claim_short r : claims o (String "-" (String (o_short o) r))
| claim_long p q : o_long o = (p ++ q)%string -> claims o ("--" ++ p)%string
| claim_equal p q v : o_long o = (p ++ q)%string -> claims o ("--" ++ p ++ "=" ++ v)%string.

(** A negative number without exponent; a newline after the last digit is accepted. *)
Definition digits (s : string) : Prop := s <> "" /\ forall c, In c (list_ascii_of_string s) -> In c (list_ascii_of_string "0123456789").
Inductive negative : string -> Prop :=
| neg_int d e : digits d -> e = "" \/ e = String newline "" -> negative ("-" ++ d ++ e)
| neg_dec d d' e : d = "" \/ digits d -> digits d' -> e = "" \/ e = String newline "" -> negative ("-" ++ d ++ "." ++ d' ++ e).

(** The words that are values: those without a dash at the beginning, the single dash, and, if
    they cannot be an option, negative numbers and words with a space. *)
Inductive value (t : list optdef) : string -> Prop :=
| value_empty : value t ""
| value_plain c s : c <> "-"%char -> value t (String c s)
| value_dash : value t "-"
| value_unclaimed c s : (forall o, In o t -> ~ claims o (String "-" (String c s))) ->
    negative (String "-" (String c s)) \/ In " "%char (list_ascii_of_string (String c s)) ->
    value t (String "-" (String c s)).

(** ** Command lines *)
Inductive given : Type := GOpt (o : optdef) (vs : list string) | GSource (s : string).
Definition flag (o : optdef) : given := GOpt o [].
(** The word that comes next is not a value. *)
Definition no_value_next (t : list optdef) (ws : list string) : Prop := forall w ws', ws = w :: ws' -> ~ value t w.
(** The number of values of an option. *)
Definition fits (t : list optdef) (o : optdef) (vs ws : list string) : Prop :=
  match o_nargs o with
  | Zero => vs = []
  | One => length vs = 1%nat
  | Optional => length vs = 1%nat \/ vs = [] /\ no_value_next t ws
  | Plus => vs <> [] /\ no_value_next t ws
  end.
Inductive line (t : list optdef) : list given -> list string -> Prop :=
| line_nil : line t [] []
| line_word w fs o v gs ws : word_gives t w fs o (Some v) -> line t gs ws ->
    line t (map flag fs ++ GOpt o [v] :: gs) (w :: ws)
| line_next w fs o vs gs ws : word_gives t w fs o None -> Forall (value t) vs -> fits t o vs ws -> line t gs ws ->
    line t (map flag fs ++ GOpt o vs :: gs) (w :: vs ++ ws)
| line_source s gs ws : value t s -> line t gs ws -> line t (GSource s :: gs) (s :: ws).

(** ** Settings *)
(** The values given with the last option of a kind. *)
Inductive last_given (a : action) : list given -> option (list string) -> Prop :=
| last_none gs : (forall o vs, In (GOpt o vs) gs -> o_action o <> a) -> last_given a gs None
| last_some gs o vs gs' : o_action o = a -> (forall o' vs', In (GOpt o' vs') gs' -> o_action o' <> a) ->
    last_given a (gs ++ GOpt o vs :: gs') (Some vs).

Section Settings.
Variables (files : string -> option string) (to_float : string -> res lim).
(** The values that an option accepts. *)
Definition accepts (o : optdef) (vs : list string) : Prop :=
  match o_action o with
  | ATimeout => forall v, In v vs -> exists x, to_float v = Ok x
  | ALimit | ABoard => forall v, In v vs -> exists n, int_of_text v = Ok n
  | AZeros => forall v, In v vs -> exists b, type_on_off v = Ok b
  | AInput | AImage => forall v, In v vs -> exists text, files v = Some text
  | AHelp | AShow | ALabels | AColors => True
  end.
Definition gives (a : action) (gs : list given) : Prop := exists o vs, In (GOpt o vs) gs /\ o_action o = a.
(** All values are accepted, help is not asked for, not both kinds of file are given, and there is at
    most one source, for the command that takes it. *)
Definition valid (sourced : bool) (gs : list given) : Prop :=
  (forall o vs, In (GOpt o vs) gs -> accepts o vs) /\ ~ gives AHelp gs /\ ~ (gives AInput gs /\ gives AImage gs) /\
  (forall s s' l1 l2 l3, gs <> l1 ++ GSource s :: l2 ++ GSource s' :: l3) /\
  (sourced = false -> forall s, ~ In (GSource s) gs).

Definition one_setting {A} (a : action) (gs : list given) (default bare : A) (read : string -> A -> Prop) (x : A) : Prop :=
  exists given, last_given a gs given /\
    match given with None => x = default | Some [] => x = bare | Some (v :: _) => read v x end.
Definition list_setting (a : action) (gs : list given) (default x : list string) : Prop :=
  exists given, last_given a gs given /\ x = match given with None => default | Some vs => vs end.
(** The settings: defaults, unless there is an option. *)
Record settings (gs : list given) (n : namespace) : Prop := {
  set_timeout : one_setting ATimeout gs LNone LInfinity (fun v x => to_float v = Ok x) (n_timeout n);
  set_limit : one_setting ALimit gs LNone LInfinity (fun v x => exists z, int_of_text v = Ok z /\ x = LNum z) (n_limit n);
  set_show : n_show n = true <-> gives AShow gs;
  set_input : one_setting AInput gs None None (fun v x => exists text, files v = Some text /\ x = Some text) (n_input n);
  set_image : one_setting AImage gs None None (fun v x => exists text, files v = Some text /\ x = Some text) (n_image n);
  set_labels : list_setting ALabels gs ["red"; "blue"; "green"] (n_labels n);
  set_colors : list_setting AColors gs ["red"; "blue"; "green"; "yellow"] (n_colors n);
  set_board : one_setting ABoard gs 8 8 (fun v x => int_of_text v = Ok x) (n_board n);
  set_zeros : one_setting AZeros gs true true (fun v x => type_on_off v = Ok x) (n_zeros n);
  set_src : (forall s, n_source n = Some s <-> In (GSource s) gs)
}.
End Settings.

(** ** Programs *)
(** The program of a command. *)
Definition program clk shuffle fuel gfuel order morder seconds colored (c : command) (n : namespace) : option (res (list string)) :=
  let timeout := n_timeout n in let limit := n_limit n in let show := n_show n in
  match c with
  | CKnapsack => knapsack_main clk shuffle fuel seconds (n_input n) timeout limit show
  | CSudoku => sudoku_main clk shuffle fuel seconds (n_input n) timeout limit show
  | CGraph => graph_main clk shuffle fuel seconds (n_input n) (n_labels n) timeout limit show
  | CMap => ascii_main clk shuffle fuel gfuel morder seconds colored (n_input n) (n_colors n) timeout limit show
  | CNonogram => nonogram_main clk shuffle fuel seconds (n_input n) (n_image n) timeout limit show
  | CQueens => queens_main clk shuffle fuel seconds (Z.to_nat (n_board n)) timeout limit show
  | CEinstein => einstein_main clk shuffle fuel seconds timeout limit show
  | CCryptarithm => cryptarithm_main clk shuffle fuel seconds order (n_source n) (n_zeros n) timeout limit show
  end.

(** The commands, and the options of each. *)
Definition command_name (c : command) : string :=
  match c with
  | CKnapsack => "knapsack" | CSudoku => "sudoku" | CGraph => "graph_labeling" | CMap => "ascii_map_coloring"
  | CNonogram => "nonogram" | CQueens => "queens" | CEinstein => "einstein" | CCryptarithm => "cryptarithm" end.
Inductive has_option (c : command) : ascii -> string -> nargs -> action -> Prop :=
| opt_help : has_option c "h" "help" Zero AHelp
| opt_timeout : has_option c "t" "timeout" Optional ATimeout
| opt_limit : has_option c "l" "limit" Optional ALimit
| opt_show : has_option c "s" "show-model" Zero AShow
| opt_input : In c [CKnapsack; CSudoku; CGraph; CMap; CNonogram] -> has_option c "i" "input-file" One AInput
| opt_image : c = CNonogram -> has_option c "I" "input-image" One AImage
| opt_labels : c = CGraph -> has_option c "L" "labels" Plus ALabels
| opt_colors : c = CMap -> has_option c "C" "colors" Plus AColors
| opt_board : c = CQueens -> has_option c "b" "board-size" One ABoard
| opt_zeros : c = CCryptarithm -> has_option c "z" "avoid-leading-zeros" Optional AZeros.
