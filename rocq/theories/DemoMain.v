(** Model of [main], src/satisfy/tool/__init__.py:55-284, with the parts of argparse (CPython 3.8 to
    3.11, Lib/argparse.py) that it uses.  Simplifications: the texts of help and error messages are
    not modelled (help ends the program with status 0, a usage error with status 2); a command line
    with the word [--] is not modelled; the contents of the files are a parameter [files] ([None]: the file
    cannot be opened), and so is the conversion [to_float] of texts to
    timeouts ([float]; an infinite timeout is [LInfinity]); the word [-s=] ends with a usage error (as from
    CPython 3.11.1 on; older ones raise IndexError); a negative
    board size is like 0 (all ranges in queens.py are empty then). *)
From Verif Require Export DemoInput DemoArgs.
Open Scope string_scope.
Open Scope Z_scope.

(** ** Options *)
Inductive nargs : Type := One | Optional | Plus | Zero.
Inductive action : Type :=
| AHelp | ATimeout | ALimit | AShow | AInput | AImage | ALabels | AColors | ABoard | AZeros.
(** [add_argument("-x", "--long", nargs=..., ...)]. *)
Record optdef : Type := Opt { o_short : ascii; o_long : string; o_nargs : nargs; o_action : action }.
Definition short_word (o : optdef) : string := String "-" (String (o_short o) "").
Definition long_word (o : optdef) : string := "--" ++ o_long o.
(** [_option_string_actions]: the words of the options, in the order of their definition. *)
Definition option_words (t : list optdef) : list (string * optdef) :=
  flat_map (fun o => [(short_word o, o); (long_word o, o)]) t.
Definition find_word (t : list optdef) (w : string) : option optdef := dget (option_words t) w.

(** tool/__init__.py:143-181 (knapsack, sudoku, graph_labeling, ascii_map_coloring, nonogram),
    196-201 (queens), 225-230 (cryptarithm), 240-263 (all). *)
Definition o_help := Opt "h" "help" Zero AHelp.
Definition o_input := Opt "i" "input-file" One AInput.
Definition o_image := Opt "I" "input-image" One AImage.
Definition o_labels := Opt "L" "labels" Plus ALabels.
Definition o_colors := Opt "C" "colors" Plus AColors.
Definition o_board := Opt "b" "board-size" One ABoard.
Definition o_zeros := Opt "z" "avoid-leading-zeros" Optional AZeros.
Definition solve_options : list optdef :=
  [Opt "t" "timeout" Optional ATimeout; Opt "l" "limit" Optional ALimit; Opt "s" "show-model" Zero AShow].

Inductive command : Type := CKnapsack | CSudoku | CGraph | CMap | CNonogram | CQueens | CEinstein | CCryptarithm.
Definition commands : list (string * command) :=
  [("knapsack", CKnapsack); ("sudoku", CSudoku); ("graph_labeling", CGraph); ("ascii_map_coloring", CMap);
   ("nonogram", CNonogram); ("queens", CQueens); ("einstein", CEinstein); ("cryptarithm", CCryptarithm)].
Definition options_of (c : command) : list optdef :=
  o_help :: match c with
  | CKnapsack | CSudoku => [o_input]
  | CGraph => [o_input; o_labels]
  | CMap => [o_input; o_colors]
  | CNonogram => [o_input; o_image]
  | CQueens => [o_board]
  | CEinstein => []
  | CCryptarithm => [o_zeros]
  end ++ solve_options.
(** [source] of the cryptarithm command is the only positional argument, 232-235. *)
Definition takes_source (c : command) : bool := match c with CCryptarithm => true | _ => false end.

(** ** Classification of the words, [_parse_optional] and [_get_option_tuples] *)
(** [s.split('=', 1)], if there is a ['=']. *)
Fixpoint split_eq (s : string) : option (string * string) :=
  match s with
  | "" => None
  | String c s' =>
      if Ascii.eqb c "=" then Some ("", s')
      else match split_eq s' with Some (a, b) => Some (String c a, b) | None => None end
  end.
Fixpoint has_char (c : ascii) (s : string) : bool :=
  match s with "" => false | String d s' => Ascii.eqb c d || has_char c s' end.
(** [_negative_number_matcher]: [^-\d+$|^-\d*\.\d+$] (a final newline is ignored). *)
Fixpoint all_digits (l : list ascii) : bool :=
  match l with [] => true | [c] => is_digit c || Ascii.eqb c newline | c :: l' => is_digit c && all_digits l' end.
Definition some_digits (l : list ascii) : bool := match l with c :: _ => is_digit c && all_digits l | [] => false end.
Fixpoint after_digits (l : list ascii) : list ascii := match l with c :: l' => if is_digit c then after_digits l' else l | [] => [] end.
Definition negative_number (s : string) : bool :=
  match list_ascii_of_string s with
  | "-"%char :: l =>
      some_digits l || match after_digits l with "."%char :: l' => some_digits l' | _ => false end
  | _ => false
  end.

(** A word: an argument, or an option (its definition if known, its word, the value given with it). *)
Inductive word : Type := WArg | WOpt (o : option optdef) (os : string) (explicit : option string).
Definition option_tuples (t : list optdef) (s : string) : list (optdef * string * option string) :=
  match s with
  | String _ (String "-" _) =>
      let '(prefix, explicit) := match split_eq s with Some (a, b) => (a, Some b) | None => (s, None) end in
      flat_map (fun p => if String.prefix prefix (fst p) then [(snd p, fst p, explicit)] else []) (option_words t)
  | String d (String c rest) =>
      flat_map (fun p =>
        if String.eqb (fst p) (String d (String c "")) then [(snd p, fst p, Some rest)]
        else if String.prefix s (fst p) then [(snd p, fst p, None)] else []) (option_words t)
  | _ => []
  end.
(** [None]: the option is ambiguous. *)
Definition classify (t : list optdef) (s : string) : option word :=
  match s with
  | "" => Some WArg
  | String c rest =>
      if negb (Ascii.eqb c "-") then Some WArg
      else match find_word t s with
      | Some o => Some (WOpt (Some o) s None)
      | None =>
          if String.eqb rest "" then Some WArg
          else
            let tuples :=
              match option_tuples t s with
              | _ :: _ :: _ => None
              | [(o, os, e)] => Some (WOpt (Some o) os e)
              | [] =>
                  if negative_number s then Some WArg
                  else if has_char " " s then Some WArg
                  else Some (WOpt None s None)
              end in
            match split_eq s with
            | Some (a, b) => match find_word t a with Some o => Some (WOpt (Some o) a (Some b)) | None => tuples end
            | None => tuples
            end
      end
  end.

(** ** The namespace, and the actions of the options, [take_action] *)
Record namespace : Type := Namespace {
  n_timeout : lim; n_limit : lim; n_show : bool; n_input : option string; n_image : option string;
  n_labels : list string; n_colors : list string; n_board : Z; n_zeros : bool; n_source : option string }.
(** The defaults. *)
Definition namespace0 : namespace :=
  Namespace LNone LNone false None None ["red"; "blue"; "green"] ["red"; "blue"; "green"; "yellow"] 8 true None.
Section Main.
Variables (files : string -> option string) (to_float : string -> res lim).

(** A usage error is [Usage]. *)
Inductive parsed (A : Type) : Type := Help | Usage | Parsed (a : A).
Arguments Help {A}. Arguments Usage {A}. Arguments Parsed {A} _.
Definition converted {A B} (r : res A) (k : A -> B) : parsed B := match r with Ok a => Parsed (k a) | Err _ => Usage end.
Definition take_action (o : optdef) (args : list string) (n : namespace) : parsed namespace :=
  match o_action o, args with
  | AHelp, _ => Help
  | AShow, _ => Parsed (Namespace (n_timeout n) (n_limit n) true (n_input n) (n_image n) (n_labels n) (n_colors n) (n_board n) (n_zeros n) (n_source n))
  | ATimeout, [] => Parsed (Namespace LInfinity (n_limit n) (n_show n) (n_input n) (n_image n) (n_labels n) (n_colors n) (n_board n) (n_zeros n) (n_source n))
  | ATimeout, v :: _ => converted (to_float v) (fun z =>
      Namespace z (n_limit n) (n_show n) (n_input n) (n_image n) (n_labels n) (n_colors n) (n_board n) (n_zeros n) (n_source n))
  | ALimit, [] => Parsed (Namespace (n_timeout n) LInfinity (n_show n) (n_input n) (n_image n) (n_labels n) (n_colors n) (n_board n) (n_zeros n) (n_source n))
  | ALimit, v :: _ => converted (int_of_text v) (fun z =>
      Namespace (n_timeout n) (LNum z) (n_show n) (n_input n) (n_image n) (n_labels n) (n_colors n) (n_board n) (n_zeros n) (n_source n))
  (* the options for files exclude each other, 151-164 *)
  | AInput, v :: _ =>
      match files v, n_image n with
      | Some text, None => Parsed (Namespace (n_timeout n) (n_limit n) (n_show n) (Some text) (n_image n) (n_labels n) (n_colors n) (n_board n) (n_zeros n) (n_source n))
      | _, _ => Usage
      end
  | AImage, v :: _ =>
      match files v, n_input n with
      | Some text, None => Parsed (Namespace (n_timeout n) (n_limit n) (n_show n) (n_input n) (Some text) (n_labels n) (n_colors n) (n_board n) (n_zeros n) (n_source n))
      | _, _ => Usage
      end
  | ALabels, ls => Parsed (Namespace (n_timeout n) (n_limit n) (n_show n) (n_input n) (n_image n) ls (n_colors n) (n_board n) (n_zeros n) (n_source n))
  | AColors, ls => Parsed (Namespace (n_timeout n) (n_limit n) (n_show n) (n_input n) (n_image n) (n_labels n) ls (n_board n) (n_zeros n) (n_source n))
  | ABoard, v :: _ => converted (int_of_text v) (fun z =>
      Namespace (n_timeout n) (n_limit n) (n_show n) (n_input n) (n_image n) (n_labels n) (n_colors n) z (n_zeros n) (n_source n))
  (* const='on' is converted too *)
  | AZeros, [] => Parsed (Namespace (n_timeout n) (n_limit n) (n_show n) (n_input n) (n_image n) (n_labels n) (n_colors n) (n_board n) true (n_source n))
  | AZeros, v :: _ => converted (type_on_off v) (fun b =>
      Namespace (n_timeout n) (n_limit n) (n_show n) (n_input n) (n_image n) (n_labels n) (n_colors n) (n_board n) b (n_source n))
  | _, [] => Usage
  end.
Definition set_source (v : string) (n : namespace) : namespace :=
  Namespace (n_timeout n) (n_limit n) (n_show n) (n_input n) (n_image n) (n_labels n) (n_colors n) (n_board n) (n_zeros n) (Some v).

(** ** [consume_optional] *)
(** A word with a value: flags may be followed by other options in the same word.  The actions
    found, and an option that still needs its arguments. *)
Fixpoint cluster (t : list optdef) (o : optdef) (os : string) (e : string) : option (list (optdef * list string) * option optdef) :=
  match o_nargs o with
  | Zero =>
      match os, e with
      | String _ (String "-" _), _ => None
      | _, "" => None
      | _, String c e' =>
          let os' := String "-" (String c "") in
          match find_word t os' with
          | None => None
          | Some o' =>
              match e' with
              | "" => Some ([(o, [])], Some o')
              | _ => match cluster t o' os' e' with Some (l, last) => Some (((o, []) :: l)%list, last) | None => None end
              end
          end
      end
  | _ => Some ([(o, [e])], None)
  end.
(** The arguments of an option, from the words after it: [_match_argument]. *)
Fixpoint span_args (l : list (string * word)) : list string * list (string * word) :=
  match l with
  | (s, WArg) :: l' => let (vs, rest) := span_args l' in ((s :: vs)%list, rest)
  | _ => ([], l)
  end.
Definition option_args (o : optdef) (l : list (string * word)) : option (list string * list (string * word)) :=
  match o_nargs o, l with
  | Zero, _ => Some ([], l)
  | One, (s, WArg) :: l' => Some ([s], l')
  | One, _ => None
  | Optional, (s, WArg) :: l' => Some ([s], l')
  | Optional, _ => Some ([], l)
  | Plus, _ => match span_args l with ([], _) => None | r => Some r end
  end.
Fixpoint take_actions (l : list (optdef * list string)) (n : namespace) : parsed namespace :=
  match l with
  | [] => Parsed n
  | (o, args) :: l' => match take_action o args n with Parsed n' => take_actions l' n' | r => r end
  end.
(** The actions of the option at the head of the words, and the rest of the words. *)
Definition consume_optional (t : list optdef) (o : optdef) (os : string) (explicit : option string) (l : list (string * word))
  : option (list (optdef * list string) * list (string * word)) :=
  match explicit with
  | None => match option_args o l with Some (vs, rest) => Some ([(o, vs)], rest) | None => None end
  | Some e =>
      match cluster t o os e with
      | None => None
      | Some (acts, None) => Some (acts, l)
      | Some (acts, Some o') => match option_args o' l with Some (vs, rest) => Some ((acts ++ [(o', vs)])%list, rest) | None => None end
      end
  end.

(** ** [_parse_known_args]; [source] tells whether the positional argument is still to come, and
    [extras] whether there were words that nothing took. *)
Fixpoint parse_words (fuel : nat) (t : list optdef) (source extras : bool) (n : namespace) (l : list (string * word)) : parsed (namespace * bool) :=
  match fuel with
  | O => Usage
  | S fuel' =>
      match l with
      | [] => Parsed (n, extras)
      | (s, WArg) :: l' => if source then parse_words fuel' t false extras (set_source s n) l' else parse_words fuel' t false true n l'
      | (_, WOpt None _ _) :: l' => parse_words fuel' t source true n l'
      | (_, WOpt (Some o) os explicit) :: l' =>
          match consume_optional t o os explicit l' with
          | None => Usage
          | Some (acts, rest) =>
              match take_actions acts n with
              | Parsed n' => parse_words fuel' t source extras n' rest
              | Help => Help
              | Usage => Usage
              end
          end
      end
  end.
Fixpoint classify_all (t : list optdef) (l : list string) : option (list (string * word)) :=
  match l with
  | [] => Some []
  | s :: l' => match classify t s, classify_all t l' with Some w, Some ws => Some ((s, w) :: ws)%list | _, _ => None end
  end.
Definition parse_known (t : list optdef) (source : bool) (argv : list string) : parsed (namespace * bool) :=
  match classify_all t argv with
  | None => Usage
  | Some ws => parse_words (S (length ws)) t source false namespace0 ws
  end.

(** The top-level parser has the option [-h] and the commands; the words after a command belong to
    it.  [None]: no command. *)
Fixpoint parse_top (fuel : nat) (extras : bool) (argv : list string) : parsed (option (command * namespace)) :=
  match fuel, argv with
  | O, _ => Usage
  | _, [] => if extras then Usage else Parsed None
  | S fuel', s :: rest =>
      match classify [o_help] s with
      | None => Usage
      | Some WArg =>
          match dget commands s with
          | None => Usage
          | Some c =>
              match parse_known (options_of c) (takes_source c) rest with
              | Help => Help
              | Usage => Usage
              | Parsed (n, extras') => if extras || extras' then Usage else Parsed (Some (c, n))
              end
          end
      | Some (WOpt None _ _) => parse_top fuel' true rest
      | Some (WOpt (Some o) os explicit) =>
          match consume_optional [o_help] o os explicit [] with None => Usage | Some _ => Help end
      end
  end.
Definition parse_args (argv : list string) : parsed (option (command * namespace)) := parse_top (S (length argv)) false argv.

(** ** [main] *)
Inductive outcome : Type := Exit (status : Z) | Ran (output : option (res (list string))).
(** [None] for a command line that is not modelled. *)
Definition main clk shuffle (fuel gfuel : nat) order morder seconds colored (argv : list string) : option outcome :=
  if existsb (String.eqb "--") argv then None
  else Some match parse_args argv with
  | Usage => Exit 2
  | Help | Parsed None => Exit 0
  | Parsed (Some (c, n)) => Ran
      match c with
      | CKnapsack => knapsack_main clk shuffle fuel seconds (n_input n) (n_timeout n) (n_limit n) (n_show n)
      | CSudoku => sudoku_main clk shuffle fuel seconds (n_input n) (n_timeout n) (n_limit n) (n_show n)
      | CGraph => graph_main clk shuffle fuel seconds (n_input n) (n_labels n) (n_timeout n) (n_limit n) (n_show n)
      | CMap => ascii_main clk shuffle fuel gfuel morder seconds colored (n_input n) (n_colors n) (n_timeout n) (n_limit n) (n_show n)
      | CNonogram => nonogram_main clk shuffle fuel seconds (n_input n) (n_image n) (n_timeout n) (n_limit n) (n_show n)
      | CQueens => queens_main clk shuffle fuel seconds (Z.to_nat (n_board n)) (n_timeout n) (n_limit n) (n_show n)
      | CEinstein => einstein_main clk shuffle fuel seconds (n_timeout n) (n_limit n) (n_show n)
      | CCryptarithm => cryptarithm_main clk shuffle fuel seconds order (n_source n) (n_zeros n) (n_timeout n) (n_limit n) (n_show n)
      end
  end.
End Main.
Arguments Help {A}. Arguments Usage {A}. Arguments Parsed {A} _.
