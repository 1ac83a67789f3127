(** Model of src/satisfy/cryptarithm.py.
    Simplifications: source texts are ASCII; [eval] is the lexer and the parser of PyText.v
    followed by the overloaded operators; what these do not accept is an exception (its class
    may differ).  The order in which a Python set of strings is iterated changes from one
    process to the next: it is a parameter ([order]) of the model. *)
From Verif Require Export Puzzle PyText.
From Verif Require Import Queens.
Open Scope string_scope.
Open Scope Z_scope.

(** [source.upper()], cryptarithm.py:20. *)
Definition upper_char (c : ascii) : ascii :=
  if (97 <=? code_of c) && (code_of c <=? 122) then ascii_of_N (N_of_ascii c - 32) else c.

(** The class [[A-Z0-9]] of the pattern (22). *)
Definition word_char (c : ascii) : bool := isdigit c || ((65 <=? code_of c) && (code_of c <=? 90)).

(** [word.finditer(source)] (32): begin and end of the matches, which are leftmost and as long
    as possible.  [start]: where the current match began. *)
Fixpoint spans (pos : nat) (start : option nat) (s : list ascii) : list (nat * nat) :=
  match s with
  | [] => match start with Some b => [(b, pos)] | None => [] end
  | c :: s' =>
      if word_char c then spans (S pos) (Some (match start with Some b => b | None => pos end)) s'
      else match start with
           | Some b => (b, pos) :: spans (S pos) None s'
           | None => spans (S pos) None s'
           end
  end.

(** [m.group()] *)
Definition group (s : list ascii) (sp : nat * nat) : list ascii := firstn (snd sp - fst sp) (skipn (fst sp) s).

(** [itertools.groupby(number, lambda x: x.isdigit())] (38-39). *)
Fixpoint groupby (l : list ascii) : list (bool * list ascii) :=
  match l with
  | [] => []
  | c :: l' =>
      match groupby l' with
      | (b, g) :: gs => if Bool.eqb (isdigit c) b then (b, c :: g) :: gs else (isdigit c, [c]) :: (b, g) :: gs
      | [] => [(isdigit c, [c])]
      end
  end.

(** [int(part)] of a string of digits. *)
Definition int_of (part : list ascii) : Z := fold_left (fun n c => n * 10 + (code_of c - 48)) part 0.

(** [ldict[letter].append(v)] for a defaultdict(list). *)
Definition lappend (d : dict (list Z)) (x : name) (v : Z) : dict (list Z) :=
  dset d x (match dget d x with Some l => (l ++ [v])%list | None => [v] end).

Definition letter (c : ascii) : name := String c "".

(** The loop over the letters of a part (47-49); [p]: [p10 * (10 ** c)]. *)
Fixpoint letters_loop (p : Z) (part : list ascii) (d : dict (list Z)) : dict (list Z) :=
  match part with
  | [] => d
  | c :: part' => letters_loop (p * 10) part' (lappend d (letter c) p)
  end.

(** The loop over the reversed parts (43-51): [num_part], [ldict]. *)
Fixpoint parts_loop (p10 num_part : Z) (ldict : dict (list Z)) (parts : list (bool * list ascii)) : Z * dict (list Z) :=
  match parts with
  | [] => (num_part, ldict)
  | (numeric, part) :: parts' =>
      let p10' := p10 * 10 ^ Z.of_nat (length part) in
      if numeric then parts_loop p10' (num_part + int_of part * p10) ldict parts'
      else parts_loop p10' num_part (letters_loop p10 (rev part) ldict) parts'
  end.

(** The replacement of a word (37-59). *)
Definition word_expr (number : list ascii) : string :=
  let '(num_part, ldict) := parts_loop 1 0 [] (rev (groupby number)) in
  let expr_list :=
    str_int num_part ::
    map (fun p => let factor := fold_left Z.add (snd p) 0 in
                  if factor =? 1 then fst p else "(" ++ fst p ++ " * " ++ str_int factor ++ ")") ldict in
  "(" ++ sjoin " + " expr_list ++ ")".

(** The loop over the matches (32-62), as far as [mod_source] and [offset] are concerned. *)
Fixpoint splice (source : list ascii) (offset : Z) (mod_source : list ascii) (sps : list (nat * nat)) : list ascii :=
  match sps with
  | [] => mod_source
  | sp :: sps' =>
      let expr := list_ascii_of_string (word_expr (group source sp)) in
      let mod' := (firstn (Z.to_nat (offset + Z.of_nat (fst sp))) mod_source ++ expr
                   ++ skipn (Z.to_nat (offset + Z.of_nat (snd sp))) mod_source)%list in
      splice source (offset + (Z.of_nat (length expr) - Z.of_nat (snd sp - fst sp))) mod' sps'
  end.

Definition upper (s : string) : list ascii := map upper_char (list_ascii_of_string s).
Definition cry_words (s : string) : list (list ascii) := map (group (upper s)) (spans 0 None (upper s)).
Definition mod_source (s : string) : string :=
  string_of_list_ascii (splice (upper s) 0 (upper s) (spans 0 None (upper s))).

(** [letters] (50) and [non_zero_letters] (34-35): what the loop over the matches adds. *)
Definition cry_letters (s : string) : list name :=
  map letter (filter (fun c => negb (isdigit c)) (concat (cry_words s))).
Definition cry_nonzero (s : string) : list name :=
  flat_map (fun w => match w with c :: _ => if isdigit c then [] else [letter c] | [] => [] end) (cry_words s).

(** ** [eval(mod_source, variables.copy())] (81) *)
Definition bin_uop (o : pybin) : option uop :=
  match o with
  | PAdd => Some UAdd | PSub => Some USub | PMul => Some UMul | PTrueDiv => Some UDiv | PFloorDiv => Some UFloorDiv
  | PMod => Some UMod | PPow => Some UPow | PBitAnd => Some UAnd | PBitOr => Some UOr | PBitXor => None
  end.
Definition cmp_uop (c : pycmp) : uop :=
  match c with PEq => UEq | PNe => UNe | PLt => ULt | PLe => ULe | PGt => UGt | PGe => UGe end.

(** [a < b < c] is [a < b and b < c]; an Expression object is true. *)
Definition chain (fs : list (uop * formula)) : formula -> res formula :=
  (fix go (l : list (uop * formula)) (a : formula) : res formula :=
     match l with
     | [] => Ok a
     | [(u, b)] => Ok (FBin u a b)
     | (u, b) :: l' =>
         match build (FBin u a b) with
         | Err ex => Err ex
         | Ok (OInt n) => if truthy n then go l' b else Ok (FBin u a b)
         | Ok (OExpr _) => go l' b
         end
     end) fs.

(** The object computed by a syntax tree, as a formula.  [~], [^] on Expression objects and
    calls of them are TypeErrors.  (After [upper()] there are no keywords and no functions.) *)
Fixpoint ast_formula (xs : list name) (a : ast) : res formula :=
  match a with
  | ANum n => Ok (FInt n)
  | AName x => if memb x xs then Ok (FVar x) else Err NameError
  | ANeg b => let! f := ast_formula xs b in Ok (FNeg f)
  | APos b => ast_formula xs b
  | ABin o b c =>
      let! f := ast_formula xs b in
      let! g := ast_formula xs c in
      match bin_uop o with Some u => Ok (FBin u f g) | None => Err TypeError end
  | ACmp b l =>
      let! f := ast_formula xs b in
      let! fs := (fix go (l : list (pycmp * ast)) : res (list (uop * formula)) :=
                    match l with
                    | [] => Ok []
                    | (c, d) :: l' => let! g := ast_formula xs d in let! gs := go l' in Ok ((cmp_uop c, g) :: gs)
                    end) l in
      chain fs f
  | _ => Err TypeError
  end.

Definition eval_source (xs : list name) (text : string) : res formula :=
  let! ts := lex text in
  let! a := parse_expr ts in
  let! f := ast_formula xs a in
  let! _ := build f in Ok f.

(** The loop over [numbers] (27-30) for a given option: [non_zero_letters] and [letters]. *)
Definition avoid_loop (avoid_leading_zeros : bool) (numbers : list (list ascii)) : list name * list name :=
  if avoid_leading_zeros then (flat_map (fun w => match w with c :: _ => [letter c] | [] => [] end) numbers, map letter (concat numbers))
  else ([], []).

(** ** CryptarithmSolver.__init__, cryptarithm.py:15-85.  When the loop (27-30) is run, the set
    [numbers] is still empty (21). *)
Definition digits_domain : list Z := zrange 0 10.
Definition cry_init (order : list name -> list name) (source : string) (avoid_leading_zeros : bool) : op (list name) :=
  let '(non_zero0, letters0) := avoid_loop avoid_leading_zeros [] in
  let letters := order (dedup (letters0 ++ cry_letters source)%list) in
  let non_zero_letters := (non_zero0 ++ cry_nonzero source)%list in
  do! _ := op_for (fun x => int_variable (if memb x non_zero_letters then tl digits_domain else digits_domain) x) letters in
  do! f := (fun w => (w, eval_source letters (mod_source source))) in
  do! _ := add_all_different_constraint letters in
  do! _ := add_formula f in
  op_ret letters.

(** [[[(x, solution[x]) for x in sorted(letters)] for solution in CryptarithmSolver(source, ...)]] *)
Definition alphabet : list name := map letter (list_ascii_of_string "ABCDEFGHIJKLMNOPQRSTUVWXYZ").
Definition cry_decode (letters : list name) (s : subst) : res subst :=
  mapM (fun x => let! v := get_item s x in Ok (x, v)) (filter (fun x => memb x letters) alphabet).
Definition cry_run (clk : nat -> Z) (shuffle : list name -> list name) (fuel : nat)
           (order : list name -> list name) (source : string) (avoid : bool) (o : options) :=
  puzzle_run clk shuffle fuel (cry_init order source avoid) cry_decode (options_solver MIN_BOUND o).
