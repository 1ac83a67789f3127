(** Printing of expressions ([__str__], [py_expr], [py_source]) and Python's [eval]
    of the generated lambda: lexer, parser and evaluator for the sub-language of
    Python expressions that the library generates.
    Model of src/satisfy/expression.py:54-76 and of the printing methods. *)
From Verif Require Export Dec Expr.

Open Scope string_scope.
Open Scope Z_scope.

(** [", ".join(l)] *)
Fixpoint sjoin (sep : string) (l : list string) : string :=
  match l with
  | [] => ""
  | [x] => x
  | x :: l' => x ++ sep ++ sjoin sep l'
  end.

(** [__symbol__], expression.py:484-594. *)
Definition bin_symbol (o : binop) : string :=
  match o with
  | OAdd => "+" | OMul => "*" | OSub => "-" | ODiv => "/" | OMod => "%" | OPow => "**"
  | OEq => "==" | ONe => "!=" | OLt => "<" | OLe => "<=" | OGt => ">" | OGe => ">="
  | OAnd => "&" | OOr => "|"
  end.
(** [__py_symbol__]. *)
Definition bin_py_symbol (o : binop) : string :=
  match o with
  | OAdd => "+" | OMul => "*" | OSub => "-" | ODiv => "//" | OMod => "%" | OPow => "**"
  | OEq => "==" | ONe => "!=" | OLt => "<" | OLe => "<=" | OGt => ">" | OGe => ">="
  | OAnd => "and" | OOr => "or"
  end.

Definition acc_fun (k : acckind) : string := match k with KSum => "sum" | KProd => "prod" end.
Definition acc_sym (k : acckind) : string := match k with KSum => "+" | KProd => "*" end.

(** [Accumulation._as_str], expression.py:676-688. *)
Definition acc_values (k : acckind) (c : Z) (texts : list string) : list string :=
  if c =? neutral k then texts else str_int c :: texts.
Definition as_str (k : acckind) (c : Z) (texts : list string) : string :=
  match acc_values k c texts with
  | [] => str_int (neutral k)
  | [a] => a
  | [a; b] => a ++ " " ++ acc_sym k ++ " " ++ b
  | l => acc_fun k ++ "([" ++ sjoin ", " l ++ "])"
  end.

(** [__str__]: expression.py:221 (Const), 758 (Variable, and Parameter: the name),
    437 (Neg), 448 (Abs), 477 (BinOp), 614 (Not), 703/725 (Sum/Prod). *)
Fixpoint str_expr (e : expr) : string :=
  match e with
  | Const z => str_int z
  | Var x => x
  | Param _ x => x
  | Neg e1 => "-(" ++ str_expr e1 ++ ")"
  | Abs e1 => "abs(" ++ str_expr e1 ++ ")"
  | Not e1 => "^" ++ str_expr e1
  | Bin o l r => "(" ++ str_expr l ++ " " ++ bin_symbol o ++ " " ++ str_expr r ++ ")"
  | Sum es c => as_str KSum c (map str_expr es)
  | Prod es c => as_str KProd c (map str_expr es)
  end.

(** [py_expr()]: expression.py:224 (Const), 766 (Variable), 791 (Parameter: its
    current value), 440/451 (Neg/Abs use [str(self)]), 480 (BinOp), 603 (Or: no
    parentheses), 617 (Not), 706/728 (Sum/Prod). *)
Fixpoint py_expr (ps : pstore) (e : expr) : string :=
  match e with
  | Const z => str_int z
  | Var x => x
  | Param p _ => str_int (ps p)
  | Neg e1 => "-(" ++ str_expr e1 ++ ")"
  | Abs e1 => "abs(" ++ str_expr e1 ++ ")"
  | Not e1 => "not " ++ py_expr ps e1
  | Bin OOr l r => py_expr ps l ++ " or " ++ py_expr ps r
  | Bin o l r =>
      "(" ++ py_expr ps l ++ " " ++ bin_py_symbol o ++ " " ++ py_expr ps r ++ ")"
  | Sum es c => as_str KSum c (map (py_expr ps) es)
  | Prod es c => as_str KProd c (map (py_expr ps) es)
  end.

(** [py_source()], expression.py:54-57. *)
Definition py_source (ps : pstore) (e : expr) : string :=
  "lambda " ++ sjoin ", " ((vars e ++ ["**__dummy_kwargs"])%list)
  ++ ": (" ++ py_expr ps e ++ ")".

(** ** Python tokens *)

Inductive tok : Type :=
| TNum (n : Z) | TId (x : string) | TKw (x : string)
| TAnd | TOr | TNot | TLambda
| TLP | TRP | TLB | TRB | TComma | TColon
| TPlus | TMinus | TStar | TDStar | TSlash | TDSlash | TPercent
| TAmp | TBar | TCaret | TTilde
| TEqEq | TNe | TLt | TLe | TGt | TGe.

(** Python 3 keywords that are not operators of the generated language. *)
Definition keywords : list string :=
  ["False"; "None"; "True"; "as"; "assert"; "async"; "await"; "break"; "class";
   "continue"; "def"; "del"; "elif"; "else"; "except"; "finally"; "for"; "from";
   "global"; "if"; "import"; "in"; "is"; "nonlocal"; "pass"; "raise"; "return";
   "try"; "while"; "with"; "yield"].

Definition name_tok (x : string) : tok :=
  if String.eqb x "and" then TAnd
  else if String.eqb x "or" then TOr
  else if String.eqb x "not" then TNot
  else if String.eqb x "lambda" then TLambda
  else if memb x keywords then TKw x
  else TId x.

Definition code_of (c : ascii) : Z := Z.of_N (N_of_ascii c).
Definition isdigit (c : ascii) : bool := (48 <=? code_of c) && (code_of c <=? 57).
Definition isalpha (c : ascii) : bool :=
  ((65 <=? code_of c) && (code_of c <=? 90)) || ((97 <=? code_of c) && (code_of c <=? 122)).
Definition isname_start (c : ascii) : bool := isalpha c || (code_of c =? 95).
Definition isname_char (c : ascii) : bool := isname_start c || isdigit c.

(** Lexer states: between tokens; inside a decimal number ([z]: it started with 0);
    inside a name; after the first character of a possibly two-character operator. *)
Inductive lst : Type :=
| LStart | LNum (z : bool) (n : Z) | LName (x : string) | LOp (c : ascii).

(** Token for a pending state. *)
Definition flush (st : lst) : res (list tok) :=
  match st with
  | LStart => Ok []
  | LNum z n => if z && negb (n =? 0) then Err SyntaxError else Ok [TNum n]
  | LName x => Ok [name_tok x]
  | LOp c =>
      if Ascii.eqb c "*" then Ok [TStar]
      else if Ascii.eqb c "/" then Ok [TSlash]
      else if Ascii.eqb c "<" then Ok [TLt]
      else if Ascii.eqb c ">" then Ok [TGt]
      else Err SyntaxError                      (* "=" or "!" alone *)
  end.

(** A character between tokens.  Characters outside the generated language (quotes,
    dots, newlines, non-ASCII, ...) are treated as a syntax error. *)
Definition lex_start (c : ascii) : res (list tok * lst) :=
  if isdigit c then Ok ([], LNum (code_of c =? 48) (code_of c - 48))
  else if isname_start c then Ok ([], LName (String c ""))
  else if Ascii.eqb c " " then Ok ([], LStart)
  else if Ascii.eqb c "(" then Ok ([TLP], LStart)
  else if Ascii.eqb c ")" then Ok ([TRP], LStart)
  else if Ascii.eqb c "[" then Ok ([TLB], LStart)
  else if Ascii.eqb c "]" then Ok ([TRB], LStart)
  else if Ascii.eqb c "," then Ok ([TComma], LStart)
  else if Ascii.eqb c ":" then Ok ([TColon], LStart)
  else if Ascii.eqb c "+" then Ok ([TPlus], LStart)
  else if Ascii.eqb c "-" then Ok ([TMinus], LStart)
  else if Ascii.eqb c "%" then Ok ([TPercent], LStart)
  else if Ascii.eqb c "&" then Ok ([TAmp], LStart)
  else if Ascii.eqb c "|" then Ok ([TBar], LStart)
  else if Ascii.eqb c "^" then Ok ([TCaret], LStart)
  else if Ascii.eqb c "~" then Ok ([TTilde], LStart)
  else if Ascii.eqb c "*" || Ascii.eqb c "/" || Ascii.eqb c "=" || Ascii.eqb c "!"
          || Ascii.eqb c "<" || Ascii.eqb c ">" then Ok ([], LOp c)
  else Err SyntaxError.

Definition two_char (c d : ascii) : option tok :=
  if Ascii.eqb c "*" && Ascii.eqb d "*" then Some TDStar
  else if Ascii.eqb c "/" && Ascii.eqb d "/" then Some TDSlash
  else if Ascii.eqb c "=" && Ascii.eqb d "=" then Some TEqEq
  else if Ascii.eqb c "!" && Ascii.eqb d "=" then Some TNe
  else if Ascii.eqb c "<" && Ascii.eqb d "=" then Some TLe
  else if Ascii.eqb c ">" && Ascii.eqb d "=" then Some TGe
  else None.

Definition lex_flush_start (st : lst) (c : ascii) : res (list tok * lst) :=
  let! ts := flush st in
  let! r := lex_start c in
  Ok ((ts ++ fst r)%list, snd r).

(** A number directly followed by a letter is rejected (as Python does, except for
    forms like [0x1f] or [1if], which cannot be generated). *)
Definition lex_step (st : lst) (c : ascii) : res (list tok * lst) :=
  match st with
  | LStart => lex_start c
  | LNum z n =>
      if isdigit c then Ok ([], LNum z (n * 10 + (code_of c - 48)))
      else if isname_start c then Err SyntaxError
      else lex_flush_start st c
  | LName x =>
      if isname_char c then Ok ([], LName (x ++ String c "")) else lex_flush_start st c
  | LOp d =>
      match two_char d c with
      | Some t => Ok ([t], LStart)
      | None => lex_flush_start st c
      end
  end.

Fixpoint lex_run (st : lst) (s : string) : res (list tok * lst) :=
  match s with
  | "" => Ok ([], st)
  | String c s' =>
      let! r := lex_step st c in
      let! r' := lex_run (snd r) s' in
      Ok ((fst r ++ fst r')%list, snd r')
  end.

Definition lex (s : string) : res (list tok) :=
  let! r := lex_run LStart s in
  let! ts := flush (snd r) in
  Ok ((fst r ++ ts)%list).

(** ** Python expression syntax trees *)

Inductive pybin : Type :=
| PAdd | PSub | PMul | PTrueDiv | PFloorDiv | PMod | PPow | PBitAnd | PBitOr | PBitXor.
Inductive pycmp : Type := PEq | PNe | PLt | PLe | PGt | PGe.

Inductive ast : Type :=
| ANum (n : Z)
| AName (x : string)
| ANeg (a : ast)
| APos (a : ast)
| AInv (a : ast)
| ANot (a : ast)
| AAnd (a b : ast)
| AOr (a b : ast)
| ABin (o : pybin) (a b : ast)
| ACmp (a : ast) (l : list (pycmp * ast))     (* comparison chain *)
| ACall (f : string) (a : ast)                 (* f(a) *)
| ACallL (f : string) (l : list ast).          (* f([a, b, ...]) *)

(** ** Parser: recursive descent over the levels of Python's grammar.
    0 or, 1 and, 2 not, 3 comparison, 4 |, 5 ^, 6 &, 7 + -, 8 * / // %, 9 unary,
    10 power, 11 atom/call.  (Shifts, conditional expressions, attribute access,
    subscripts, ... are outside the generated language: syntax error here.) *)

(** Left-associative binary operators at a level. *)
Definition binop_at (lvl : nat) (t : tok) : option (ast -> ast -> ast) :=
  match lvl, t with
  | 0%nat, TOr => Some AOr
  | 1%nat, TAnd => Some AAnd
  | 4%nat, TBar => Some (ABin PBitOr)
  | 5%nat, TCaret => Some (ABin PBitXor)
  | 6%nat, TAmp => Some (ABin PBitAnd)
  | 7%nat, TPlus => Some (ABin PAdd)
  | 7%nat, TMinus => Some (ABin PSub)
  | 8%nat, TStar => Some (ABin PMul)
  | 8%nat, TSlash => Some (ABin PTrueDiv)
  | 8%nat, TDSlash => Some (ABin PFloorDiv)
  | 8%nat, TPercent => Some (ABin PMod)
  | _, _ => None
  end.
Definition cmp_tok (t : tok) : option pycmp :=
  match t with
  | TEqEq => Some PEq | TNe => Some PNe | TLt => Some PLt | TLe => Some PLe
  | TGt => Some PGt | TGe => Some PGe | _ => None
  end.
Definition unary_tok (t : tok) : option (ast -> ast) :=
  match t with
  | TPlus => Some APos | TMinus => Some ANeg | TTilde => Some AInv | _ => None
  end.

Definition pres (A : Type) := option (A * list tok).

Fixpoint parse (fuel : nat) (lvl : nat) (ts : list tok) {struct fuel} : pres ast :=
  match fuel with
  | O => None
  | S f =>
      match lvl with
      | 2%nat =>
          match ts with
          | TNot :: ts' =>
              match parse f 2 ts' with Some (a, r) => Some (ANot a, r) | None => None end
          | _ => parse f 3 ts
          end
      | 3%nat =>
          match parse f 4 ts with
          | Some (a, r) =>
              match parse_cmps f r with
              | Some ([], r') => Some (a, r')
              | Some (l, r') => Some (ACmp a l, r')
              | None => None
              end
          | None => None
          end
      | 9%nat =>
          match ts with
          | t :: ts' =>
              match unary_tok t with
              | Some mk => match parse f 9 ts' with Some (a, r) => Some (mk a, r) | None => None end
              | None => parse f 10 ts
              end
          | [] => None
          end
      | 10%nat =>
          match parse f 11 ts with
          | Some (a, TDStar :: r) =>
              match parse f 9 r with Some (b, r') => Some (ABin PPow a b, r') | None => None end
          | x => x
          end
      | 11%nat =>
          match ts with
          | TNum n :: r => Some (ANum n, r)
          | TId x :: TLP :: TLB :: r =>
              match parse_list f r with
              | Some (l, TRB :: TRP :: r') => Some (ACallL x l, r')
              | _ => None
              end
          | TId x :: TLP :: r =>
              match parse f 0 r with
              | Some (a, TRP :: r') => Some (ACall x a, r')
              | _ => None
              end
          | TId x :: r => Some (AName x, r)
          | TLP :: r =>
              match parse f 0 r with
              | Some (a, TRP :: r') => Some (a, r')
              | _ => None
              end
          | _ => None
          end
      | _ =>
          match parse f (S lvl) ts with
          | Some (a, r) => parse_loop f lvl a r
          | None => None
          end
      end
  end
with parse_loop (fuel : nat) (lvl : nat) (acc : ast) (ts : list tok) {struct fuel} : pres ast :=
  match fuel with
  | O => None
  | S f =>
      match ts with
      | t :: ts' =>
          match binop_at lvl t with
          | Some mk =>
              match parse f (S lvl) ts' with
              | Some (b, r) => parse_loop f lvl (mk acc b) r
              | None => None
              end
          | None => Some (acc, ts)
          end
      | [] => Some (acc, ts)
      end
  end
with parse_cmps (fuel : nat) (ts : list tok) {struct fuel} : pres (list (pycmp * ast)) :=
  match fuel with
  | O => None
  | S f =>
      match ts with
      | t :: ts' =>
          match cmp_tok t with
          | Some c =>
              match parse f 4 ts' with
              | Some (b, r) =>
                  match parse_cmps f r with
                  | Some (l, r') => Some ((c, b) :: l, r')
                  | None => None
                  end
              | None => None
              end
          | None => Some ([], ts)
          end
      | [] => Some ([], ts)
      end
  end
with parse_list (fuel : nat) (ts : list tok) {struct fuel} : pres (list ast) :=
  (* one or more expressions separated by commas *)
  match fuel with
  | O => None
  | S f =>
      match parse f 0 ts with
      | Some (a, TComma :: r) =>
          match parse_list f r with
          | Some (l, r') => Some (a :: l, r')
          | None => None
          end
      | Some (a, r) => Some ([a], r)
      | None => None
      end
  end.

Definition parse_fuel (ts : list tok) : nat := (20 * length ts + 21)%nat.

(** A whole expression. *)
Definition parse_expr (ts : list tok) : res ast :=
  match parse (parse_fuel ts) 0 ts with
  | Some (a, []) => Ok a
  | _ => Err SyntaxError
  end.

(** [lambda a, b, **kw: EXPR]; duplicate argument names are a syntax error. *)
Fixpoint parse_args (ts : list tok) (acc : list string) : res (list string * ast) :=
  match ts with
  | TDStar :: TId kw :: TColon :: ts' =>
      if memb kw acc then Err SyntaxError
      else let! a := parse_expr ts' in Ok (acc, a)
  | TId x :: TComma :: ts' =>
      if memb x acc then Err SyntaxError else parse_args ts' ((acc ++ [x])%list)
  | _ => Err SyntaxError
  end.
Definition parse_lambda (ts : list tok) : res (list string * ast) :=
  match ts with
  | TLambda :: ts' => parse_args ts' []
  | _ => Err SyntaxError
  end.

(** ** Evaluation *)

Definition py_bin (o : pybin) (a b : Z) : res Z :=
  match o with
  | PAdd => Ok (a + b)
  | PSub => Ok (a - b)
  | PMul => Ok (a * b)
  | PTrueDiv => if b =? 0 then Err ZeroDivisionError else Err FloatResult
  | PFloorDiv => py_floordiv a b
  | PMod => py_mod a b
  | PPow => py_pow a b
  | PBitAnd => Ok (Z.land a b)
  | PBitOr => Ok (Z.lor a b)
  | PBitXor => Ok (Z.lxor a b)
  end.
Definition py_cmp (o : pycmp) (a b : Z) : bool :=
  match o with
  | PEq => a =? b
  | PNe => negb (a =? b)
  | PLt => a <? b
  | PLe => a <=? b
  | PGt => b <? a
  | PGe => b <=? a
  end.

(** Functions callable by the generated code.  A local variable of that name hides
    the function and calling an int raises TypeError. *)
Definition call_fun (s : subst) (f : string) (vs : list Z) : res Z :=
  if dmem s f then Err TypeError
  else if String.eqb f "sum" then Ok (fold_left Z.add vs 0)
  else if String.eqb f "prod" then Ok (fold_left Z.mul vs 1)
  else Err NameError.
Definition call_fun1 (s : subst) (f : string) (v : Z) : res Z :=
  if dmem s f then Err TypeError
  else if String.eqb f "abs" then Ok (Z.abs v)
  else Err NameError.

(** [s]: the local variables.  Simplification: the global [sum]/[prod] and the
    builtins are only modelled as callees. *)
Fixpoint aeval (s : subst) (a : ast) {struct a} : res Z :=
  match a with
  | ANum n => Ok n
  | AName x => match dget s x with Some v => Ok v | None => Err NameError end
  | ANeg b => let! v := aeval s b in Ok (- v)
  | APos b => aeval s b
  | AInv b => let! v := aeval s b in Ok (- v - 1)
  | ANot b => let! v := aeval s b in Ok (b2z (negb (truthy v)))
  | AAnd b c => let! v := aeval s b in if truthy v then aeval s c else Ok v
  | AOr b c => let! v := aeval s b in if truthy v then Ok v else aeval s c
  | ABin o b c => let! v := aeval s b in let! w := aeval s c in py_bin o v w
  | ACmp b l =>
      let! v := aeval s b in
      (fix go (v : Z) (l : list (pycmp * ast)) : res Z :=
         match l with
         | [] => Ok 1
         | (o, c) :: l' =>
             let! w := aeval s c in
             if py_cmp o v w then go w l' else Ok 0
         end) v l
  | ACall f b => let! v := aeval s b in call_fun1 s f v
  | ACallL f l =>
      let! vs := (fix go (l : list ast) : res (list Z) :=
                    match l with
                    | [] => Ok []
                    | b :: l' => let! v := aeval s b in let! vs := go l' in Ok (v :: vs)
                    end) l in
      call_fun s f vs
  end.

(** ** [as_function] *)

(** What [ExpressionConstraint._evaluate_function] can hold: a compiled lambda, or
    the bound method [self.evaluate] when compilation failed (expression.py:68-73). *)
Inductive code : Type :=
| Compiled (args : list string) (body : ast)
| Fallback.

Definition compile (ps : pstore) (e : expr) : res (list string * ast) :=
  let! ts := lex (py_source ps e) in parse_lambda ts.

Definition as_function (ps : pstore) (e : expr) : code :=
  match compile ps e with
  | Ok (args, body) => Compiled args body
  | Err _ => Fallback
  end.

(** Calling it as [fn( **substitution )] (constraint.py:80): the lambda needs all its
    arguments and collects the others in [__dummy_kwargs]; [evaluate] does not accept
    those keyword arguments. *)
Definition call_code (c : code) (s : subst) : res Z :=
  match c with
  | Compiled args body =>
      if forallb (fun x => dmem s x) args
      then aeval (filter (fun b => memb (fst b) args) s) body
      else Err TypeError
  | Fallback => Err TypeError
  end.
