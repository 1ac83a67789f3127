(** Specification: how Python reads the text generated for an expression.

    The text is almost, but not quite, the expression: [a or b] and [not a] are printed
    without parentheses, numbers and negations start with a minus sign, and everything
    below [-( )] and [abs( )] is printed by [__str__] with other operator symbols.  The
    functions below say, without any reference to characters, tokens or the parser, which
    Python expression results. *)
From Verif Require Import Py Expr PyText SpecFormula SpecSafe.
Open Scope string_scope.
Open Scope list_scope.
Open Scope Z_scope.

(** The names are identifiers with no other meaning in the generated code; sums and
    products have at least three printed values, as all those built by the operators. *)
Fixpoint readable (e : expr) : bool :=
  match e with
  | Const _ => true
  | Var x | Param _ x => name_ok x
  | Neg e1 | Abs e1 | Not e1 => readable e1
  | Bin _ l r => readable l && readable r
  | Sum es c => three_values KSum es c && forallb readable es
  | Prod es c => three_values KProd es c && forallb readable es
  end.

(** The names of a formula. *)
Fixpoint f_readable (f : formula) : bool :=
  match f with
  | FInt _ => true
  | FVar x | FPar _ x => name_ok x
  | FNeg g | FAbs g => f_readable g
  | FBin _ g h => f_readable g && f_readable h
  | FSum gs => forallb f_readable gs
  end.

(** An operand of [or] or of an operator: [not not ... -a], where [a] is a number, a name,
    a call or something in parentheses; [None] when Python cannot read [a]. *)
Record piece : Type := Piece { nots : nat; minus : bool; atom : option ast }.

Definition signed (m : bool) (a : ast) : ast := if m then ANeg a else a.
Fixpoint noted (k : nat) (a : ast) : ast := match k with O => a | S k' => ANot (noted k' a) end.
Definition whole (p : piece) : option ast :=
  match atom p with Some a => Some (noted (nots p) (signed (minus p) a)) | None => None end.

(** Python's meaning of the symbols used by [py_expr] and by [__str__]. *)
Definition py_symbol (o : binop) (a b : ast) : ast :=
  match o with
  | OAdd => ABin PAdd a b | OMul => ABin PMul a b | OSub => ABin PSub a b
  | ODiv => ABin PFloorDiv a b | OMod => ABin PMod a b | OPow => ABin PPow a b
  | OEq => ACmp a [(PEq, b)] | ONe => ACmp a [(PNe, b)] | OLt => ACmp a [(PLt, b)]
  | OLe => ACmp a [(PLe, b)] | OGt => ACmp a [(PGt, b)] | OGe => ACmp a [(PGe, b)]
  | OAnd => AAnd a b | OOr => AOr a b
  end.
Definition str_symbol (o : binop) (a b : ast) : ast :=
  match o with
  | ODiv => ABin PTrueDiv a b | OAnd => ABin PBitAnd a b | OOr => ABin PBitOr a b
  | _ => py_symbol o a b
  end.

(** [p o q] for an operator that binds tighter than [not]: the [not]s of [p] apply to the
    whole, those of [q] are a syntax error, and so does the minus sign of [p] before [**]. *)
Definition tight_join (mk : binop -> ast -> ast -> ast) (o : binop) (p q : piece) : option ast :=
  match atom p, atom q, nots q with
  | Some a, Some b, O =>
      Some (noted (nots p)
             (match o with
              | OPow => signed (minus p) (mk o a (signed (minus q) b))
              | _ => mk o (signed (minus p) a) (signed (minus q) b)
              end))
  | _, _, _ => None
  end.
Definition join (o : binop) (p q : piece) : option ast :=
  match o with
  | OAnd => match whole p, whole q with Some a, Some b => Some (AAnd a b) | _, _ => None end
  | _ => tight_join py_symbol o p q
  end.

(** [p1 or ... or pn o q1 or ... or qm]: the operator connects only its neighbours. *)
Fixpoint glue (o : binop) (ps qs : list piece) : list (option ast) :=
  match ps, qs with
  | [p], q :: qs' => join o p q :: map whole qs'
  | p :: ps', _ => whole p :: glue o ps' qs
  | [], _ => map whole qs
  end.

Fixpoint all_read (l : list (option ast)) : option (list ast) :=
  match l with
  | [] => Some []
  | Some a :: l' => match all_read l' with Some r => Some (a :: r) | None => None end
  | None :: _ => None
  end.
(** [a1 or a2 or ... or an] is [((a1 or a2) or ...) or an]. *)
Definition ors (l : list (option ast)) : option ast :=
  match all_read l with Some (a :: r) => Some (fold_left AOr r a) | _ => None end.

Definition number (z : Z) : piece := Piece 0 (z <? 0) (Some (ANum (Z.abs z))).
Definition call (f : string) (a : option ast) : piece :=
  Piece 0 false (match a with Some a => Some (ACall f a) | None => None end).
Definition call_list (f : string) (l : list (option ast)) : piece :=
  Piece 0 false (match all_read l with Some l => Some (ACallL f l) | None => None end).
(** The printed values of a sum or product. *)
Definition printed (k : acckind) (c : Z) (l : list (option ast)) : list (option ast) :=
  if c =? neutral k then l else whole (number c) :: l.

(** Reading of the text given by [__str__]. *)
Fixpoint str_reading (e : expr) : piece :=
  match e with
  | Const z => number z
  | Var x | Param _ x => Piece 0 false (Some (AName x))
  | Neg e1 => Piece 0 true (whole (str_reading e1))
  | Abs e1 => call "abs" (whole (str_reading e1))
  | Not _ => Piece 0 false None                       (* [^e] *)
  | Bin o l r => Piece 0 false (tight_join str_symbol o (str_reading l) (str_reading r))
  | Sum es c => call_list "sum" (printed KSum c (map (fun e => whole (str_reading e)) es))
  | Prod es c => call_list "prod" (printed KProd c (map (fun e => whole (str_reading e)) es))
  end.

(** Reading of the text given by [py_expr]: a disjunction of pieces. *)
Fixpoint py_pieces (ps : pstore) (e : expr) : list piece :=
  match e with
  | Const z => [number z]
  | Var x => [Piece 0 false (Some (AName x))]
  | Param p _ => [number (ps p)]
  | Neg e1 => [Piece 0 true (whole (str_reading e1))]
  | Abs e1 => [call "abs" (whole (str_reading e1))]
  | Not e1 =>
      match py_pieces ps e1 with
      | p :: l => Piece (S (nots p)) (minus p) (atom p) :: l
      | [] => []
      end
  | Bin OOr l r => py_pieces ps l ++ py_pieces ps r
  | Bin o l r => [Piece 0 false (ors (glue o (py_pieces ps l) (py_pieces ps r)))]
  | Sum es c => [call_list "sum" (printed KSum c (map (fun e => ors (map whole (py_pieces ps e))) es))]
  | Prod es c => [call_list "prod" (printed KProd c (map (fun e => ors (map whole (py_pieces ps e))) es))]
  end.
Definition reading (ps : pstore) (e : expr) : option ast := ors (map whole (py_pieces ps e)).

(** When the text is Python at all: no [not] below [-( )] and [abs( )], and none at the
    beginning of the right operand of an operator other than [&] and [|]. *)
Fixpoint not_free (e : expr) : bool :=
  match e with
  | Const _ | Var _ | Param _ _ => true
  | Neg e1 | Abs e1 => not_free e1
  | Not _ => false
  | Bin _ l r => not_free l && not_free r
  | Sum es _ | Prod es _ => forallb not_free es
  end.
Fixpoint starts_with_not (e : expr) : bool :=
  match e with Not _ => true | Bin OOr l _ => starts_with_not l | _ => false end.
Fixpoint compiles (e : expr) : bool :=
  match e with
  | Const _ | Var _ | Param _ _ => true
  | Neg e1 | Abs e1 => not_free e1
  | Not e1 => compiles e1
  | Bin o l r =>
      compiles l && compiles r
      && match o with OAnd | OOr => true | _ => negb (starts_with_not r) end
  | Sum es _ | Prod es _ => forallb compiles es
  end.

(** [a | b], possibly negated. *)
Fixpoint disjunction (e : expr) : bool :=
  match e with Bin OOr _ _ => true | Not e1 => disjunction e1 | _ => false end.
(** Operators whose symbol binds tighter than [not]. *)
Definition tight_op (o : binop) : bool := match o with OAnd | OOr => false | _ => true end.

(** ** Constraints *)

(** The value of the text generated for [e], read as above, on the arguments taken from [s]. *)
Definition text_value (ps : pstore) (s : subst) (e : expr) (v : Z) : Prop :=
  exists a, reading ps e = Some a /\ aeval (filter (fun b => memb (fst b) (vars e)) s) a = Ok v.
