(** Model of [json.load] and [json.loads] (CPython, Lib/json/decoder.py and scanner.py), as used by
    the demo programs of src/satisfy/tool to read their input.  Simplifications: a text is a
    sequence of bytes, so that text that is not ASCII is kept as its UTF-8 encoding (a surrogate
    without partner as its three bytes); floats are not represented ([JFloat]); Python's recursion
    and digit limits are ignored. *)
From Coq Require Export Ascii.
From Verif Require Export Py.
Open Scope string_scope.
Open Scope Z_scope.

Inductive json : Type :=
| JNull
| JBool (b : bool)
| JInt (n : Z)
| JFloat
| JStr (s : string)
| JList (l : list json)
| JObj (d : dict json).

(** [WHITESPACE], decoder.py: [[ \t\n\r]*]. *)
Definition is_ws (c : ascii) : bool :=
  Ascii.eqb c " " || Ascii.eqb c "009" || Ascii.eqb c "010" || Ascii.eqb c "013".
Fixpoint skip_ws (l : list ascii) : list ascii :=
  match l with c :: l' => if is_ws c then skip_ws l' else l | [] => [] end.

(** What follows the character [c] at the head of a text. *)
Definition after (c : ascii) (l : list ascii) : option (list ascii) :=
  match l with d :: l' => if Ascii.eqb c d then Some l' else None | [] => None end.

(** The digits at the head of a text, and what follows them. *)
Definition is_digit (c : ascii) : bool := (48 <=? nat_of_ascii c)%nat && (nat_of_ascii c <=? 57)%nat.
Definition digit_value (c : ascii) : Z := Z.of_nat (nat_of_ascii c) - 48.
Fixpoint span_digits (l : list ascii) : list ascii * list ascii :=
  match l with
  | c :: l' => if is_digit c then let (ds, rest) := span_digits l' in (c :: ds, rest) else ([], l)
  | [] => ([], [])
  end.
Definition digits_value (ds : list ascii) : Z := fold_left (fun n c => 10 * n + digit_value c) ds 0.

(** [NUMBER_RE], scanner.py: an optional minus, [0] or digits not starting with [0], then
    optionally a fraction and an exponent (digits after [e] or [E] and an optional sign).  The
    groups of the fraction and of the exponent. *)
Definition scan_frac (l : list ascii) : bool * list ascii :=
  match after "." l with
  | Some l' => match span_digits l' with ([], _) => (false, l) | (_, rest) => (true, rest) end
  | None => (false, l)
  end.
Definition scan_exp (l : list ascii) : bool * list ascii :=
  match l with
  | c :: l' =>
      if Ascii.eqb c "e" || Ascii.eqb c "E" then
        let l1 := match l' with d :: l2 => if Ascii.eqb d "-" || Ascii.eqb d "+" then l2 else l' | [] => [] end in
        match span_digits l1 with ([], _) => (false, l) | (_, rest) => (true, rest) end
      else (false, l)
  | [] => (false, l)
  end.
Definition scan_tail (n : Z) (l : list ascii) : json * list ascii :=
  let (fr, l1) := scan_frac l in
  let (ex, l2) := scan_exp l1 in
  (if fr || ex then JFloat else JInt n, l2).
Definition scan_unsigned (l : list ascii) : option (Z * list ascii) :=
  match after "0" l with
  | Some l' => Some (0, l')
  | None => match span_digits l with ([], _) => None | (ds, rest) => Some (digits_value ds, rest) end
  end.
Definition scan_number (l : list ascii) : option (json * list ascii) :=
  match after "-" l with
  | Some l' => match scan_unsigned l' with Some (n, rest) => Some (scan_tail (- n) rest) | None => None end
  | None => match scan_unsigned l with Some (n, rest) => Some (scan_tail n rest) | None => None end
  end.

(** [scanstring], decoder.py: up to the closing quote; control characters are refused. *)
Definition hex_value (c : ascii) : option nat :=
  let n := nat_of_ascii c in
  if (48 <=? n)%nat && (n <=? 57)%nat then Some (n - 48)%nat
  else if (97 <=? n)%nat && (n <=? 102)%nat then Some (n - 87)%nat
  else if (65 <=? n)%nat && (n <=? 70)%nat then Some (n - 55)%nat
  else None.
Definition simple_escape (c : ascii) : option ascii :=
  if Ascii.eqb c """" then Some """"%char
  else if Ascii.eqb c "\" then Some "\"%char
  else if Ascii.eqb c "/" then Some "/"%char
  else if Ascii.eqb c "b" then Some "008"%char
  else if Ascii.eqb c "f" then Some "012"%char
  else if Ascii.eqb c "n" then Some "010"%char
  else if Ascii.eqb c "r" then Some "013"%char
  else if Ascii.eqb c "t" then Some "009"%char
  else None.
Definition unicode_escape (a b c d : ascii) : option Z :=
  match hex_value a, hex_value b, hex_value c, hex_value d with
  | Some i, Some j, Some k, Some l => Some (4096 * Z.of_nat i + 256 * Z.of_nat j + 16 * Z.of_nat k + Z.of_nat l)
  | _, _, _, _ => None
  end.
(** A byte, or a code written as an escape. *)
Inductive junit : Type := Byte (c : ascii) | Code (n : Z).
Fixpoint scan_units (l : list ascii) : res (list junit * list ascii) :=
  match l with
  | [] => Err ValueError
  | c :: l' =>
      if Ascii.eqb c """" then Ok ([], l')
      else if (nat_of_ascii c <? 32)%nat then Err ValueError
      else if Ascii.eqb c "\" then
        match l' with
        | [] => Err ValueError
        | e :: l2 =>
            if Ascii.eqb e "u" then
              match l2 with
              | h1 :: h2 :: h3 :: h4 :: l3 =>
                  match unicode_escape h1 h2 h3 h4 with
                  | Some n => let! r := scan_units l3 in Ok (Code n :: fst r, snd r)
                  | None => Err ValueError
                  end
              | _ => Err ValueError
              end
            else
              match simple_escape e with
              | Some a => let! r := scan_units l2 in Ok (Byte a :: fst r, snd r)
              | None => Err ValueError
              end
        end
      else let! r := scan_units l' in Ok (Byte c :: fst r, snd r)
  end.
(** The UTF-8 encoding of a character. *)
Definition byte (n : Z) : ascii := ascii_of_nat (Z.to_nat n).
Definition utf8 (n : Z) : list Z :=
  if n <? 128 then [n]
  else if n <? 2048 then [192 + n / 64; 128 + n mod 64]
  else if n <? 65536 then [224 + n / 4096; 128 + (n / 64) mod 64; 128 + n mod 64]
  else [240 + n / 262144; 128 + (n / 4096) mod 64; 128 + (n / 64) mod 64; 128 + n mod 64].
Definition utf8_text (n : Z) : string := string_of_list_ascii (map byte (utf8 n)).
(** Two escapes that are a pair of surrogates are one character (in the code this is found out
    when the first one is read). *)
Fixpoint join_units (us : list junit) : string :=
  match us with
  | [] => ""
  | Byte c :: us' => String c (join_units us')
  | Code n :: us' =>
      match us' with
      | Code m :: us2 =>
          if ((55296 <=? n) && (n <=? 56319)) && ((56320 <=? m) && (m <=? 57343))
          then utf8_text (65536 + (n - 55296) * 1024 + (m - 56320)) ++ join_units us2
          else utf8_text n ++ join_units us'
      | _ => utf8_text n ++ join_units us'
      end
  end.
Definition scan_string (l : list ascii) : res (string * list ascii) :=
  let! r := scan_units l in Ok (join_units (fst r), snd r).

(** A literal at the head of a text. *)
Fixpoint strip_prefix (p l : list ascii) : option (list ascii) :=
  match p, l with
  | [], _ => Some l
  | c :: p', d :: l' => if Ascii.eqb c d then strip_prefix p' l' else None
  | _ :: _, [] => None
  end.
Definition literals : list (string * json) :=
  [("null", JNull); ("true", JBool true); ("false", JBool false); ("NaN", JFloat); ("Infinity", JFloat); ("-Infinity", JFloat)].
Fixpoint scan_literal (ls : list (string * json)) (l : list ascii) : option (json * list ascii) :=
  match ls with
  | [] => None
  | (p, v) :: ls' => match strip_prefix (list_ascii_of_string p) l with Some rest => Some (v, rest) | None => scan_literal ls' l end
  end.

(** [scan_once], scanner.py, with [JSONArray] and [JSONObject], decoder.py; [fuel] bounds the
    number of values and separators read. *)
Fixpoint scan_once (fuel : nat) (l : list ascii) : res (json * list ascii) :=
  match fuel, l with
  | S fuel', c :: l' =>
      if Ascii.eqb c """" then let! r := scan_string l' in Ok (JStr (fst r), snd r)
      else if Ascii.eqb c "[" then
        let l2 := skip_ws l' in
        match after "]" l2 with
        | Some rest => Ok (JList [], rest)
        | None => let! r := scan_items fuel' l2 in Ok (JList (fst r), snd r)
        end
      else if Ascii.eqb c "{" then
        let l2 := skip_ws l' in
        match after "}" l2 with
        | Some rest => Ok (JObj [], rest)
        | None => let! r := scan_members fuel' [] l2 in Ok (JObj (fst r), snd r)
        end
      else
        match scan_literal literals l with
        | Some r => Ok r
        | None => match scan_number l with Some r => Ok r | None => Err ValueError end
        end
  | _, _ => Err ValueError
  end
(** The rest of an array, after its first non-blank character. *)
with scan_items (fuel : nat) (l : list ascii) : res (list json * list ascii) :=
  match fuel with
  | O => Err ValueError
  | S fuel' =>
      let! r := scan_once fuel' l in
      let l2 := skip_ws (snd r) in
      match after "]" l2, after "," l2 with
      | Some rest, _ => Ok ([fst r], rest)
      | None, Some l3 => let! rs := scan_items fuel' (skip_ws l3) in Ok (fst r :: fst rs, snd rs)
      | None, None => Err ValueError
      end
  end
(** The rest of an object: the pairs are put into the dict [d] (the last of equal keys counts). *)
with scan_members (fuel : nat) (d : dict json) (l : list ascii) : res (dict json * list ascii) :=
  match fuel with
  | O => Err ValueError
  | S fuel' =>
      match after """" l with
      | None => Err ValueError
      | Some l1 =>
          let! k := scan_string l1 in
          match after ":" (skip_ws (snd k)) with
          | None => Err ValueError
          | Some l2 =>
              let! r := scan_once fuel' (skip_ws l2) in
              let d' := dset d (fst k) (fst r) in
              let l3 := skip_ws (snd r) in
              match after "}" l3, after "," l3 with
              | Some rest, _ => Ok (d', rest)
              | None, Some l4 => scan_members fuel' d' (skip_ws l4)
              | None, None => Err ValueError
              end
          end
      end
  end.

(** [JSONDecoder.decode]: one value between blanks. *)
Definition json_loads (s : string) : res json :=
  let l := list_ascii_of_string s in
  let! r := scan_once (S (length l)) (skip_ws l) in
  match skip_ws (snd r) with [] => Ok (fst r) | _ => Err ValueError end.
