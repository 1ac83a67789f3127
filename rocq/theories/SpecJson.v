(** Specification: the texts of the JSON language (RFC 8259), and the values they denote. *)
From Verif Require Import Json.
From Coq Require Import Ascii.
Open Scope string_scope.
Open Scope list_scope.
Open Scope Z_scope.

Local Notation text := (list ascii).

(** Blanks, tabs and ends of lines. *)
Definition blanks (w : text) : Prop := forall c, In c w -> In (nat_of_ascii c) [32; 9; 10; 13]%nat.

(** Decimal numbers: without leading zeros, and with a sign, a fraction or an exponent. *)
Definition decimal_digit (c : ascii) (d : Z) : Prop := 0 <= d <= 9 /\ Z.of_nat (nat_of_ascii c) = 48 + d.
Definition digit_text (l : text) : Prop := l <> [] /\ forall c, In c l -> exists d, decimal_digit c d.
Inductive number_of : text -> Z -> Prop :=
| no_digit c d : decimal_digit c d -> number_of [c] d
| no_more l n c d : number_of l n -> decimal_digit c d -> n <> 0 -> number_of (l ++ [c]) (10 * n + d).
Inductive int_text : text -> Z -> Prop :=
| it_pos l n : number_of l n -> int_text l n
| it_neg l n : number_of l n -> int_text ("-"%char :: l) (- n).
Definition frac_text (l : text) : Prop := exists ds, l = "."%char :: ds /\ digit_text ds.
Definition exp_text (l : text) : Prop := exists e sign ds, l = e :: sign ++ ds /\ In e ["e"%char; "E"%char] /\
  In sign [[]; ["-"%char]; ["+"%char]] /\ digit_text ds.

(** The UTF-8 encoding of a character. *)
Inductive encoded : Z -> list Z -> Prop :=
| en_1 n : 0 <= n < 128 -> encoded n [n]
| en_2 a b : 0 <= a < 32 -> 0 <= b < 64 -> 128 <= 64 * a + b -> encoded (64 * a + b) [192 + a; 128 + b]
| en_3 a b c : 0 <= a < 16 -> 0 <= b < 64 -> 0 <= c < 64 -> 2048 <= 4096 * a + 64 * b + c ->
    encoded (4096 * a + 64 * b + c) [224 + a; 128 + b; 128 + c]
| en_4 a b c d : 0 <= a < 8 -> 0 <= b < 64 -> 0 <= c < 64 -> 0 <= d < 64 -> 65536 <= 262144 * a + 4096 * b + 64 * c + d ->
    encoded (262144 * a + 4096 * b + 64 * c + d) [240 + a; 128 + b; 128 + c; 128 + d].

(** Strings: characters that are neither control characters nor quotes nor backslashes, and
    escapes; a code is a number of four hexadecimal digits. *)
Definition hex_of (c : ascii) (d : nat) : Prop :=
  (d < 16)%nat /\ (nth_error (list_ascii_of_string "0123456789abcdef") d = Some c \/ nth_error (list_ascii_of_string "0123456789ABCDEF") d = Some c).
Inductive char_text : text -> junit -> Prop :=
| ct_plain c : (32 <= nat_of_ascii c)%nat -> c <> """"%char -> c <> "\"%char -> char_text [c] (Byte c)
| ct_escape e c : In (e, c) [("""", """"); ("\", "\"); ("/", "/"); ("b", "008"); ("f", "012"); ("n", "010"); ("r", "013"); ("t", "009")]%char -> char_text ["\"%char; e] (Byte c)
| ct_code h1 h2 h3 h4 i j k l : hex_of h1 i -> hex_of h2 j -> hex_of h3 k -> hex_of h4 l ->
    char_text ["\"; "u"; h1; h2; h3; h4]%char (Code (4096 * Z.of_nat i + 256 * Z.of_nat j + 16 * Z.of_nat k + Z.of_nat l)).
Inductive units_text : text -> list junit -> Prop :=
| ut_nil : units_text [] []
| ut_cons l u l' us : char_text l u -> units_text l' us -> units_text (l ++ l') (u :: us).
(** The bytes of the characters: a code is a character, unless it and the next code are a pair
    of surrogates, which are one character. *)
Definition high (n : Z) : Prop := 55296 <= n < 56320.
Definition low (n : Z) : Prop := 56320 <= n < 57344.
Inductive characters : list junit -> list Z -> Prop :=
| ch_nil : characters [] []
| ch_byte c us bs : characters us bs -> characters (Byte c :: us) (Z.of_nat (nat_of_ascii c) :: bs)
| ch_pair n m us u bs : high n -> low m -> encoded (65536 + (n - 55296) * 1024 + (m - 56320)) u -> characters us bs ->
    characters (Code n :: Code m :: us) (u ++ bs)
| ch_code n us u bs : ~ (high n /\ exists m us', low m /\ us = Code m :: us') -> encoded n u -> characters us bs ->
    characters (Code n :: us) (u ++ bs).
Definition string_text (l : text) (s : string) : Prop :=
  exists us bs, units_text l us /\ characters us bs /\ map (fun c => Z.of_nat (nat_of_ascii c)) (list_ascii_of_string s) = bs.

(** A dict made of pairs: the place of a key is that of its first pair, its value that of its last. *)
Fixpoint dict_of {A} (kvs : list (string * A)) (d : dict A) : dict A :=
  match kvs with [] => d | (k, v) :: kvs' => dict_of kvs' (dset d k v) end.

Inductive value_text : text -> json -> Prop :=
| vt_null : value_text (list_ascii_of_string "null") JNull
| vt_true : value_text (list_ascii_of_string "true") (JBool true)
| vt_false : value_text (list_ascii_of_string "false") (JBool false)
| vt_constant s : In s ["NaN"; "Infinity"; "-Infinity"] -> value_text (list_ascii_of_string s) JFloat
| vt_int l n : int_text l n -> value_text l (JInt n)
| vt_frac l n f : int_text l n -> frac_text f -> value_text (l ++ f) JFloat
| vt_exp l n e : int_text l n -> exp_text e -> value_text (l ++ e) JFloat
| vt_frac_exp l n f e : int_text l n -> frac_text f -> exp_text e -> value_text (l ++ f ++ e) JFloat
| vt_string l s : string_text l s -> value_text (""""%char :: l ++ [""""%char]) (JStr s)
| vt_empty_list w : blanks w -> value_text ("["%char :: w ++ ["]"%char]) (JList [])
| vt_list l vs : items_text l vs -> value_text ("["%char :: l ++ ["]"%char]) (JList vs)
| vt_empty_obj w : blanks w -> value_text ("{"%char :: w ++ ["}"%char]) (JObj [])
| vt_obj l kvs : members_text l kvs -> value_text ("{"%char :: l ++ ["}"%char]) (JObj (dict_of kvs []))
(** Values with blanks around them, separated by commas. *)
with items_text : text -> list json -> Prop :=
| xt_one w1 l v w2 : blanks w1 -> value_text l v -> blanks w2 -> items_text (w1 ++ l ++ w2) [v]
| xt_more w1 l v w2 ls vs : blanks w1 -> value_text l v -> blanks w2 -> items_text ls vs -> items_text (w1 ++ l ++ w2 ++ ","%char :: ls) (v :: vs)
with members_text : text -> list (string * json) -> Prop :=
| mt_one w1 k s w2 w3 l v w4 : blanks w1 -> string_text k s -> blanks w2 -> blanks w3 -> value_text l v -> blanks w4 ->
    members_text (w1 ++ """"%char :: k ++ """"%char :: w2 ++ ":"%char :: w3 ++ l ++ w4) [(s, v)]
| mt_more w1 k s w2 w3 l v w4 ls kvs : blanks w1 -> string_text k s -> blanks w2 -> blanks w3 -> value_text l v -> blanks w4 -> members_text ls kvs ->
    members_text (w1 ++ """"%char :: k ++ """"%char :: w2 ++ ":"%char :: w3 ++ l ++ w4 ++ ","%char :: ls) ((s, v) :: kvs).

(** A document: one value with blanks around it. *)
Definition json_text (s : string) (v : json) : Prop :=
  exists w1 l w2, list_ascii_of_string s = w1 ++ l ++ w2 /\ blanks w1 /\ value_text l v /\ blanks w2.
