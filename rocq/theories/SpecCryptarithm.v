(** Specification: equations between words, their texts, and their solutions. *)
From Verif Require Import Py.
From Coq Require Import String Ascii.
Open Scope string_scope.
Open Scope list_scope.
Open Scope Z_scope.

(** ** Words: letters (of either case) and decimal digits. *)
Definition ord (c : ascii) : Z := Z.of_N (N_of_ascii c).
Definition is_dig (c : ascii) : Prop := 48 <= ord c <= 57.
Definition is_upper (c : ascii) : Prop := 65 <= ord c <= 90.
Definition is_lower (c : ascii) : Prop := 97 <= ord c <= 122.
(** [c] stands for the letter [u]. *)
Definition stands_for (c u : ascii) : Prop := is_upper u /\ (c = u \/ is_lower c /\ ord c = ord u + 32).

Definition is_word (w : list ascii) : Prop := w <> [] /\ forall c, In c w -> is_dig c \/ exists u, stands_for c u.

(** The value of a character, given the values of the letters. *)
Definition char_value (a : string -> Z) (c : ascii) (v : Z) : Prop :=
  (is_dig c /\ v = ord c - 48) \/ exists u, stands_for c u /\ v = a (String u "").

(** The decimal number written with the digits [vs]. *)
Definition decimal (vs : list Z) : Z := fold_left (fun n v => 10 * n + v) vs 0.

Definition word_value (a : string -> Z) (w : list ascii) (n : Z) : Prop :=
  exists vs, Forall2 (char_value a) w vs /\ n = decimal vs.

(** ** Equations *)
Inductive cexp : Type :=
| EWord (w : list ascii)
| EAdd (e f : cexp)
| ESub (e f : cexp)
| EMul (e f : cexp)
| ENeg (e : cexp)
| EPos (e : cexp).
Inductive crel : Type := REq | RNe | RLt | RLe | RGt | RGe.
Inductive equation : Type := Equation (e : cexp) (r : crel) (f : cexp).

Inductive value (a : string -> Z) : cexp -> Z -> Prop :=
| v_word w n : word_value a w n -> value a (EWord w) n
| v_add e f m n : value a e m -> value a f n -> value a (EAdd e f) (m + n)
| v_sub e f m n : value a e m -> value a f n -> value a (ESub e f) (m - n)
| v_mul e f m n : value a e m -> value a f n -> value a (EMul e f) (m * n)
| v_neg e m : value a e m -> value a (ENeg e) (- m)
| v_pos e m : value a e m -> value a (EPos e) m.

Definition related (r : crel) (m n : Z) : Prop :=
  match r with REq => m = n | RNe => m <> n | RLt => m < n | RLe => m <= n | RGt => m > n | RGe => m >= n end.
Definition true_equation (a : string -> Z) (q : equation) : Prop :=
  let '(Equation e r f) := q in exists m n, value a e m /\ value a f n /\ related r m n.

Fixpoint words_of (e : cexp) : list (list ascii) :=
  match e with
  | EWord w => [w]
  | EAdd e f | ESub e f | EMul e f => words_of e ++ words_of f
  | ENeg e | EPos e => words_of e
  end.
Definition equation_words (q : equation) : list (list ascii) :=
  let '(Equation e _ f) := q in words_of e ++ words_of f.

(** [x] is a letter of the words; [x] is the first character of a word. *)
Definition letter_in (ws : list (list ascii)) (x : string) : Prop :=
  exists w c u, In w ws /\ In c w /\ stands_for c u /\ x = String u "".
Definition leading_in (ws : list (list ascii)) (x : string) : Prop :=
  exists w c u, In (c :: w) ws /\ stands_for c u /\ x = String u "".
Definition letter_of (q : equation) : string -> Prop := letter_in (equation_words q).
Definition leading (q : equation) : string -> Prop := leading_in (equation_words q).

(** ** Texts: the usual grammar, with spaces everywhere. *)
Definition blank (s : string) : Prop := forall c, In c (list_ascii_of_string s) -> c = " "%char.

Definition rel_text (r : crel) : string :=
  match r with REq => "==" | RNe => "!=" | RLt => "<" | RLe => "<=" | RGt => ">" | RGe => ">=" end.

Inductive text_factor : string -> cexp -> Prop :=
| t_word s w t : blank s -> is_word w -> blank t -> text_factor (s ++ string_of_list_ascii w ++ t) (EWord w)
| t_paren s x e t : blank s -> text_sum x e -> blank t -> text_factor (s ++ "(" ++ x ++ ")" ++ t) e
| t_neg s x e : blank s -> text_factor x e -> text_factor (s ++ "-" ++ x) (ENeg e)
| t_pos s x e : blank s -> text_factor x e -> text_factor (s ++ "+" ++ x) (EPos e)
with text_product : string -> cexp -> Prop :=
| t_factor x e : text_factor x e -> text_product x e
| t_mul x y e f : text_product x e -> text_factor y f -> text_product (x ++ "*" ++ y) (EMul e f)
with text_sum : string -> cexp -> Prop :=
| t_product x e : text_product x e -> text_sum x e
| t_add x y e f : text_sum x e -> text_product y f -> text_sum (x ++ "+" ++ y) (EAdd e f)
| t_sub x y e f : text_sum x e -> text_product y f -> text_sum (x ++ "-" ++ y) (ESub e f).

Inductive text_equation : string -> equation -> Prop :=
| t_equation x y e r f : text_sum x e -> text_sum y f -> text_equation (x ++ rel_text r ++ y) (Equation e r f).

(** ** Solutions: digits for the letters, listed in alphabetical order. *)
Definition letter_before (x y : string) : Prop :=
  exists u v, x = String u "" /\ y = String v "" /\ ord u < ord v.
Definition lookup (b : list (string * Z)) (x : string) : Z :=
  match find (fun p => String.eqb (fst p) x) b with Some p => snd p | None => 0 end.

Definition solution_over (ws : list (list ascii)) (q : equation) (b : list (string * Z)) : Prop :=
  (forall x, In x (map fst b) <-> letter_in ws x) /\
  ForallOrdPairs letter_before (map fst b) /\
  (forall x v, In (x, v) b -> 0 <= v <= 9 /\ (leading_in ws x -> v <> 0)) /\
  NoDup (map snd b) /\
  true_equation (lookup b) q.
Definition cry_solution (q : equation) : list (string * Z) -> Prop := solution_over (equation_words q) q.

(** One of the sides depends on the letters. *)
Definition depends (e : cexp) : Prop :=
  exists a a' m m', value a e m /\ value a' e m' /\ m <> m'.

(** ** Chains of equations: [e r1 e1 r2 e2 ...] *)
Inductive text_links : string -> list (crel * cexp) -> Prop :=
| t_last r y f : text_sum y f -> text_links (rel_text r ++ y) [(r, f)]
| t_link r y f s l : text_sum y f -> text_links s l -> text_links (rel_text r ++ y ++ s) ((r, f) :: l).
Inductive text_chain : string -> cexp -> list (crel * cexp) -> Prop :=
| t_chain x e s l : text_sum x e -> text_links s l -> text_chain (x ++ s) e l.

Fixpoint links (e : cexp) (l : list (crel * cexp)) : list equation :=
  match l with [] => [] | (r, f) :: l' => Equation e r f :: links f l' end.
Definition chain_words (e : cexp) (l : list (crel * cexp)) : list (list ascii) :=
  words_of e ++ flat_map (fun p => words_of (snd p)) l.
Definition depends_in (q : equation) : Prop := let '(Equation e _ f) := q in depends e \/ depends f.
Definition letterless (q : equation) : Prop := forall x, ~ letter_of q x.

(** The link that counts: the first one that is false whatever the letters, or the last one. *)
Inductive imposed : list equation -> equation -> Prop :=
| i_last q : depends_in q \/ letterless q -> imposed [q] q
| i_false q qs : letterless q -> ~ true_equation (fun _ => 0) q -> imposed (q :: qs) q
| i_skip q qs q' : depends_in q \/ letterless q /\ true_equation (fun _ => 0) q -> imposed qs q' -> imposed (q :: qs) q'.

(** ** Words of an arbitrary text (after conversion to upper case). *)
Inductive seg : Type := SWord (w : list ascii) | SChar (c : ascii).
Definition in_word (c : ascii) : Prop := is_dig c \/ is_upper c.

(** Adjacent letters and digits belong to the same word. *)
Fixpoint maximal (l : list seg) : Prop :=
  match l with
  | SWord w :: l' => match l' with SWord _ :: _ => False | _ => True end /\ maximal l'
  | SChar _ :: l' => maximal l'
  | [] => True
  end.
Definition segments (l : list seg) (s : list ascii) : Prop :=
  flat_map (fun g => match g with SWord w => w | SChar c => [c] end) l = s /\
  (forall w, In (SWord w) l -> w <> [] /\ forall c, In c w -> in_word c) /\
  (forall c, In (SChar c) l -> ~ in_word c) /\ maximal l.
(** Conversion to upper case of a character. *)
Definition uppercase (c u : ascii) : Prop := (is_lower c /\ ord c = ord u + 32) \/ (~ is_lower c /\ u = c).
