(** Specification: the texts of integers, and of switches. *)
From Coq Require Import List ZArith String Ascii.
Import ListNotations.
Open Scope string_scope.
Open Scope list_scope.
Open Scope Z_scope.

Definition code (c : ascii) : Z := Z.of_nat (nat_of_ascii c).
(** Blanks: space, tab, line and page breaks, and the four information separators. *)
Definition white (c : ascii) : Prop := code c = 32 \/ 9 <= code c <= 13 \/ 28 <= code c <= 31.
Definition digit_char (c : ascii) (v : Z) : Prop := 0 <= v <= 9 /\ code c = 48 + v.

(** Digits, where single underscores may stand between two of them; most significant first. *)
Inductive digit_text : list ascii -> list Z -> Prop :=
| dt_one c v : digit_char c v -> digit_text [c] [v]
| dt_more c v l vs : digit_char c v -> digit_text l vs -> digit_text (c :: l) (v :: vs)
| dt_under c v l vs : digit_char c v -> digit_text l vs -> digit_text (c :: "_"%char :: l) (v :: vs).

(** The number with these digits: the least significant one counts for itself. *)
Fixpoint number (vs : list Z) : Z :=
  match vs with [] => 0 | v :: vs' => v * 10 ^ Z.of_nat (List.length vs') + number vs' end.

(** The texts of an integer. *)
Inductive int_text : string -> Z -> Prop :=
| it_plain before l vs after : Forall white before -> Forall white after -> digit_text l vs ->
    int_text (string_of_list_ascii (before ++ l ++ after)) (number vs)
| it_plus before l vs after : Forall white before -> Forall white after -> digit_text l vs ->
    int_text (string_of_list_ascii (before ++ "+"%char :: l ++ after)) (number vs)
| it_minus before l vs after : Forall white before -> Forall white after -> digit_text l vs ->
    int_text (string_of_list_ascii (before ++ "-"%char :: l ++ after)) (- number vs).

(** The same text but for the case of letters. *)
Definition same_letter (c d : ascii) : Prop :=
  c = d \/ 97 <= code d <= 122 /\ code c = code d - 32.
Definition spells (s w : string) : Prop := Forall2 same_letter (list_ascii_of_string s) (list_ascii_of_string w).

(** The switches. *)
Inductive switch : string -> bool -> Prop :=
| sw_on s : spells s "on" \/ spells s "true" -> switch s true
| sw_off s : spells s "off" \/ spells s "false" -> switch s false
| sw_zero s : int_text s 0 -> switch s false
| sw_number s n : int_text s n -> n <> 0 -> switch s true.
