(** Model of [type_on_off] of src/satisfy/tool/__init__.py, for ASCII texts. *)
From Verif Require Export Py.
From Coq Require Import String Ascii.
Open Scope string_scope.
Open Scope Z_scope.

(** [str.lower]. *)
Definition lower_char (c : ascii) : ascii :=
  let n := nat_of_ascii c in if ((65 <=? n) && (n <=? 90))%nat then ascii_of_nat (n + 32) else c.
Definition str_lower (s : string) : string := string_of_list_ascii (map lower_char (list_ascii_of_string s)).

(** The characters that [int] strips. *)
Definition is_white (c : ascii) : bool :=
  let n := nat_of_ascii c in ((n =? 32) || (9 <=? n) && (n <=? 13) || (28 <=? n) && (n <=? 31))%nat.
Fixpoint skip_white (l : list ascii) : list ascii :=
  match l with [] => [] | c :: l' => if is_white c then skip_white l' else l end.
Definition strip_white (l : list ascii) : list ascii := rev (skip_white (rev (skip_white l))).
(** The digits; an underscore is allowed between two of them. *)
Fixpoint read_digits (l : list ascii) (acc : Z) (after_digit : bool) : res Z :=
  match l with
  | [] => if after_digit then Ok acc else Err ValueError
  | c :: l' =>
      let n := nat_of_ascii c in
      if ((48 <=? n) && (n <=? 57))%nat then read_digits l' (10 * acc + (Z.of_nat n - 48)) true
      else if ((n =? 95)%nat && after_digit)%bool then read_digits l' acc false
      else Err ValueError
  end.
(** [int(text)]: an optional sign and digits. *)
Definition int_of_list (l : list ascii) : res Z :=
  match l with
  | "-"%char :: l => let! n := read_digits l 0 false in Ok (- n)
  | "+"%char :: l => read_digits l 0 false
  | _ => read_digits l 0 false
  end.
Definition int_of_text (s : string) : res Z := int_of_list (strip_white (list_ascii_of_string s)).

(** [type_on_off], tool/__init__.py:45-52. *)
Definition type_on_off (x : string) : res bool :=
  let x := str_lower x in
  if ((x =? "on") || (x =? "true"))%string then Ok true
  else if ((x =? "off") || (x =? "false"))%string then Ok false
  else let! n := int_of_text x in Ok (negb (n =? 0)).
