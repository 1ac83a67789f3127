(** Specification: texts as sequences of characters, and drawings. *)
From Coq Require Import List ZArith String Ascii.
From Verif Require Import SpecNonogram SpecImage SpecCryptarithm SpecStats Solver Dec.
Import ListNotations.
Open Scope string_scope.
Open Scope Z_scope.

(** The continuation bytes of UTF-8. *)
Definition continuation (c : ascii) : bool := (128 <=? Z.of_nat (nat_of_ascii c)) && (Z.of_nat (nat_of_ascii c) <? 192).
Definition continues (s : string) : bool := match s with EmptyString => false | String c _ => continuation c end.
(** The characters of a UTF-8 text: a byte with the continuation bytes that follow it. *)
Fixpoint chars (s : string) : list string :=
  match s with
  | EmptyString => []
  | String c s' =>
      match chars s' with
      | h :: t => if continues h then String c h :: t else String c "" :: h :: t
      | [] => [String c ""]
      end
  end.
(** The character in line [i], column [j] of a drawing. *)
Definition char_at (d : list string) (i j : nat) (ch : string) : Prop :=
  exists line, nth_error d i = Some line /\ nth_error (chars line) j = Some ch.

(** ** Chessboards: a grid of squares 3 characters wide. *)
Definition frame (n i j : nat) : string :=
  if Nat.eqb i (2 * n) then (if Nat.eqb j 0 then "└" else if Nat.eqb j (4 * n) then "┘" else if Nat.eqb (j mod 4) 0 then "┴" else "─")
  else if Nat.eqb i 0 then (if Nat.eqb j 0 then "┌" else if Nat.eqb j (4 * n) then "┐" else if Nat.eqb (j mod 4) 0 then "┬" else "─")
  else (if Nat.eqb j 0 then "├" else if Nat.eqb j (4 * n) then "┤" else if Nat.eqb (j mod 4) 0 then "┼" else "─").
(** The character at line [i], column [j] of the drawing of the [n] x [n] board [b]. *)
Definition board_char (n : nat) (b : list (list Z)) (i j : nat) : string :=
  if Nat.even i then frame n i j
  else if Nat.eqb (j mod 4) 0 then "│"
  else if Nat.eqb (j mod 4) 2 then (if pixel b (Z.of_nat (i / 2)) (Z.of_nat (j / 4)) =? 0 then " " else "♛")
  else " ".

(** ** Sudoku schemas: line and column of the cell in row [r], column [c]. *)
Definition cell_line (r : nat) : nat := (r + r / 3 + 1)%nat.
Definition cell_column (c : nat) : nat := (3 * c + c / 3 + 2)%nat.
(** The text of a value: nothing is known about 0 and None. *)
Definition value_char (v : option Z) : string :=
  match v with
  | Some 1 => "1" | Some 2 => "2" | Some 3 => "3" | Some 4 => "4" | Some 5 => "5"
  | Some 6 => "6" | Some 7 => "7" | Some 8 => "8" | Some 9 => "9"
  | _ => "."
  end.
(** A schema: nine rows of nine values, unknown or between 0 and 9. *)
Definition is_schema (s : list (list (option Z))) : Prop :=
  List.length s = 9%nat /\ forall row, In row s -> List.length row = 9%nat /\ forall n, In (Some n) row -> 0 <= n <= 9.
Definition schema_value (s : list (list (option Z))) (r c : nat) : option Z := nth c (nth r s []) None.
(** The character at line [i], column [j] of the drawing of a schema. *)
Definition schema_char (s : list (list (option Z))) (i j : nat) : string :=
  if Nat.eqb (i mod 4) 0 then
    (if Nat.eqb (j mod 10) 0
     then nth (j / 10) (nth (i / 4) [["┌"; "┬"; "┬"; "┐"]; ["├"; "┼"; "┼"; "┤"]; ["├"; "┼"; "┼"; "┤"]; ["└"; "┴"; "┴"; "┘"]] []) ""
     else "─")
  else if Nat.eqb (j mod 10) 0 then "│"
  else if Nat.eqb (j mod 10 mod 3) 2 then value_char (schema_value s (i - i / 4 - 1) (j / 10 * 3 + j mod 10 / 3))
  else " ".
(** Equal, or both unknown. *)
Definition same_value (v v' : option Z) : Prop :=
  v = v' \/ (v = None \/ v = Some 0) /\ (v' = None \/ v' = Some 0).

(** ** Equations with digits for letters: the character [d] printed for [c]. *)
Definition printed_char (b : list (string * Z)) (c d : ascii) : Prop :=
  if ((65 <=? Z.of_nat (nat_of_ascii c)) && (Z.of_nat (nat_of_ascii c) <=? 90))%bool
  then exists v, In (String c "", v) b /\ Z.of_nat (nat_of_ascii d) = 48 + v
  else d = c.

(** ** The output of a demo: the solutions, each under its number, and a summary.
    [draws b d]: the lines [d] show [b]. *)
Definition title (k : nat) : string := String (ascii_of_nat 10) ("=== solution " ++ str_nat k ++ " ===").
Definition titled (ds : list (list string)) : list string :=
  concat (map (fun p => title (fst p) :: snd p) (combine (seq 1 (List.length ds)) ds)).
Definition reports {B} (draws : B -> list string -> Prop) (ok : B -> Prop) (timeout limit : lim) (out : list string) : Prop :=
  exists bs ds summary,
    out = (titled ds ++ [summary])%list /\ Forall2 draws bs ds /\ NoDup bs /\ (forall b, In b bs -> ok b) /\
    let n := str_int (Z.of_nat (List.length bs)) in
    ((exists b, bs = [b] /\ (forall b', ok b' -> b' = b) /\ says summary "Found unique solution in ") \/
     (List.length bs <> 1%nat /\ (forall b, ok b -> In b bs) /\ says summary ("Found all " ++ n ++ " solutions in ")) \/
     (((exists k, limit = LNum k /\ k <= Z.of_nat (List.length bs)) \/ (exists t, timeout = LNum t)) /\
      says summary ("Found " ++ n ++ " partial solution"))) /\
    (forall k, limit = LNum k -> 1 <= k -> Z.of_nat (List.length bs) <= k).

(** The drawing of a board, of a schema and of a pixmap. *)
Definition draws_board (n : nat) (b : list (list Z)) (d : list string) : Prop :=
  List.length d = (2 * n + 1)%nat /\ (forall line, In line d -> List.length (chars line) = (4 * n + 1)%nat) /\
  forall i j, (i <= 2 * n)%nat -> (j <= 4 * n)%nat -> char_at d i j (board_char n b i j).
Definition draws_schema (s : list (list (option Z))) (d : list string) : Prop :=
  List.length d = 13%nat /\ (forall line, In line d -> List.length (chars line) = 31%nat) /\
  forall i j, (i <= 12)%nat -> (j <= 30)%nat -> char_at d i j (schema_char s i j).
Definition draws_image (b : list (list Z)) (d : list string) : Prop :=
  exists g, drawn " " "#" b g /\ d = [String.concat (String (ascii_of_nat 10) "") (map (String.concat "") g)].
(** The solution of an equation: the digits of its letters, and the equation with the digits,
    which is true. *)
Definition draws_equation (source : string) (b : list (string * Z)) (d : list string) : Prop :=
  exists t q, d = app (map (fun p => fst p ++ " = " ++ str_int (snd p)) b) ["==> " ++ t] /\
    Forall2 (printed_char b) (list_ascii_of_string source) (list_ascii_of_string t) /\
    text_equation t q /\ (forall w c, In w (equation_words q) -> In c w -> is_dig c) /\ true_equation (fun _ => 0) q.
