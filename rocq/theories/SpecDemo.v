(** Specification: tuples, strings and dicts as Python writes them, and the output of the
    programs demo_knapsack, demo_graph_labeling and demo_ascii_map_coloring. *)
From Verif Require Import SpecKnapsack SpecStats SpecPrint SpecAscii Solver Dec.
From Coq Require Import List ZArith String Ascii.
Import ListNotations.
Open Scope string_scope.
Open Scope Z_scope.

(** ** A tuple of ints: [()], [(1,)], [(1, 2, 3)]. *)
Inductive ints_tail : list Z -> string -> Prop :=
  | ints_end : ints_tail [] ")"
  | ints_more a l t : ints_tail l t -> ints_tail (a :: l) (", " ++ str_int a ++ t).
Inductive is_tuple : list Z -> string -> Prop :=
  | tuple_0 : is_tuple [] "()"
  | tuple_1 a : is_tuple [a] ("(" ++ str_int a ++ ",)")
  | tuple_n a b l t : ints_tail (b :: l) t -> is_tuple (a :: b :: l) ("(" ++ str_int a ++ t).

(** ** The literals of strings: [body q t s]: the text [t] between quotes [q] stands for [s]. *)
Definition hex_value (c : ascii) : option nat :=
  let n := nat_of_ascii c in
  if (Nat.leb 48 n && Nat.leb n 57)%bool then Some (n - 48)%nat
  else if (Nat.leb 97 n && Nat.leb n 102)%bool then Some (n - 87)%nat
  else if (Nat.leb 65 n && Nat.leb n 70)%bool then Some (n - 55)%nat
  else None.
Definition backslash : ascii := "\"%char.
Definition escape (c : ascii) : option ascii :=
  if Ascii.eqb c "\" then Some "\"%char
  else if Ascii.eqb c "'" then Some "'"%char
  else if Ascii.eqb c """" then Some """"%char
  else if Ascii.eqb c "n" then Some "010"%char
  else if Ascii.eqb c "r" then Some "013"%char
  else if Ascii.eqb c "t" then Some "009"%char
  else None.
Inductive body (q : ascii) : string -> string -> Prop :=
  | body_end : body q "" ""
  | body_char c t s : c <> q -> c <> backslash -> (32 <= nat_of_ascii c < 127)%nat -> body q t s -> body q (String c t) (String c s)
  | body_escape c d t s : escape c = Some d -> body q t s -> body q (String backslash (String c t)) (String d s)
  | body_hex a b x y t s : hex_value a = Some x -> hex_value b = Some y -> body q t s ->
      body q (String backslash (String "x" (String a (String b t)))) (String (ascii_of_nat (16 * x + y)) s).
Definition literal (t s : string) : Prop :=
  exists q t', (q = "'"%char \/ q = """"%char) /\ t = String q (t' ++ String q "") /\ body q t' s.

(** ** The text of a dict: [{'a': 'x', 'b': 'y'}]. *)
Inductive items : list (string * string) -> string -> Prop :=
  | items_end : items [] "}"
  | items_more k v l tk tv t : literal tk k -> literal tv v -> items l t -> items ((k, v) :: l) (", " ++ tk ++ ": " ++ tv ++ t).
Inductive is_dict : list (string * string) -> string -> Prop :=
  | dict_0 : is_dict [] "{}"
  | dict_n k v l tk tv t : literal tk k -> literal tv v -> items l t -> is_dict ((k, v) :: l) ("{" ++ tk ++ ": " ++ tv ++ t).
Definition ascii_only (s : string) : Prop := forall c, In c (list_ascii_of_string s) -> (nat_of_ascii c < 128)%nat.

(** ** The output of demo_knapsack: [t] marks the selected items. *)
Definition marks (x : list Z) (t : string) : Prop :=
  String.length t = (2 * List.length x - 1)%nat /\
  (forall i v, nth_error x i = Some v -> String.get (2 * i) t = Some (if v =? 0 then "_"%char else "X"%char)) /\
  (forall i, (S i < List.length x)%nat -> String.get (2 * i + 1) t = Some " "%char).
(** [flag]: the program says that the selection is optimal. *)
Definition announces (values caps : list Z) (ws : list (list Z)) (timeout limit : lim) (flag : bool) (sol : option (list Z)) (out : list string) : Prop :=
  exists lines summary,
    out = ("=== optimal_solution ===" :: (if flag then "is_optimal: True" else "is_optimal: False") :: lines ++ [summary])%list /\
    match sol with
    | Some x => packing (List.length values) caps ws x /\
        exists t w, marks x t /\ is_tuple (map (fun j => total x (column j ws)) (seq 0 (List.length caps))) w /\
          lines = ["solution: '" ++ t ++ "'"; "value: " ++ str_int (total x values); "weights: " ++ w]
    | None => lines = ["no solution found"] /\ flag = false
    end /\
    (says summary "Found optimal solution in " <-> flag = true) /\
    (says summary "Found sub-optimal solution in " <-> flag = false) /\
    ((exists t, timeout = LNum t) \/ (exists k, limit = LNum k) \/
     match sol with Some x => flag = true | None => forall x, ~ packing (List.length values) caps ws x end).

(** ** A map: lines of cells. *)
Definition draws_map (colored : ascii -> string -> string) (m : list (list (option (ascii * string)))) (d : list string) : Prop :=
  d = [String.concat (String (ascii_of_nat 10) "") (map (fun row => String.concat "" (map (fun c =>
    match c with Some (a, color) => colored a color | None => " " end) row)) m)].
