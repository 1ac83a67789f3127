(** Specification of the riddle: who lives where, and the fifteen statements. *)
From Coq Require Import List ZArith String.
Import ListNotations.
Open Scope string_scope.
Open Scope Z_scope.

Definition attributes : list (string * list string) :=
  [("owner", ["English"; "Swede"; "Dane"; "Norwegian"; "German"]);
   ("color", ["red"; "green"; "white"; "yellow"; "blue"]);
   ("drink", ["water"; "coffee"; "tea"; "milk"; "beer"]);
   ("smoke", ["Pall Mall"; "Prince"; "Dunhill"; "Blend"; "Blue Master"]);
   ("animal", ["cats"; "a dog"; "birds"; "a horse"; "a zebra"])].

(** [h k v]: the number, from 1 to 5, of the house with value [v] of attribute [k]. *)
Definition placement (h : string -> string -> Z) : Prop :=
  forall k vs, In (k, vs) attributes ->
    (forall v, In v vs -> 1 <= h k v <= 5) /\
    (forall v v', In v vs -> In v' vs -> v <> v' -> h k v <> h k v').

Definition next_to (i j : Z) : Prop := i = j + 1 \/ j = i + 1.
Definition statements (h : string -> string -> Z) : Prop :=
  h "owner" "English" = h "color" "red" /\
  h "owner" "Swede" = h "animal" "a dog" /\
  h "owner" "Dane" = h "drink" "tea" /\
  h "color" "green" + 1 = h "color" "white" /\
  h "color" "green" = h "drink" "coffee" /\
  h "smoke" "Pall Mall" = h "animal" "birds" /\
  h "color" "yellow" = h "smoke" "Dunhill" /\
  h "drink" "milk" = 3 /\
  h "owner" "Norwegian" = 1 /\
  next_to (h "smoke" "Blend") (h "animal" "cats") /\
  next_to (h "smoke" "Dunhill") (h "animal" "a horse") /\
  h "smoke" "Blue Master" = h "drink" "beer" /\
  h "owner" "German" = h "smoke" "Prince" /\
  next_to (h "owner" "Norwegian") (h "color" "blue") /\
  next_to (h "drink" "water") (h "smoke" "Blend").

(** [z] lists, for each house, the value of each attribute. *)
Definition arrangement (h : string -> string -> Z) (z : list (Z * list (string * string))) : Prop :=
  map fst z = [1; 2; 3; 4; 5] /\
  forall i row, In (i, row) z -> map fst row = map fst attributes /\
    forall k v, In (k, v) row -> (exists vs, In (k, vs) attributes /\ In v vs) /\ h k v = i.

Definition riddle_answer (z : list (Z * list (string * string))) : Prop :=
  exists h, placement h /\ statements h /\ arrangement h z.
