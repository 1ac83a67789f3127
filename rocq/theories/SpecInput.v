(** Specification: the data in JSON documents, and output with the model in between. *)
From Verif Require Import Json DemoModel Puzzle SpecGraph.
Open Scope string_scope.
Open Scope list_scope.
Open Scope Z_scope.

(** A schema as an array of arrays of numbers and nulls; clues and weights as arrays of arrays. *)
Definition schema_json (s : list (list (option Z))) : json :=
  JList (map (fun row => JList (map (fun c => match c with Some n => JInt n | None => JNull end) row)) s).
Definition ints_json (l : list Z) : json := JList (map JInt l).
Definition rows_json (l : list (list Z)) : json := JList (map ints_json l).

(** An object with a member. *)
Definition member (v : json) (key : string) (w : json) : Prop := exists d, v = JObj d /\ In (key, w) d.
Definition no_member (v : json) (key : string) : Prop := exists d, v = JObj d /\ forall w, ~ In (key, w) d.

(** A document in the node-link format of an undirected graph: nodes and links may have further
    members. *)
Definition node_link (v : json) (ids : list string) (links : list (string * string)) : Prop :=
  member v "multigraph" (JBool false) /\ member v "directed" (JBool false) /\
  (exists ns, member v "nodes" (JList ns) /\ Forall2 (fun n x => member n "id" (JStr x)) ns ids) /\
  (exists ls, member v "links" (JList ls) /\ Forall2 (fun l p => member l "source" (JStr (fst p)) /\ member l "target" (JStr (snd p))) ls links).

(** The different elements of a list, in the order in which they come first. *)
Inductive firsts {A} : list A -> list A -> Prop :=
| fi_nil : firsts [] []
| fi_old l r x : firsts l r -> In x l -> firsts (l ++ [x]) r
| fi_new l r x : firsts l r -> ~ In x l -> firsts (l ++ [x]) (r ++ [x]).

(** The graph of such a document. *)
Definition adjacent (edges : list (string * string)) (x y : string) : Prop := In (x, y) edges \/ In (y, x) edges.
Definition link_graph (ids : list string) (links : list (string * string)) (nodes : list string) (edges : list (string * string)) : Prop :=
  is_graph nodes edges /\ firsts (ids ++ flat_map (fun p => [fst p; snd p]) links) nodes /\
  NoDup edges /\ forall x y, adjacent edges x y <-> adjacent links x y.

(** Output [ls] with [ms] inserted after its first [k] texts. *)
Definition insert_after (k : nat) (ms ls : list string) : list string := firstn k ls ++ ms ++ skipn k ls.

(** The output of a program without ([quiet]) and with [show_model] ([loud]), whose solver is made
    by [init]: if the program ends normally, the model of the solver is printed after the first
    [k] texts, with domain objects that have the right values. *)
Definition shows_model {A} (k : nat) (init : op A) (quiet loud : option (res (list string))) : Prop :=
  (forall ls, quiet = Some (Ok ls) -> exists obj e dom, construct init = Ok (obj, e) /\
     (forall x d, dget (m_vars (w_model (e_world e))) x = Some (VVar d) -> dvalues (dom x) = d) /\
     loud = Some (Ok (insert_after k (print_model dom (w_model (e_world e))) ls))) /\
  ((forall ls, quiet <> Some (Ok ls)) -> loud = quiet).

(** A program that prints [first] before its other output. *)
Definition preceded (first : list string) (r : option (res (list string))) : option (res (list string)) :=
  match r with Some (Ok ls) => Some (Ok (first ++ ls)) | _ => r end.
(** The announcement of the built-in data. *)
Definition announced (what source : string) : string :=
  ("No input " ++ what ++ ":" ++ String "010" (source ++ String "010" ""))%string.
