(** Specification: the order in which each selection policy visits the variables. *)
From Coq Require Import Permutation.
From Verif Require Import Solver SpecSolve.
Open Scope list_scope.
Open Scope Z_scope.

(** [x] comes before [y] in [l]. *)
Definition comes (l : list name) (x y : name) : Prop := exists l1 l2 l3, l = l1 ++ x :: l2 ++ y :: l3.

(** [order] has the names of [names], sorted by [key]; names with the same key are in the
    order of [names]. *)
Definition sorts {K} (lt : K -> K -> Prop) (key : name -> K) (names order : list name) : Prop :=
  Permutation order names /\
  forall x y, comes order x y -> lt (key x) (key y) \/ (key x = key y /\ comes names x y).

Definition lex3 (a b : Z * Z * Z) : Prop :=
  let '(a1, a2, a3) := a in let '(b1, b2, b3) := b in
  a1 < b1 \/ (a1 = b1 /\ (a2 < b2 \/ (a2 = b2 /\ a3 < b3))).

(** How many elements satisfy [P]; the sum of the numbers related to the elements. *)
Inductive tally {A} (P : A -> Prop) : list A -> Z -> Prop :=
| tally_nil : tally P [] 0
| tally_yes a l n : P a -> tally P l n -> tally P (a :: l) (1 + n)
| tally_no a l n : ~ P a -> tally P l n -> tally P (a :: l) n.
Inductive summed {A} (R : A -> Z -> Prop) : list A -> Z -> Prop :=
| summed_nil : summed R [] 0
| summed_cons a l k n : R a k -> summed R l n -> summed R (a :: l) (k + n).

Definition all_different (c : constraint) : Prop := exists xs, c_body c = CAllDiff xs.
Definition several (c : constraint) : Prop := exists x y, x <> y /\ mentions c x /\ mentions c y.

(** The number of values of the declared domain. *)
Definition domain_size (m : model) (x : name) : Z := len (declared m x).
(** The number of constraints on [x] and at least another name, not counting all-different ones. *)
Definition degree (cs : list constraint) (x : name) (n : Z) : Prop :=
  tally (fun c => ~ all_different c /\ several c /\ mentions c x) cs n.
(** The other names of a constraint on [x]. *)
Definition others (x : name) (c : constraint) (n : Z) : Prop :=
  (mentions c x /\ exists l, NoDup l /\ (forall y, In y l <-> mentions c y /\ y <> x) /\ n = len l) \/
  (~ mentions c x /\ n = 0).
(** The number of the first all-different constraint on [x], or -1. *)
Definition first_group (cs : list constraint) (x : name) (n : Z) : Prop :=
  (n = -1 /\ forall c, In c cs -> all_different c -> ~ mentions c x) \/
  exists cs1 c cs2, cs = cs1 ++ c :: cs2 /\ all_different c /\ mentions c x /\
    (forall c', In c' cs1 -> all_different c' -> ~ mentions c' x) /\ tally all_different cs1 n.
(** First the first group, then the total number of other names in the constraints on [x], then the
    size of the domain. *)
Definition group_key (m : model) (cs : list constraint) (x : name) (k : Z * Z * Z) : Prop :=
  let '(g, b, d) := k in first_group cs x g /\ summed (others x) cs b /\ d = domain_size m x.

(** The order of visit of each policy. *)
Definition visits (shuffle : list name -> list name) (p : policy) (m : model) (cs : list constraint) (order : list name) : Prop :=
  let names := variables_of m in
  match p with
  | ORDERED => order = names
  | REVERSED => order = rev names
  | RANDOM => order = shuffle names
  | MIN_BOUND => sorts Z.lt (domain_size m) names order
  | MAX_BOUND => sorts Z.gt (domain_size m) names order
  | MIN_CONSTRAINT => exists key, (forall x, degree cs x (key x)) /\ sorts Z.lt key names order
  | MAX_CONSTRAINT => exists key, (forall x, degree cs x (key x)) /\ sorts Z.gt key names order
  | GROUPS => exists key, (forall x, In x names -> group_key m cs x (key x)) /\ sorts lex3 key (rev names) order
  end.

(** ** Timeout *)

(** Each reading of the clock between [b] and [c] found that the search, which had lasted [el] and
    was resumed at reading [b], had not lasted more than [t]. *)
Definition in_time (clk : nat -> Z) (t el : Z) (b c : nat) : Prop :=
  forall j, (b < j < c)%nat -> el + (clk j - clk b) <= t.
(** A search with timeout [t], from reading [b]: one pair of readings, start and stop, for each
    solution, with at least a reading in between; after the stop of a solution, the search is
    resumed with the next reading; and every other reading before [last] was in time. *)
Fixpoint timely (clk : nat -> Z) (t el : Z) (b : nat) (segs : list (nat * nat)) (last : nat) : Prop :=
  match segs with
  | [] => in_time clk t el b last
  | (b', c) :: segs' => b' = b /\ (S b < c)%nat /\ in_time clk t el b c /\
      timely clk t (el + (clk c - clk b)) (S c) segs' last
  end.
Fixpoint resumed (b : nat) (segs : list (nat * nat)) : nat :=
  match segs with [] => b | (_, c) :: segs' => resumed (S c) segs' end.
