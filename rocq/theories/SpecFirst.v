(** Specification: what the limits of a puzzle object leave of its results. *)
From Verif Require Import Puzzle.
Open Scope list_scope.
Open Scope Z_scope.

(** [run0] is the program without timeout and limit, [run] the same program with them.  The results
    of [run] are the first results of [run0]; they are all of them if nothing interrupted [run]; if
    the limit [n] interrupted it there are [n] of them (one if [n <= 0]); and without timeout, a limit
    [n >= 1] leaves the first [n] results, or all when there are fewer. *)
Definition cut {B} (run run0 : nat -> option (list B * option exn * option interrupt)) (timeout limit : lim) : Prop :=
  forall f f0 bs r i bs0 r0 i0, run f = Some (bs, r, i) -> run0 f0 = Some (bs0, r0, i0) ->
    i0 = None /\
    (exists rest, bs0 = bs ++ rest) /\
    (i = None -> bs = bs0) /\
    (i = Some ILimit -> exists n, limit = LNum n /\ Z.of_nat (length bs) = Z.max 1 n) /\
    (timeout = LNone \/ timeout = LInfinity -> forall n, limit = LNum n -> 1 <= n ->
       bs = firstn (Z.to_nat n) bs0 /\ (i = Some ILimit <-> Z.of_nat (length bs) = n)).

(** The same options without timeout and limit. *)
Definition unbounded (o : options) : options := Options (o_policy o) LInfinity LInfinity (o_compile o).
