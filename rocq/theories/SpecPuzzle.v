(** Specification: what it means that a puzzle class enumerates exactly the objects
    accepted by a predicate. *)
From Verif Require Import Puzzle.
Open Scope list_scope.
Open Scope Z_scope.

(** [run fuel]: the results, the exception and the interrupt of one program run, when
    [fuel] suffices.  Whatever the options, the run ends without exception, its results
    satisfy [ok] and none comes twice; if [interrupt] is None they are all the objects
    satisfying [ok]; and the interrupt is None unless there is a timeout or a limit. *)
Definition exactly {B} (run : nat -> option (list B * option exn * option interrupt))
           (ok : B -> Prop) (timeout limit : lim) : Prop :=
  (exists fuel out, run fuel = Some out) /\
  forall fuel bs r i, run fuel = Some (bs, r, i) ->
    r = None /\
    (forall b, In b bs -> ok b) /\
    NoDup bs /\
    (i = None -> forall b, ok b -> In b bs) /\
    (i = Some ILimit -> exists n, limit = LNum n /\ n <= Z.of_nat (length bs)) /\
    (i = Some ITimeout -> exists t, timeout = LNum t) /\
    (forall n, limit = LNum n -> 1 <= n -> Z.of_nat (length bs) <= n).
