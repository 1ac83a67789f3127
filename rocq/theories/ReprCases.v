(** For the examples of [repr]: which names are parameters, and tactics for literals. *)
From Verif Require Import Repr SpecDemo SpecRepr.
Open Scope string_scope.
Open Scope list_scope.
Open Scope Z_scope.

Definition two_kinds (x : name) : option nat := if String.eqb x "p" then Some 3%nat else None.
Ltac ascii_literal := let c := fresh "c" in let H := fresh "H" in intros c H; repeat (destruct H as [<-|H]; [vm_compute; repeat constructor|]); contradiction.
Ltac named_literal := cbv zeta; repeat match goal with
  | |- named _ _ => constructor
  | |- Forall _ _ => constructor
  | |- ascii_only _ => ascii_literal
  | |- _ = _ => reflexivity
  end.
Ltac parts := intros e' H; repeat match goal with
  | H : In _ [] |- _ => destruct H
  | H : In _ (_ :: _) |- _ => destruct H as [<-|H]
  | H : inside _ _ |- _ => inversion H; subst; clear H
  end; cbn; auto.
