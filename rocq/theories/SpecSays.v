(** Specification: what constraints compiled to Python text require. *)
From Verif Require Import Solver SpecSolve SpecReading.
Open Scope list_scope.
Open Scope Z_scope.

(** A compiled constraint, according to its text. *)
Definition says (ps : pstore) (s : subst) (c : constraint) : Prop :=
  match c_body c with
  | CExpr e => exists v, text_value ps s e v /\ v <> 0
  | _ => holds ps s c
  end.

Definition all_readable (cs : list constraint) : Prop :=
  forall c e, In c cs -> c_body c = CExpr e -> readable e = true.

(** No evaluation of the text of a constraint raises, for values taken from the domains. *)
Definition no_text_error (ps : pstore) (m : model) (cs : list constraint) : Prop :=
  forall c e s, In c cs -> c_body c = CExpr e -> concerns m c ->
    (forall x v, In (x, v) s -> exists d, is_variable m x d /\ In v d) ->
    (forall x, mentions c x -> In x (map fst s)) ->
    exists v, text_value ps s e v.
