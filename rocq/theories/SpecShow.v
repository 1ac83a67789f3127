(** Specification: what the output of [print_model] says about a model. *)
From Verif Require Import DemoModel SpecFormula SpecSafe SpecText SpecSolve.
Open Scope string_scope.
Open Scope list_scope.
Open Scope Z_scope.

(** The output: each printed text is followed by a newline. *)
Fixpoint stdout (texts : list string) : string :=
  match texts with
  | [] => ""
  | t :: texts' => (t ++ String newline (stdout texts'))%string
  end.

(** What the names of the model denote. *)
Definition kinds_of (m : model) : kinds := fun x =>
  match dget (m_vars m) x with Some (VPar p) => Some p | _ => None end.

(** A model whose names are identifiers, made of expressions built with the operators, none of
    them only a name [True] or [False]; [dom] are the objects its domains were given as. *)
Definition showable (dom : name -> dobj) (m : model) : Prop :=
  NoDup (map fst (m_vars m)) /\
  (forall x, In x (map fst (m_vars m)) -> identifier x = true) /\
  (forall x d, is_variable m x d -> dvalues (dom x) = d) /\
  forall c, In c (m_cons m) ->
    match c_body c with
    | CConst _ => True
    | CExpr e => printable (kinds_of m) e /\
        forall x, e = Var x \/ (exists p, e = Param p x) -> x <> "True" /\ x <> "False"
    | CAllDiff xs => xs <> [] /\ forall x, In x xs -> identifier x = true
    end.

(** Parameters of the same name have the same value. *)
Definition same_parameters (m m' : model) (ps ps' : pstore) : Prop := forall x p p',
  In (x, VPar p) (m_vars m) -> In (x, VPar p') (m_vars m') -> ps p = ps' p'.

(** The same question: the same variables, in the same order, with the same domains; the same
    number of constraints, each with the same names and the same meaning as its counterpart. *)
Definition same_question (m m' : model) (ps ps' : pstore) : Prop :=
  map fst (m_vars m) = map fst (m_vars m') /\
  (forall x d, is_variable m x d <-> is_variable m' x d) /\
  Forall2 (fun c c' => (forall x, mentions c x <-> mentions c' x) /\ forall s, holds ps s c <-> holds ps' s c') (m_cons m) (m_cons m').
