(** Specification: what a consumer may do to the program's objects between two solutions. *)
From Verif Require Import Solver SpecFormula SpecSolve.
Open Scope list_scope.
Open Scope Z_scope.

(** The parameter object [p] occurs in an expression. *)
Inductive uses (p : nat) : expr -> Prop :=
| use_par x : uses p (Param p x)
| use_neg e : uses p e -> uses p (Neg e)
| use_abs e : uses p e -> uses p (Abs e)
| use_not e : uses p e -> uses p (Not e)
| use_binl o l r : uses p l -> uses p (Bin o l r)
| use_binr o l r : uses p r -> uses p (Bin o l r)
| use_sum es c e : In e es -> uses p e -> uses p (Sum es c)
| use_prod es c e : In e es -> uses p e -> uses p (Prod es c).

(** The constraint object, and the parameter objects it refers to, have been created. *)
Definition created (w : world) (c : constraint) : Prop :=
  (c_id c < w_ncon w)%nat /\
  forall e p, c_body c = CExpr e -> uses p e -> (p < w_npar w)%nat.

(** Calls that build the model: everything but assigning parameters and compiling. *)
Definition builds (a : api) : Prop :=
  match a with SetParam _ _ | CompileConstraint _ => False | _ => True end.
(** Calls other than compiling a constraint, i.e. starting another enumeration. *)
Definition no_compile (a : api) : Prop :=
  match a with CompileConstraint _ => False | _ => True end.

(** The body of a [for] loop that makes the calls [h k s] after the [k]-th solution, [s]. *)
Definition calling (h : nat -> subst -> list api) : nat -> world -> subst -> res world :=
  fun k w s => Ok (run_history (h k s) w).

(** The calls made in a loop that received [ys], the first one being the [k]-th solution. *)
Fixpoint calls_made (h : nat -> subst -> list api) (k : nat) (ys : list subst) : list api :=
  match ys with [] => [] | s :: ys' => h k s ++ calls_made h (S k) ys' end.
