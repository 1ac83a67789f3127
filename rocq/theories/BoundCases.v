(** The programs of the examples of Properties_Bound.v. *)
From Verif Require Import Optimize OptimizeWatch SpecFormula SpecSafe SpecSolve SpecOptimize ExprFacts HistoryFacts SolverProps SolverCases
  OptimizeProps OptimizeCases SpecBound.
Open Scope string_scope.
Open Scope list_scope.
Open Scope Z_scope.

Definition bound_view (o : option (list visit * env * option exn)) :=
  match o with Some (vs, _, r) => Some (vs, r) | None => None end.

(** x, y, z in 0..1; the sum x + y is to be minimised. *)
Definition h_bound : list api := [AddInt [0; 1] (Some "x"); AddInt [0; 1] (Some "y"); AddInt [0; 1] (Some "z")].
Definition e_bound : env := new_env (run_history h_bound init_world).
Definition run_bound := optimize_watched clk0 noshuffle 100 e_bound sv_ord [OObj o_minxy] no_args.
Definition env_bound : env := match run_bound with Some (_, e', _) => e' | None => e_bound end.

Lemma bound_valid : opt_valid noshuffle e_bound [OObj o_minxy] no_args.
Proof.
  apply plain_valid; [intros B; cbn; auto|cbn; auto|]. intros o [E|[]]. inversion E. reflexivity.
Qed.

Lemma bound_faithful : objective_faithful (s_compile sv_ord) [OObj o_minxy].
Proof. intros _ o [E|[]]. inversion E. split; [reflexivity|vm_compute; lia]. Qed.

Lemma bound_run : optimize_watched clk0 noshuffle 100 e_bound sv_ord [OObj o_minxy] no_args = Some (
  [Extends []; Extends [("x", 0)]; Extends [("x", 0); ("y", 0)]; Finds [("x", 0); ("y", 0); ("z", 0)];
   Finds [("x", 0); ("y", 0); ("z", 1)];
   Extends [("x", 0); ("y", 1)]; Finds [("x", 0); ("y", 1); ("z", 0)]; Finds [("x", 0); ("y", 1); ("z", 1)];
   Extends [("x", 1)]],
  env_bound, None).
Proof. vm_compute. reflexivity. Qed.

Lemma bound_witness : exists clk shuffle f e sv o a pre t post e' l y p q,
  opt_valid shuffle e [OObj o] a /\ objective_faithful (s_compile sv) [OObj o] /\
  optimize_watched clk shuffle f e sv [OObj o] a = Some (pre ++ Extends t :: post, e', None) /\ e_interrupt e' = None /\
  several o /\ determined o t /\ found pre = l ++ [y] /\
  value_of (w_par (e_world e)) o t p /\ value_of (w_par (e_world e)) o y q /\ ~ better o p q.
Proof.
  exists clk0, noshuffle, 100%nat, e_bound, sv_ord, o_minxy, no_args,
    [Extends []; Extends [("x", 0)]; Extends [("x", 0); ("y", 0)]; Finds [("x", 0); ("y", 0); ("z", 0)];
     Finds [("x", 0); ("y", 0); ("z", 1)]],
    [("x", 0); ("y", 1)],
    [Finds [("x", 0); ("y", 1); ("z", 0)]; Finds [("x", 0); ("y", 1); ("z", 1)]; Extends [("x", 1)]],
    env_bound, [[("x", 0); ("y", 0); ("z", 0)]], [("x", 0); ("y", 0); ("z", 1)], 1, 0.
  split; [exact bound_valid|]. split; [exact bound_faithful|]. split; [exact bound_run|]. split; [vm_compute; reflexivity|].
  split. { exists "x", "y". split; [discriminate|]. split; apply vars_occurs; cbn; auto. }
  split. { intros x Hx. apply vars_occurs in Hx. cbn in Hx. cbn. tauto. }
  split; [reflexivity|]. split; [reflexivity|]. split; [reflexivity|]. unfold better. cbn. lia.
Qed.
