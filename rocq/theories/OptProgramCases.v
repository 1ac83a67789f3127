(** An example program with optimizations. *)
From Verif Require Import Solver Optimize Program OptProgram SpecSolve SpecIsolation SpecInterleave SolverCases SpecOptimize SpecProgram SpecOptProgram ProgramCases OptProgramTotal.
Open Scope string_scope.
Open Scope list_scope.
Open Scope Z_scope.

(** x + y < p with p = 6, maximize x + y; minimize x and maximize y. *)
Definition largest : oarg := OObj (Objective (Bin OAdd (Var "x") (Var "y")) true).
Definition first_x : oarg := OObj (Objective (Var "x") false).
Definition last_y : oarg := OObj (Objective (Bin OSub (Var "y") (Param 0 "p")) true).
Definition obuild : list oaction :=
  map Plain [NewModel; Call 0 (AddInt [1; 2; 3] (Some "x")); Call 0 (AddInt [1; 2; 3] (Some "y")); Call 0 (AddParameter 6 (Some "p"));
   Call 0 (AddConstraint (AExpr (Bin OLt (Bin OAdd (Var "x") (Var "y")) (Param 0 "p")))); NewSolver GROUPS LNone LNone true] ++
  [Optimize 0 0 [largest] no_args; Plain (Solve 0 0 no_args); Optimize 0 0 [first_x; last_y] no_args].
Definition omixed : list oaction :=
  map Plain [Next 0; Next 1; Next 2; Call 0 (AddInt [7] None); Next 0; Next 1; SetLimit 0 (LNum 1); Next 2; Next 0; Next 1; Next 0; Next 2; Next 0].

Definition oafter (xs : list oaction) : oprog := match orun clk0 (fun _ => noshuffle) 100 init_oprog xs with Some (_, q) => q | None => init_oprog end.
Definition q_before : oprog := oafter obuild.
Definition olog : list (oaction * outcome) := match orun clk0 (fun _ => noshuffle) 100 q_before omixed with Some (l, _) => l | None => [] end.

Definition obodies (id : nat) : cbody :=
  match id with
  | O => CExpr (Bin OLt (Bin OAdd (Var "x") (Var "y")) (Param 0 "p"))
  | S O => CExpr (Bin OOr (Param 1 "_p3") (Bin OGt (Bin OAdd (Var "x") (Var "y")) (Param 2 "_p4")))
  | S (S O) => CExpr (Bin OOr (Param 3 "_p5") (Bin OGt (Param 4 "_p6") (Var "x")))
  | _ => CExpr (Bin OOr (Param 5 "_p7") (Bin OGt (Bin OSub (Var "y") (Param 0 "p")) (Param 6 "_p8")))
  end.

(** No generator is in the loop of an optimization. *)
Lemma nothing_hidden q r : (forall h s i g oms, q_handles q h <> HOptimize s i (ORun g oms)) -> ~ hidden q r.
Proof. intros H (h & s & i & g & oms & o & m & E & _). exact (H _ _ _ _ _ E). Qed.

Fixpoint steps_proper (B : nat -> cbody) (pre xs : list oaction) : Prop :=
  match xs with
  | [] => True
  | x :: xs' => oproper B (oafter pre) x /\ steps_proper B (pre ++ [x]) xs'
  end.

Lemma orun_snoc clk shuffle f xs x : forall q log q1 q' o, orun clk shuffle f q xs = Some (log, q1) -> ostep clk shuffle f q1 x = Some (q', o) ->
  orun clk shuffle f q (xs ++ [x]) = Some (log ++ [(x, o)], q').
Proof.
  induction xs as [|y xs IH]; intros q log q1 q' o H1 H2; cbn [app orun] in *; [injection H1 as <- <-; rewrite H2; reflexivity|].
  destruct (ostep clk shuffle f q y) as [[q2 o2]|]; [|discriminate]. destruct (orun clk shuffle f q2 xs) as [[l q3]|] eqn:E; [|discriminate].
  injection H1 as <- <-. rewrite (IH _ _ _ _ _ E H2). reflexivity.
Qed.

Lemma steps_run B xs : forall pre log q, orun clk0 (fun _ => noshuffle) 100 init_oprog pre = Some (log, q) -> steps_proper B pre xs ->
  oproper_run clk0 (fun _ => noshuffle) 100 B q xs.
Proof.
  induction xs as [|x xs IH]; intros pre log q H Hs; cbn [oproper_run steps_proper] in *; [exact Logic.I|]. destruct Hs as [H1 H2].
  assert (E : oafter pre = q) by (unfold oafter; now rewrite H). rewrite E in H1. split; [exact H1|].
  destruct (ostep clk0 (fun _ => noshuffle) 100 q x) as [[q' o]|] eqn:Es; [|exact Logic.I]. eapply IH; [|exact H2]. eapply orun_snoc; eauto.
Qed.

Ltac visible_literal :=
  let r := fresh "r" in let H := fresh "H" in intros r H;
  repeat match goal with H : uses _ _ |- _ => inversion H; subst; clear H end;
  (split; [vm_compute; repeat constructor|apply nothing_hidden; intros [|[|[|k]]]; intros; vm_compute; discriminate]).

Ltac started_literal :=
  let E := fresh "E" in let E1 := fresh "E" in let Em := fresh "E" in let Hin := fresh "H" in
  intros ? ? os a os1 os2 w oms o m E E1 Em Hin; vm_compute in E; try discriminate E; injection E as <- <- <- <-;
  repeat (destruct os1 as [|? os1]; [|cbn [app] in E1; injection E1 as <- E1 || discriminate E1]);
  apply (f_equal snd) in Em; vm_compute in Em; injection Em as <-; cbn [In] in Hin;
  repeat (destruct Hin as [Hin|Hin]; [injection Hin as <- <-; reflexivity|]); contradiction.

Ltac optimize_literal :=
  split; [intros ? []|]; let E := fresh "E" in intros ? E; vm_compute in E;
  repeat (destruct E as [E|E]; [injection E as <-; visible_literal|]); contradiction.

Ltac plain_literal :=
  split; [proper_literal|first [exact Logic.I|visible_literal|intros ? []]].

Ltac oproper_literal :=
  apply (steps_run _ _ [] []); [reflexivity|]; cbn [steps_proper app]; repeat (split; [cbn [oproper]; first [started_literal|optimize_literal|plain_literal]|]); exact Logic.I.

Lemma oproper_case : oproper_run clk0 (fun _ => noshuffle) 100 obodies init_oprog (obuild ++ omixed).
Proof. unfold obuild, omixed. cbn [map app]. oproper_literal. Qed.

(** The same program with a solver that does not compile. *)
Definition obuild_plain : list oaction :=
  map Plain [NewModel; Call 0 (AddInt [1; 2; 3] (Some "x")); Call 0 (AddInt [1; 2; 3] (Some "y")); Call 0 (AddParameter 6 (Some "p"));
   Call 0 (AddConstraint (AExpr (Bin OLt (Bin OAdd (Var "x") (Var "y")) (Param 0 "p")))); NewSolver GROUPS LNone LNone false] ++
  [Optimize 0 0 [largest] no_args; Plain (Solve 0 0 no_args); Optimize 0 0 [first_x; last_y] no_args].
Definition q_plain : oprog := oafter obuild_plain.

Lemma oproper_plain : oproper_run clk0 (fun _ => noshuffle) 100 obodies init_oprog (obuild_plain ++ omixed).
Proof. unfold obuild_plain, omixed. cbn [map app]. oproper_literal. Qed.

(** The number of steps does not matter, if it suffices. *)
Lemma oproper_any clk shuffle f f' B xs : forall q log q', orun clk shuffle f q xs = Some (log, q') -> oproper_run clk shuffle f B q xs -> oproper_run clk shuffle f' B q xs.
Proof.
  induction xs as [|x xs IH]; intros q log q' H Hp; [exact Hp|]. cbn [oproper_run orun] in *. destruct Hp as [H1 H2]. split; [exact H1|].
  destruct (ostep clk shuffle f q x) as [[q1 o]|] eqn:E; [|discriminate].
  destruct (orun clk shuffle f q1 xs) as [[log1 q2]|] eqn:Er; [|discriminate].
  destruct (ostep clk shuffle f' q x) as [[q1' o']|] eqn:E'; [|exact Logic.I].
  apply (ostep_mono clk shuffle f f') in E. apply (ostep_mono clk shuffle f' f) in E'. rewrite Nat.add_comm in E'. rewrite E in E'. injection E' as <- <-.
  eapply IH; eauto.
Qed.

Lemma oproper_every f : oproper_run clk0 (fun _ => noshuffle) f obodies init_oprog (obuild ++ omixed).
Proof.
  destruct (orun clk0 (fun _ => noshuffle) 100 init_oprog (obuild ++ omixed)) as [[log q]|] eqn:E; [exact (oproper_any _ _ _ f _ _ _ _ _ E oproper_case)|].
  apply (f_equal (fun r => match r with None => true | Some _ => false end)) in E. vm_compute in E. discriminate.
Qed.
