(** Example loops over [solve] with objects. *)
From Coq Require Import Lia.
From Verif Require Import Solver SpecSolve SolverCases HeapSolver SpecHeap HeapFacts.
Open Scope string_scope.
Open Scope list_scope.
Open Scope Z_scope.

(** x in the list number 0, y in a tuple; the list number 1 belongs to the program. *)
Definition h_lists0 : list api :=
  [AddInt [1; 2] (Some "x"); AddInt [1; 2; 3] (Some "y"); AddConstraint (AExpr (Bin OLe (Var "x") (Var "y")))].
Definition e_lists : env := new_env (run_history h_lists0 init_world).
Definition home0 : dict dobj := [("x", Shared 0)].
Definition heap0 : heap := Heap (fun r => if Nat.eqb r 0 then [("mine", 7)] else []) 1 (fun r => if Nat.eqb r 0 then [1; 2] else if Nat.eqb r 1 then [5] else []) 2.
Definition own_list (r : nat) : Prop := r = 1%nat.
Definition none (r : nat) : Prop := False.

Lemma home0_ok H : h_nlists H = 2%nat -> homes home0 H.
Proof. intros E x r. unfold home0. cbn. destruct (String.eqb x "x"); [|discriminate]. intros Q. injection Q as <-. lia. Qed.
Lemma up_to_date0 : up_to_date home0 heap0 (e_world e_lists).
Proof.
  intros x d o Hx E. vm_compute in Hx. destruct Hx as [Q|[Q|[]]]; injection Q as <- <-; cbn in E; [|discriminate].
  injection E as <-. reflexivity.
Qed.
Lemma spare0 H : h_nlists H = 2%nat -> spare home0 H none own_list.
Proof.
  intros E. split; [intros r []|]. intros r ->. split; [lia|]. intros x. unfold home0. cbn. destruct (String.eqb x "x"); [|discriminate]. discriminate.
Qed.

(** The body empties all solutions received so far, counts in its own list and makes a list. *)
Definition wipe (given : list nat) (H : heap) : heap :=
  let H := fold_left (fun H r => set_dict H r []) given H in
  let H := set_list H 1 (Z.of_nat (List.length given) :: h_lists H 1) in
  snd (new_list H).

Lemma wipe_dicts given : forall H, let H' := fold_left (fun H r => set_dict H r []) given H in
  h_ndicts H' = h_ndicts H /\ h_nlists H' = h_nlists H /\ h_lists H' = h_lists H /\ (forall r, ~ In r given -> h_dicts H' r = h_dicts H r).
Proof.
  induction given as [|q given IH]; intros H; cbn; [auto|]. specialize (IH (set_dict H q [])). cbn zeta in IH.
  destruct IH as (A & B & C & D). rewrite A, B, C. repeat split; auto. intros r Hr. rewrite D by tauto. cbn. apply upd_ne. intros ->. tauto.
Qed.

Lemma wipe_own : changes_own none own_list wipe.
Proof.
  intros given H. unfold wipe. cbv zeta. destruct (wipe_dicts given H) as (A & B & C & D).
  set (K := fold_left (fun H r => set_dict H r []) given H) in *. cbn. rewrite A, B, C. repeat split; auto.
  intros r Hr Hn. rewrite upd_ne by lia. apply upd_ne. exact Hn.
Qed.

(** The body only collects. *)
Definition collect (given : list nat) (H : heap) : heap := H.
Lemma collect_own dicts lists : changes_own dicts lists collect.
Proof. intros given H. cbn. auto. Qed.

(** The body appends to the domain of x. *)
Definition extend (given : list nat) (H : heap) : heap := set_list H 0 (h_lists H 0 ++ [3]).
Lemma extend_own : changes_own none (fun r => r = 0%nat) extend.
Proof. intros given H. cbn. repeat split; auto. intros r _ Hr. apply upd_ne. exact Hr. Qed.

Definition contents (q : option (list (nat * subst) * heap * env * option exn)) : option (list (subst * subst) * list Z * list Z * option exn) :=
  match q with Some (ys, H, _, o) => Some (map (fun p => (snd p, h_dicts H (fst p))) ys, h_lists H 0, h_lists H 1, o) | None => None end.
Definition ordered : solver := Solver REVERSED LNone LNone true.
