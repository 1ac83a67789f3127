(** Concrete searches for nonograms. *)
From Verif Require Import NonogramWatch SpecNonogram SpecRuns SpecSolve NameFacts SolverCases.
Open Scope string_scope.
Open Scope list_scope.
Open Scope Z_scope.

Definition corner_rows : list (list Z) := [[2]; [1]].
Definition corner_cols : list (list Z) := [[1]; [2]].
Lemma corner_case : positive_clues corner_rows /\ positive_clues corner_cols /\
  nonogram_watched clk0 noshuffle 100 corner_rows corner_cols default_options =
    Some ([[]; [("r0_0", 0)]; [("r0_0", 0); ("c1_0", 0)]; [("r0_0", 0); ("c1_0", 0); ("r1_0", 1)]],
          [[("r0_0", 0); ("c1_0", 0); ("r1_0", 1); ("c0_0", 0)]], None, None).
Proof.
  split; [|split; [|vm_compute; reflexivity]]; intros l [<-|[<-|[]]] k [<-|[]]; lia.
Qed.

Definition check_rows : list (list Z) := [[1; 1]; [1; 1]].
Definition check_cols : list (list Z) := [[1]; [1]; [1]; [1]].
Definition check_t : subst := [("c3_0", 1); ("c2_0", 1); ("c1_0", 0); ("c0_0", 0); ("r1_1", 3)].
Definition reversed : options := Options (Some REVERSED) LNone LNone true.

Lemma check_contradictory : contradictory check_rows check_cols check_t.
Proof.
  exists 1%nat, 2%nat. split; [cbn; lia|]. split; [cbn; lia|]. split; [|split].
  - intros [|[|k]] Hk Hc; cbn in Hk; [cbn in Hc; lia| |lia]. exists 3. unfold row_at. cbn. auto 10.
  - intros [|k] Hk Hc; cbn in Hk; [|lia]. exists 1. unfold col_at. cbn. auto 10.
  - intros [_ H].
    assert (Hb : black (nth 2 check_cols []) (col_at check_t 2) (Z.of_nat 1)).
    { exists 0%nat, 1. split; [unfold col_at; cbn; auto 10|cbn; lia]. }
    destruct (H Hb) as (k & v & Hin & Hc). unfold row_at in Hin.
    destruct Hin as [E|[E|[E|[E|[E|[]]]]]]; pose proof (f_equal fst E) as E1; pose proof (f_equal snd E) as E2; cbn [fst snd] in E1, E2; try discriminate E1.
    change "r1_1" with (name2 "r" 1 1) in E1. apply name2_inj in E1. destruct E1 as [_ <-]. subst v. cbn in Hc. lia.
Qed.

Lemma check_refuted : exists rows cols f ts ys t, positive_clues rows /\ positive_clues cols /\ len ys = 2 /\
  nonogram_watched clk0 noshuffle f rows cols reversed = Some (ts, ys, None, None) /\ In t ts /\ contradictory rows cols t.
Proof.
  exists check_rows, check_cols, 900%nat.
  destruct (nonogram_watched clk0 noshuffle 900 check_rows check_cols reversed) as [[[[ts ys] r] i]|] eqn:E; [|vm_compute in E; discriminate].
  assert (H : match nonogram_watched clk0 noshuffle 900 check_rows check_cols reversed with
    | Some (ts, ys, None, None) => ((len ys =? 2) && existsb (fun t => if list_eq_dec (fun p q : name * Z => ltac:(decide equality; [apply Z.eq_dec|apply string_dec])) t check_t then true else false) ts)%bool
    | _ => false end = true) by (vm_compute; reflexivity).
  rewrite E in H. destruct r; [discriminate|]. destruct i; [discriminate|]. apply andb_true_iff in H. destruct H as [H1 H2]. apply Z.eqb_eq in H1.
  apply existsb_exists in H2. destruct H2 as (t & Ht & Et). destruct (list_eq_dec _ t check_t) as [->|]; [|discriminate].
  exists ts, ys, check_t. split; [intros l [<-|[<-|[]]] k Hk; cbn in Hk; intuition lia|].
  split; [intros l [<-|[<-|[<-|[<-|[]]]]] k [<-|[]]; lia|]. split; [exact H1|]. split; [reflexivity|]. split; [exact Ht|exact check_contradictory].
Qed.
