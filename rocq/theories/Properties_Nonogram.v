(** Properties of NonogramSolver and pixmap_to_nonogram. *)
From Verif Require Import Nonogram SpecPuzzle SpecNonogram SpecSolve NonogramFacts.
Open Scope string_scope.
Open Scope list_scope.
Open Scope Z_scope.

(** C46: for clues made of positive lengths, with at least one run, exactly the pixmaps
    matching the clues are enumerated, each once. *)
Theorem C46_pixmaps : forall clk shuffle rows cols o,
  positive_clues rows -> positive_clues cols -> (exists l, In l (rows ++ cols) /\ l <> []) -> shuffles shuffle ->
  exactly (fun fuel => nonogram_run clk shuffle fuel rows cols o) (matches rows cols) (o_timeout o) (o_limit o).
Proof. intros clk shuffle rows cols o. exact (nonogram_exact rows cols clk shuffle o). Qed.
Print Assumptions C46_pixmaps.

(** The clues of a picture with two solutions, and of a picture with one. *)
Example C46_case :
  nonogram_run (fun _ => 0) (fun l => l) 2000 [[1]; [1]] [[1]; [1]] (Options None LNone LNone true) =
    Some ([[[1; 0]; [0; 1]]; [[0; 1]; [1; 0]]], None, None) /\
  nonogram_run (fun _ => 0) (fun l => l) 5000 [[3]; [1; 1]; [3]; []] [[3]; [1; 1]; [3]; []] (Options None LNone LNone true) =
    Some ([[[1; 1; 1; 0]; [1; 0; 1; 0]; [1; 1; 1; 0]; [0; 0; 0; 0]]], None, None) /\
  positive_clues [[3]; [1; 1]; [3]; []].
Proof.
  split; [vm_compute; reflexivity|]. split; [vm_compute; reflexivity|].
  intros l Hl k Hk. cbn in Hl. repeat (destruct Hl as [<-|Hl]; [cbn in Hk; intuition lia|]). contradiction.
Qed.

(** Clues that do not fit have no solution. *)
Example C46_too_long_case :
  nonogram_run (fun _ => 0) (fun l => l) 100 [[3]] [[1]; [1]] (Options None LNone LNone true) = Some ([], None, None).
Proof. vm_compute. reflexivity. Qed.

(** C46: without any run the blank pixmap matches, but is not found. *)
Theorem C46_blank_refuted : exists clk shuffle rows cols o fuel,
  shuffles shuffle /\ positive_clues rows /\ positive_clues cols /\ matches rows cols [[0; 0]] /\
  nonogram_run clk shuffle fuel rows cols o = Some ([], None, None).
Proof.
  exists (fun _ => 0), (fun l => l), [[]], [[]; []], (Options None LNone LNone true), 100%nat.
  assert (Hp : forall ls : list (list Z), (forall l, In l ls -> l = []) -> positive_clues ls) by (intros ls H l Hl k Hk; rewrite (H l Hl) in Hk; contradiction).
  split; [intros l; apply Permutation.Permutation_refl|]. split; [apply Hp; cbn; intuition congruence|]. split; [apply Hp; cbn; intuition congruence|].
  split; [|vm_compute; reflexivity]. split; [|split; [|split]].
  - intros row [<-|[]] v Hv. cbn in Hv. intuition.
  - split; [reflexivity|]. intros row [<-|[]]. reflexivity.
  - intros r Hr. cbn in Hr. assert (r = 0) as -> by lia. exists []. split; [exact Logic.I|]. intros c Hc. cbn in Hc.
    assert (c = 0 \/ c = 1) as [->| ->] by lia; cbn; intuition.
  - intros c Hc. cbn in Hc. assert (c = 0 \/ c = 1) as [->| ->] by lia; exists []; (split; [exact Logic.I|]); intros r Hr; cbn in Hr;
      assert (r = 0) as -> by lia; cbn; intuition.
Qed.
Print Assumptions C46_blank_refuted.

(** C46: with a run of length zero the same pixmap comes several times. *)
Theorem C46_zero_refuted : exists clk shuffle rows cols o fuel b,
  shuffles shuffle /\ nonogram_run clk shuffle fuel rows cols o = Some ([b; b; b], None, None).
Proof.
  exists (fun _ => 0), (fun l => l), [[0]], [[]; []], (Options None LNone LNone true), 100%nat, [[0; 0]].
  split; [intros l; apply Permutation.Permutation_refl|]. vm_compute. reflexivity.
Qed.
Print Assumptions C46_zero_refuted.

(** C47: the clues computed for a rectangular pixmap are positive and list the runs of
    every row and column. *)
Theorem C47_runs : forall nr nc b, rectangular nr nc b -> (b = [] -> nc = 0%nat) ->
  exists rows cols, pixmap_to_nonogram b = Ok (rows, cols) /\ length rows = nr /\ length cols = nc /\
    positive_clues rows /\ positive_clues cols /\ clues_of b rows cols.
Proof. exact pixmap_clues. Qed.
Print Assumptions C47_runs.

(** C47: there are no other clues for it. *)
Theorem C47_unique : forall b rows cols rows' cols', clues_of b rows cols -> clues_of b rows' cols' ->
  length rows = length rows' -> length cols = length cols' -> rows = rows' /\ cols = cols'.
Proof. exact clues_unique. Qed.
Print Assumptions C47_unique.

Example C47_case :
  pixmap_to_nonogram [[1; 0; 1; 1; 0]; [0; 0; 0; 0; 0]; [0; 7; 0; 1; 1]] =
    Ok ([[1; 2]; []; [1; 2]], [[1]; [1]; [1]; [1; 1]; [1]]) /\
  rectangular 3 5 [[1; 0; 1; 1; 0]; [0; 0; 0; 0; 0]; [0; 7; 0; 1; 1]].
Proof. split; [vm_compute; reflexivity|]. split; [reflexivity|]. intros row H. cbn in H. intuition; now subst. Qed.

(** C47: solving the clues of a black and white pixmap that is not blank enumerates exactly
    the pixmaps with these clues, and it is one of them. *)
Theorem C47_round_trip : forall clk shuffle o nr nc b, rectangular nr nc b -> black_white b ->
  (exists r c, 0 <= r < Z.of_nat nr /\ 0 <= c < Z.of_nat nc /\ pixel b r c <> 0) -> shuffles shuffle ->
  exists rows cols, pixmap_to_nonogram b = Ok (rows, cols) /\
    exactly (fun fuel => nonogram_run clk shuffle fuel rows cols o) (matches rows cols) (o_timeout o) (o_limit o) /\
    matches rows cols b.
Proof. exact round_trip. Qed.
Print Assumptions C47_round_trip.

Example C47_round_trip_case :
  let b := [[1; 1; 0]; [0; 0; 1]] in
  (let! p := pixmap_to_nonogram b in
   Ok (nonogram_run (fun _ => 0) (fun l => l) 2000 (fst p) (snd p) (Options None LNone LNone true))) =
    Ok (Some ([b; [[0; 1; 1]; [1; 0; 0]]], None, None)) /\ rectangular 2 3 b /\ black_white b /\ pixel b 1 2 = 1.
Proof.
  split; [vm_compute; reflexivity|]. split; [split; [reflexivity|]|split; [|reflexivity]]; intros row H; cbn in H.
  - intuition; now subst.
  - intros v Hv. destruct H as [<-|[<-|[]]]; cbn in Hv; intuition.
Qed.

(** C47: a pixmap with rows of different lengths is rejected with an IndexError. *)
Theorem C47_ragged : forall b row row', In row b -> In row' b -> (length row < length row')%nat ->
  pixmap_to_nonogram b = Err IndexError.
Proof. exact ragged. Qed.
Print Assumptions C47_ragged.

Example C47_ragged_case : pixmap_to_nonogram [[1; 0]; [1]] = Err IndexError.
Proof. vm_compute. reflexivity. Qed.
