(** Properties of AsciiMapColoringSolver. *)
From Coq Require Import Ascii Permutation.
From Verif Require Import AsciiMap SpecPuzzle SpecAscii SpecSolve AsciiGroups AsciiFacts PuzzleCuts.
Open Scope string_scope.
Open Scope list_scope.
Open Scope Z_scope.

(** C53: the groups are the regions of the map (cells with the same character, neither a blank
    nor a dot, connected also diagonally), in reading order, and the edges link the regions that
    touch, whatever the order in which sets of cells are iterated. *)
Theorem C53_regions : forall lines order gfuel, lines <> [] -> (forall l, Permutation (order l) l) ->
  (length (concat lines) < gfuel)%nat ->
  exists groups, ascii_groups gfuel order lines = Some (Ok groups) /\ regions lines groups /\ region_edges groups (group_edges groups).
Proof. exact regions_edges. Qed.
Print Assumptions C53_regions.

Example C53_regions_case :
  ascii_groups 100 (@rev point) [list_ascii_of_string "aab"; list_ascii_of_string "b.b c"; []; list_ascii_of_string "    c"] =
    Some (Ok [[(0, 0); (0, 1)]; [(0, 2); (1, 2)]; [(1, 0)]; [(1, 4)]; [(3, 4)]]) /\
  group_edges [[(0, 0); (0, 1)]; [(0, 2); (1, 2)]; [(1, 0)]; [(1, 4)]; [(3, 4)]] = [(0, 1); (0, 2)]%nat /\
  forall l : list point, Permutation (rev l) l.
Proof. split; [vm_compute; reflexivity|]. split; [vm_compute; reflexivity|]. intros l. apply Permutation_sym, Permutation_rev. Qed.

(** C53: the regions of a map are determined by the map, so that the next theorem can be stated
    for any list of them. *)
Theorem C53_regions_unique : forall lines g1 g2, regions lines g1 -> regions lines g2 ->
  forall i p, member g1 i p <-> member g2 i p.
Proof. exact regions_unique. Qed.
Print Assumptions C53_regions_unique.

(** C53: for every map with a region and all lists of distinct colours, the drawings are exactly
    the colourings of the regions in which touching regions differ; at most one is drawn unless
    another limit is given. *)
Theorem C53_colourings : forall clk shuffle order lines groups colors o gfuel,
  regions lines groups -> groups <> [] -> NoDup colors ->
  shuffles shuffle -> (forall l, Permutation (order l) l) -> (length (concat lines) < gfuel)%nat ->
  exactly (fun fuel => ascii_run clk shuffle fuel gfuel order lines colors o) (map_colouring lines groups colors)
    (o_timeout o) (match o_limit o with LNone => Solver.LNum 1 | l => l end).
Proof. exact ascii_exact. Qed.
Print Assumptions C53_colourings.

Example C53_case :
  let lines := [list_ascii_of_string "aa b"; list_ascii_of_string "bb"] in
  (exists groups, regions lines groups /\ groups <> []) /\ NoDup ["red"; "blue"] /\
  ascii_run (fun _ => 0) (fun l => l) 1000 100 (fun l => l) lines ["red"; "blue"] (Options None LNone (Solver.LNum 3) false) =
    Some ([[[Some ("0"%char, "red"); Some ("0"%char, "red"); None; Some ("1"%char, "red")]; [Some ("2"%char, "blue"); Some ("2"%char, "blue")]];
           [[Some ("0"%char, "red"); Some ("0"%char, "red"); None; Some ("1"%char, "blue")]; [Some ("2"%char, "blue"); Some ("2"%char, "blue")]];
           [[Some ("0"%char, "blue"); Some ("0"%char, "blue"); None; Some ("1"%char, "red")]; [Some ("2"%char, "red"); Some ("2"%char, "red")]]], None, Some ILimit).
Proof.
  split; [|split].
  - destruct (regions_found [list_ascii_of_string "aa b"; list_ascii_of_string "bb"] (fun l => l) 100) as (g & E & R);
      [discriminate|intros l; apply Permutation_refl|apply Nat.ltb_lt; reflexivity|]. vm_compute in E. injection E as <-. eexists. split; [exact R|discriminate].
  - repeat constructor; cbn; intros H; repeat (destruct H as [H|H]; [discriminate|]); exact H.
  - vm_compute. reflexivity.
Qed.

(** C53: unless another policy is given, the drawings come in lexicographic order: regions in the
    order in which a reader meets them, colours in the order in which they are listed.  In
    particular the single drawing of the default limit is the first one. *)
Theorem C53_order : forall lines groups colors order gfuel clk shuffle,
  regions lines groups -> groups <> [] -> NoDup colors -> shuffles shuffle -> (forall l, Permutation (order l) l) -> (length (concat lines) < gfuel)%nat ->
  forall o fuel ms r i, o_policy o = None \/ o_policy o = Some ORDERED ->
  ascii_run clk shuffle fuel gfuel order lines colors o = Some (ms, r, i) ->
  ForallOrdPairs (earlier_drawing groups colors) ms /\
  forall m m', In m ms -> map_colouring lines groups colors m' -> In m' ms \/ earlier_drawing groups colors m m'.
Proof. exact ascii_first. Qed.
Print Assumptions C53_order.

Example C53_order_case :
  let lines := [list_ascii_of_string "ab"] in
  regions lines [[(0, 0)]; [(0, 1)]] /\
  ascii_run (fun _ => 0) (fun l => l) 1000 100 (fun l => l) lines ["red"; "blue"] default_options =
    Some ([[[Some ("0"%char, "red"); Some ("1"%char, "blue")]]], None, Some ILimit) /\
  earlier_drawing [[(0, 0)]; [(0, 1)]] ["red"; "blue"] [[Some ("0"%char, "red"); Some ("1"%char, "blue")]] [[Some ("0"%char, "blue"); Some ("1"%char, "red")]].
Proof.
  split; [|split; [vm_compute; reflexivity|]].
  - destruct (regions_found [list_ascii_of_string "ab"] (fun l => l) 100) as (g & E & R);
      [discriminate|intros l; apply Permutation_refl|apply Nat.ltb_lt; reflexivity|]. vm_compute in E. injection E as <-. exact R.
  - exists 0%nat, "red", "blue", 0%nat, 1%nat. split; [cbn; lia|]. split; [intros; lia|]. split; [|repeat split; auto].
    intros p (g & E & Hp). injection E as <-. destruct Hp as [<-|[]]. split; eexists; cbn; repeat split; reflexivity || lia.
Qed.

(** C53: a map given as a string is split into its lines. *)
Theorem C53_lines : forall s, lines_of s (split_lines s).
Proof. exact split_lines_of. Qed.
Print Assumptions C53_lines.

Example C53_lines_case : split_lines ("ab" ++ String (ascii_of_nat 10) ("c" ++ String (ascii_of_nat 10) "")) = [["a"; "b"]; ["c"]; []]%char.
Proof. reflexivity. Qed.

(** C53: a map without regions has one drawing, the blank one, which is not produced. *)
Theorem C53_blank_refuted : exists lines groups colors m,
  regions lines groups /\ NoDup colors /\ map_colouring lines groups colors m /\
  ascii_run (fun _ => 0) (fun l => l) 1000 100 (fun l => l) lines colors default_options = Some ([], None, None).
Proof.
  destruct (regions_found [list_ascii_of_string " ."] (fun l => l) 100) as (g & E & R); [discriminate|intros l; apply Permutation_refl|apply Nat.ltb_lt; reflexivity|].
  vm_compute in E. injection E as <-. exists [list_ascii_of_string " ."], [], ["red"], [[None; None]].
  split; [exact R|]. split; [repeat constructor; intros []|]. split; [|vm_compute; reflexivity].
  exists (fun _ => "red"). split; [intros i _; now left|]. split; [intros i j _ (p & q & (h & F & _) & _); destruct i; discriminate|].
  split; [reflexivity|]. split; [intros i p (h & F & _); destruct i; discriminate|].
  intros p a (row & _ & _ & F1 & F2). exfalso. destruct (Z.to_nat (fst p)) as [|[|k]]; try discriminate. injection F1 as <-.
  destruct (Z.to_nat (snd p)) as [|[|[|k]]]; discriminate.
Qed.
Print Assumptions C53_blank_refuted.

(** C53: a map without lines raises ValueError. *)
Theorem C53_no_lines : forall clk shuffle fuel gfuel order colors o,
  ascii_run clk shuffle fuel gfuel order [] colors o = Some ([], Some ValueError, None).
Proof. exact (fun _ _ _ _ _ _ _ => eq_refl). Qed.
Print Assumptions C53_no_lines.
