(** Proofs about the images of pixmaps. *)
From Verif Require Import DemoImage SpecImage SpecNonogram SpecAscii SpecPuzzle SpecSolve NonogramFacts AsciiFacts SudokuFacts.
From Coq Require Import Lia.
Open Scope list_scope.
Open Scope Z_scope.

(** ** The loops *)
Lemma setitem_at {A} (l r : list A) x a : py_setitem (l ++ x :: r) (Z.of_nat (length l)) a = Ok (l ++ a :: r).
Proof.
  unfold py_setitem. destruct (Z.ltb_spec (Z.of_nat (length l)) 0); [lia|]. destruct (Z.leb_spec 0 (Z.of_nat (length l))); [|lia].
  destruct (Z.ltb_spec (Z.of_nat (length l)) (Z.of_nat (length (l ++ x :: r)))) as [_|H']; [|rewrite app_length in H'; cbn in H'; lia].
  cbn [andb]. f_equal. rewrite Nat2Z.id. clear. induction l as [|b l IH]; [reflexivity|]. cbn. now rewrite IH.
Qed.

Definition ink (zeroes : list ascii) (c : ascii) : Z := if existsb (Ascii.eqb c) zeroes then 0 else 1.
Lemma mark_cells_spec zeroes : forall cells done m, (length cells <= m)%nat ->
  mark_cells zeroes (done ++ repeat 0 m) (combine (seq (length done) (length cells)) cells)
  = Ok (done ++ map (ink zeroes) cells ++ repeat 0 (m - length cells)).
Proof.
  induction cells as [|c cells IH]; intros done m Hm; [cbn; now rewrite Nat.sub_0_r|].
  destruct m as [|m]; [cbn in Hm; lia|]. cbn [length] in Hm. cbn [seq length combine mark_cells repeat map]. unfold ink at 1.
  change (m - length cells)%nat with (S m - S (length cells))%nat.
  destruct (existsb (Ascii.eqb c) zeroes).
  - specialize (IH (done ++ [0]) m ltac:(lia)). rewrite app_length in IH. cbn [length] in IH. rewrite Nat.add_1_r in IH.
    rewrite <- !app_assoc in IH. exact IH.
  - rewrite setitem_at. cbn [bind]. specialize (IH (done ++ [1]) m ltac:(lia)). rewrite app_length in IH. cbn [length] in IH. rewrite Nat.add_1_r in IH.
    rewrite <- !app_assoc in IH. exact IH.
Qed.

Definition brush {A} (zero one : A) (v : Z) : A := if v =? 0 then zero else one.
Lemma draw_cells_spec {A} (zero one : A) : forall cells done m, (length cells <= m)%nat ->
  draw_cells one (done ++ repeat zero m) (combine (seq (length done) (length cells)) cells)
  = Ok (done ++ map (brush zero one) cells ++ repeat zero (m - length cells)).
Proof.
  induction cells as [|c cells IH]; intros done m Hm; [cbn; now rewrite Nat.sub_0_r|].
  destruct m as [|m]; [cbn in Hm; lia|]. cbn [length] in Hm. cbn [seq length combine draw_cells repeat map]. unfold brush at 1, truthy.
  change (m - length cells)%nat with (S m - S (length cells))%nat.
  destruct (c =? 0); cbn [negb].
  - specialize (IH (done ++ [zero]) m ltac:(lia)). rewrite app_length in IH. cbn [length] in IH. rewrite Nat.add_1_r in IH.
    rewrite <- !app_assoc in IH. exact IH.
  - rewrite setitem_at. cbn [bind]. specialize (IH (done ++ [one]) m ltac:(lia)). rewrite app_length in IH. cbn [length] in IH. rewrite Nat.add_1_r in IH.
    rewrite <- !app_assoc in IH. exact IH.
Qed.

(** ** Widths *)
Definition wide {A} (lines : list (list A)) : nat := fold_right (fun l n => Nat.max (length l) n) 0%nat lines.
Lemma wide_width {A} (lines : list (list A)) : width lines (wide lines).
Proof.
  induction lines as [|l lines (H1 & H2 & H3)]; [split; [intros l []|split; [reflexivity|intros F; now destruct F]]|].
  split; [|split; [discriminate|intros _]].
  - intros l' [<-|Hl]; cbn; [lia|]. specialize (H1 _ Hl). unfold wide in *. lia.
  - cbn. fold (wide lines). destruct (Nat.max_spec (length l) (wide lines)) as [[H ->]|[H ->]].
    + destruct lines as [|l' ls]; [cbn in H; lia|]. destruct H3 as (x & Hx & E); [discriminate|]. exists x. split; [now right|exact E].
    + exists l. split; [now left|reflexivity].
Qed.
Lemma width_unique {A} (lines : list (list A)) n m : width lines n -> width lines m -> n = m.
Proof.
  intros (H1 & H2 & H3) (K1 & K2 & K3). destruct lines as [|l lines]; [now rewrite H2, K2|].
  destruct H3 as (x & Hx & <-); [discriminate|]. destruct K3 as (y & Hy & <-); [discriminate|]. specialize (H1 _ Hy). specialize (K1 _ Hx). lia.
Qed.

Definition padded {A B} (f : A -> B) (z : B) (w : nat) (l : list A) : list B := map f l ++ repeat z (w - length l).
Lemma padded_length {A B} (f : A -> B) z w l : (length l <= w)%nat -> length (padded f z w l) = w.
Proof. intros H. unfold padded. rewrite app_length, map_length, repeat_length. lia. Qed.
Lemma nth_error_repeat_in {A} (z : A) n i : (i < n)%nat -> nth_error (repeat z n) i = Some z.
Proof. revert i. induction n as [|n IH]; intros [|i] H; cbn; try lia; [reflexivity|]. apply IH. lia. Qed.
Lemma padded_nth {A B} (f : A -> B) z w l i : (length l <= w)%nat -> (i < w)%nat ->
  nth_error (padded f z w l) i = Some (match nth_error l i with Some a => f a | None => z end).
Proof.
  intros H Hi. unfold padded. destruct (Nat.lt_ge_cases i (length l)) as [H'|H'].
  - rewrite nth_error_app1 by now rewrite map_length. rewrite nth_error_map. destruct (nth_error l i) eqn:E; [reflexivity|].
    apply nth_error_None in E. lia.
  - rewrite nth_error_app2 by now rewrite map_length. rewrite map_length, nth_error_repeat_in by lia.
    now rewrite (proj2 (nth_error_None l i)).
Qed.

Lemma image_pixmap image zeroes : image_to_pixmap image zeroes
  = Ok (map (padded (ink zeroes) 0 (wide (split_lines image))) (split_lines image)).
Proof.
  unfold image_to_pixmap. apply mapM_Ok. intros l Hl. fold (wide (split_lines image)).
  apply (mark_cells_spec zeroes l [] (wide (split_lines image))). destruct (wide_width (split_lines image)) as [H _]. now apply H.
Qed.
Lemma pixmap_image b zero one : pixmap_to_image b zero one
  = Ok (String.concat (String newline "") (map (String.concat "") (map (padded (brush zero one) zero (wide b)) b))).
Proof.
  unfold pixmap_to_image, pixmap_shape. cbn [snd]. fold (wide b).
  assert (E : mapM (fun row => draw_cells one (repeat zero (wide b)) (enumerate row)) b = Ok (map (padded (brush zero one) zero (wide b)) b)).
  { apply mapM_Ok. intros l Hl. apply (draw_cells_spec zero one l [] (wide b)). destruct (wide_width b) as [H _]. now apply H. }
  rewrite E. reflexivity.
Qed.

(** ** Lines *)
Lemma string_list_app l l' : string_of_list_ascii (l ++ l') = String.append (string_of_list_ascii l) (string_of_list_ascii l').
Proof. induction l as [|c l IH]; [reflexivity|]. cbn. now rewrite IH. Qed.
Lemma split_line l : ~ In newline l -> split_lines (string_of_list_ascii l) = [l].
Proof.
  induction l as [|c l IH]; intros H; [reflexivity|]. cbn [string_of_list_ascii split_lines].
  destruct (Ascii.eqb_spec c newline) as [->|_]; [exfalso; apply H; now left|]. rewrite IH by (intros F; apply H; now right). reflexivity.
Qed.
Lemma split_line_more l s : ~ In newline l -> split_lines (String.append (string_of_list_ascii l) (String newline s)) = l :: split_lines s.
Proof.
  induction l as [|c l IH]; intros H; [reflexivity|]. cbn [string_of_list_ascii String.append split_lines].
  destruct (Ascii.eqb_spec c newline) as [->|_]; [exfalso; apply H; now left|]. rewrite IH by (intros F; apply H; now right). reflexivity.
Qed.
Lemma split_concat lines : lines <> [] -> (forall l, In l lines -> ~ In newline l) ->
  split_lines (String.concat (String newline "") (map string_of_list_ascii lines)) = lines.
Proof.
  induction lines as [|l lines IH]; intros Hne H; [contradiction|]. destruct lines as [|l' ls].
  - cbn. apply split_line. apply H. now left.
  - change (String.concat (String newline "") (map string_of_list_ascii (l :: l' :: ls)))
      with (String.append (string_of_list_ascii l) (String newline (String.concat (String newline "") (map string_of_list_ascii (l' :: ls))))).
    rewrite split_line_more by (apply H; now left). f_equal. apply IH; [discriminate|]. intros x Hx. apply H. now right.
Qed.
Lemma lines_unique s lines : lines_of s lines -> split_lines s = lines.
Proof. intros (-> & Hne & H). now apply split_concat. Qed.

Lemma concat_chars l : String.concat "" (map (fun c => String c "") l) = string_of_list_ascii l.
Proof.
  induction l as [|c l IH]; [reflexivity|]. destruct l as [|d l]; [reflexivity|].
  change (String.concat "" (map (fun c => String c "") (c :: d :: l))) with (String c (String.concat "" (map (fun c => String c ""%string) (d :: l)))).
  now rewrite IH.
Qed.
Lemma padded_map {A B C} (g : B -> C) (f : A -> B) z w l : map g (padded f z w l) = padded (fun a => g (f a)) (g z) w l.
Proof.
  unfold padded. rewrite map_app, map_map. f_equal. generalize (w - length l)%nat as n. induction n as [|n IH]; [reflexivity|]. cbn. now rewrite IH.
Qed.

(** ** Results *)
Lemma ink_bw zeroes c : ink zeroes c = 0 \/ ink zeroes c = 1.
Proof. unfold ink. destruct existsb; auto. Qed.
Lemma ink_one zeroes c : ink zeroes c = 1 <-> ~ In c zeroes.
Proof.
  unfold ink. destruct (existsb (Ascii.eqb c) zeroes) eqn:E.
  - apply existsb_exists in E. destruct E as (d & Hd & E). apply Ascii.eqb_eq in E. subst d. split; [discriminate|contradiction].
  - split; [|reflexivity]. intros _ H. apply Bool.not_true_iff_false in E. apply E. apply existsb_exists. exists c. split; [exact H|apply Ascii.eqb_refl].
Qed.

Lemma pixel_padded {A} (f : A -> Z) w (lines : list (list A)) r c : 0 <= r -> 0 <= c -> (forall l, In l lines -> (length l <= w)%nat) ->
  pixel (map (padded f 0 w) lines) r c = match nth_error lines (Z.to_nat r) with
    Some l => match nth_error l (Z.to_nat c) with Some a => f a | None => 0 end | None => 0 end.
Proof.
  intros Hr Hc Hw. unfold pixel. destruct (nth_error lines (Z.to_nat r)) as [l|] eqn:E.
  - assert (E' : nth (Z.to_nat r) (map (padded f 0 w) lines) [] = padded f 0 w l) by (apply nth_error_nth; rewrite nth_error_map, E; reflexivity).
    rewrite E'. specialize (Hw l (nth_error_In _ _ E)). destruct (Nat.lt_ge_cases (Z.to_nat c) w) as [H|H].
    + apply nth_error_nth. now apply padded_nth.
    + rewrite nth_overflow by now rewrite padded_length. now rewrite (proj2 (nth_error_None _ _)) by lia.
  - rewrite (nth_overflow (map _ _)); [now destruct (Z.to_nat c)|]. rewrite map_length. now apply nth_error_None.
Qed.

Lemma image_shows image zeroes lines : lines_of image lines -> exists b, image_to_pixmap image zeroes = Ok b /\ shows zeroes lines b.
Proof.
  intros H. rewrite image_pixmap, (lines_unique _ _ H). eexists. split; [reflexivity|]. pose proof (wide_width lines) as [Hw _]. split; [|split].
  - intros row Hrow v Hv. apply in_map_iff in Hrow. destruct Hrow as (l & <- & Hl). unfold padded in Hv. apply in_app_or in Hv.
    destruct Hv as [Hv|Hv]; [|apply repeat_spec in Hv; auto]. apply in_map_iff in Hv. destruct Hv as (c & <- & _). apply ink_bw.
  - exists (wide lines). split; [apply wide_width|]. split; [apply map_length|]. intros row Hrow. apply in_map_iff in Hrow.
    destruct Hrow as (l & <- & Hl). apply padded_length. now apply Hw.
  - intros r c Hr Hc. rewrite pixel_padded by assumption. split.
    + destruct (nth_error lines (Z.to_nat r)) as [l|] eqn:E; [|discriminate]. destruct (nth_error l (Z.to_nat c)) as [a|] eqn:E'; [|discriminate].
      intros F. exists a. split; [|now apply ink_one]. exists l. cbn. auto.
    + intros (a & (l & _ & _ & E & E') & F). cbn in E, E'. rewrite E, E'. now apply ink_one.
Qed.

Lemma shows_unique zeroes lines b b' : shows zeroes lines b -> shows zeroes lines b' -> b = b'.
Proof.
  intros (B1 & (n & W1 & L1 & R1) & P1) (B2 & (n' & W2 & L2 & R2) & P2). rewrite <- (width_unique _ _ _ W1 W2) in R2.
  apply (nth_ext _ _ [] []); [congruence|]. intros i Hi.
  assert (I1 : In (nth i b []) b) by now apply nth_In. assert (I2 : In (nth i b' []) b') by (apply nth_In; congruence).
  apply (nth_ext _ _ 0 0); [rewrite R1, R2; auto|]. intros j Hj.
  assert (J1 : In (nth j (nth i b []) 0) (nth i b [])) by now apply nth_In.
  assert (J2 : In (nth j (nth i b' []) 0) (nth i b' [])) by (apply nth_In; rewrite R2 by assumption; rewrite <- (R1 _ I1); exact Hj).
  pose proof (P1 (Z.of_nat i) (Z.of_nat j) ltac:(lia) ltac:(lia)) as Q1. pose proof (P2 (Z.of_nat i) (Z.of_nat j) ltac:(lia) ltac:(lia)) as Q2.
  unfold pixel in Q1, Q2. rewrite !Nat2Z.id in Q1, Q2.
  destruct (B1 _ I1 _ J1) as [E1|E1], (B2 _ I2 _ J2) as [E2|E2]; rewrite E1, E2 in *; try reflexivity; intuition discriminate.
Qed.

Lemma image_drawn b zero one : exists g, drawn zero one b g /\
  pixmap_to_image b zero one = Ok (String.concat (String (ascii_of_nat 10) "") (map (String.concat "") g)).
Proof.
  exists (map (padded (brush zero one) zero (wide b)) b). split; [|apply pixmap_image].
  pose proof (wide_width b) as W. exists (wide b). split; [exact W|]. destruct W as [Hw _]. split; [apply map_length|]. split.
  - intros l Hl. apply in_map_iff in Hl. destruct Hl as (row & <- & Hrow). apply padded_length. now apply Hw.
  - intros r c Hr Hc. destruct (nth_error b (Z.to_nat r)) as [row|] eqn:E; [|apply nth_error_None in E; lia].
    exists (padded (brush zero one) zero (wide b) row). cbn. split; [lia|]. split; [lia|]. split; [now rewrite nth_error_map, E|].
    rewrite padded_nth by (try lia; apply Hw; now apply nth_error_In in E). unfold pixel. rewrite (nth_error_nth _ _ [] E). f_equal.
    destruct (nth_error row (Z.to_nat c)) as [v|] eqn:E'.
    + now rewrite (nth_error_nth _ _ 0 E').
    + rewrite nth_overflow by now apply nth_error_None. reflexivity.
Qed.

Lemma redraw b zeroes zero one : b <> [] -> In zero zeroes -> ~ In one zeroes -> zero <> newline -> one <> newline ->
  (let! image := pixmap_to_image b (String zero "") (String one "") in image_to_pixmap image zeroes)
  = Ok (map (padded (brush 0 1) 0 (wide b)) b).
Proof.
  intros Hne H0 H1 N0 N1. rewrite pixmap_image. cbn [bind].
  assert (E : map (String.concat "") (map (padded (brush (String zero "") (String one "")) (String zero "") (wide b)) b)
    = map string_of_list_ascii (map (padded (brush zero one) zero (wide b)) b)).
  { rewrite !map_map. apply map_ext. intros row. rewrite <- concat_chars, padded_map. f_equal. unfold padded. f_equal. apply map_ext. intros v.
    unfold brush. now destruct (v =? 0). }
  rewrite E, image_pixmap, split_concat.
  - pose proof (wide_width b) as [Hw _].
    assert (W : wide (map (padded (brush zero one) zero (wide b)) b) = wide b).
    { apply (width_unique (map (padded (brush zero one) zero (wide b)) b)); [apply wide_width|]. split; [|split].
      - intros l Hl. apply in_map_iff in Hl. destruct Hl as (row & <- & Hrow). rewrite padded_length; auto.
      - intros F. now destruct b.
      - intros _. destruct b as [|row b']; [contradiction|]. exists (padded (brush zero one) zero (wide (row :: b')) row). split; [now left|].
        apply padded_length. apply Hw. now left. }
    rewrite W, map_map. f_equal. apply map_ext_in. intros row Hrow. unfold padded at 1. rewrite padded_length by now apply Hw.
    rewrite Nat.sub_diag, app_nil_r, padded_map. unfold padded.
    assert (I0 : ink zeroes zero = 0) by (destruct (ink_bw zeroes zero) as [I|I]; [exact I|apply ink_one in I; contradiction]).
    rewrite I0. f_equal. apply map_ext. intros v. unfold brush. destruct (v =? 0); [exact I0|now apply ink_one].
  - intros F. now destruct b.
  - intros l Hl F. apply in_map_iff in Hl. destruct Hl as (row & <- & Hrow). unfold padded in F. apply in_app_or in F. destruct F as [F|F].
    + apply in_map_iff in F. destruct F as (v & F & _). unfold brush in F. destruct (v =? 0); congruence.
    + apply repeat_spec in F. congruence.
Qed.

Lemma redraw_pixels b zeroes zero one : b <> [] -> In zero zeroes -> ~ In one zeroes -> zero <> newline -> one <> newline ->
  exists b' nc, (let! image := pixmap_to_image b (String zero "") (String one "") in image_to_pixmap image zeroes) = Ok b' /\
    width b nc /\ rectangular (length b) nc b' /\ forall r c, 0 <= r -> 0 <= c -> pixel b' r c = if pixel b r c =? 0 then 0 else 1.
Proof.
  intros Hne H0 H1 N0 N1. exists (map (padded (brush 0 1) 0 (wide b)) b), (wide b). split; [now apply redraw|]. pose proof (wide_width b) as W.
  split; [exact W|]. destruct W as [Hw _]. split; [split; [apply map_length|]|].
  - intros l Hl. apply in_map_iff in Hl. destruct Hl as (row & <- & Hrow). apply padded_length. now apply Hw.
  - intros r c Hr Hc. rewrite pixel_padded by assumption. unfold pixel. destruct (nth_error b (Z.to_nat r)) as [row|] eqn:E.
    + rewrite (nth_error_nth _ _ [] E). destruct (nth_error row (Z.to_nat c)) as [v|] eqn:E'; [now rewrite (nth_error_nth _ _ 0 E')|].
      rewrite nth_overflow by now apply nth_error_None. reflexivity.
    + rewrite (nth_overflow b) by now apply nth_error_None. now destruct (Z.to_nat c).
Qed.

Lemma image_round_trip nr nc b zeroes zero one : rectangular nr nc b -> (0 < nr)%nat -> black_white b ->
  In zero zeroes -> ~ In one zeroes -> zero <> newline -> one <> newline ->
  (let! image := pixmap_to_image b (String zero "") (String one "") in image_to_pixmap image zeroes) = Ok b.
Proof.
  intros [Hl Hr] Hp Hb H0 H1 N0 N1. rewrite redraw; try assumption; [|intros ->; cbn in Hl; lia]. f_equal.
  assert (W : wide b = nc).
  { apply (width_unique b); [apply wide_width|]. split; [intros l H; now rewrite Hr|]. split; [intros ->; cbn in Hl; lia|]. intros _.
    destruct b as [|row b]; [cbn in Hl; lia|]. exists row. split; [now left|apply Hr; now left]. }
  rewrite <- (map_id b) at 3. apply map_ext_in. intros row Hrow. unfold padded. rewrite W, (Hr _ Hrow), Nat.sub_diag. cbn [repeat].
  rewrite app_nil_r. rewrite <- (map_id row) at 2. apply map_ext_in. intros v Hv. destruct (Hb _ Hrow _ Hv) as [->| ->]; reflexivity.
Qed.

(** ** The other way round *)
Lemma pixmap_round_trip image lines n zeroes zero one : lines_of image lines -> (forall l, In l lines -> length l = n) ->
  (forall l c, In l lines -> In c l -> c = zero \/ c = one) -> In zero zeroes -> ~ In one zeroes ->
  (let! b := image_to_pixmap image zeroes in pixmap_to_image b (String zero "") (String one "")) = Ok image.
Proof.
  intros HL Hn Hc H0 H1. rewrite image_pixmap, (lines_unique _ _ HL). cbn [bind]. rewrite pixmap_image. f_equal. destruct HL as (-> & Hne & _).
  assert (W : forall A (ls : list (list A)), ls <> [] -> (forall l, In l ls -> length l = n) -> wide ls = n).
  { intros A ls Hne' H. apply (width_unique ls); [apply wide_width|]. split; [intros l Hl; now rewrite H|]. split; [contradiction|]. intros _.
    destruct ls as [|l ls]; [contradiction|]. exists l. split; [now left|apply H; now left]. }
  assert (W1 : wide lines = n) by now apply W. rewrite W1.
  assert (W2 : wide (map (padded (ink zeroes) 0 n) lines) = n).
  { apply W; [now destruct lines|]. intros l Hl. apply in_map_iff in Hl. destruct Hl as (x & <- & Hx). apply padded_length. now rewrite Hn. }
  rewrite W2, !map_map. f_equal. apply map_ext_in. intros l Hl. rewrite <- concat_chars. f_equal. unfold padded.
  rewrite app_length, map_length, repeat_length, (Hn _ Hl), Nat.sub_diag, Nat.add_0_r, Nat.sub_diag. cbn [repeat]. rewrite !app_nil_r, map_map.
  apply map_ext_in. intros c Hin. destruct (Hc _ _ Hl Hin) as [->| ->].
  - destruct (ink_bw zeroes zero) as [I|I]; [now rewrite I|apply ink_one in I; contradiction].
  - now rewrite (proj2 (ink_one zeroes one) H1).
Qed.

(** ** Solving the nonogram of an image *)
Lemma image_solved clk shuffle o image lines zeroes p ch : lines_of image lines -> at_cell lines p ch -> ~ In ch zeroes -> shuffles shuffle ->
  exists rows cols b, image_to_nonogram image zeroes = Ok (rows, cols) /\ shows zeroes lines b /\ matches rows cols b /\
    exactly (fun fuel => nonogram_run clk shuffle fuel rows cols o) (matches rows cols) (o_timeout o) (o_limit o).
Proof.
  intros HL Hat Hz Hs. destruct (image_shows image zeroes lines HL) as (b & E & S). pose proof S as (Hb & (nc & W & R) & P).
  assert (Hp : 0 <= fst p < Z.of_nat (length lines) /\ 0 <= snd p < Z.of_nat nc).
  { destruct Hat as (row & F1 & F2 & F3 & F4). assert (I : In row lines) by now apply nth_error_In in F3.
    assert (Z.to_nat (fst p) < length lines)%nat by (apply nth_error_Some; congruence).
    assert (Z.to_nat (snd p) < length row)%nat by (apply nth_error_Some; congruence). destruct W as [W _]. specialize (W _ I). lia. }
  assert (Hpix : pixel b (fst p) (snd p) = 1) by (apply P; try lia; exists ch; split; [now destruct p|exact Hz]).
  destruct (round_trip clk shuffle o _ _ b R Hb) as (rows & cols & E' & X & M); [exists (fst p), (snd p); repeat split; try lia|exact Hs|].
  exists rows, cols, b. unfold image_to_nonogram. rewrite E. cbn [bind]. auto.
Qed.
