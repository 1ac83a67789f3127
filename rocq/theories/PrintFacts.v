(** Lemmas behind Properties_Print.v: drawings of boards and schemas. *)
From Coq Require Import Arith.
From Verif Require Import DemoPrint SpecNonogram SpecPrint.
Open Scope list_scope.
Open Scope nat_scope.

(** ** Characters *)
Lemma chars_nonempty s : forall h t, chars s = h :: t -> exists c s', s = String c s' /\ exists h', h = String c h'.
Proof.
  destruct s as [|c s']; intros h t E; [discriminate|]. exists c, s'. split; [reflexivity|]. simpl in E.
  destruct (chars s') as [|h0 t0]; [injection E as <- _; now exists ""%string|].
  destruct (continues h0); injection E as <- _; eauto.
Qed.
Lemma chars_app a : forall b, continues b = false -> chars (a ++ b) = chars a ++ chars b.
Proof.
  induction a as [|c a IH]; intros b Hb; [reflexivity|]. simpl. rewrite IH by exact Hb.
  destruct (chars a) as [|h t] eqn:Ea; simpl.
  - destruct (chars b) as [|h t] eqn:Eb; [reflexivity|]. destruct (chars_nonempty b h t Eb) as (c' & s' & -> & h' & ->).
    simpl in Hb. simpl. now rewrite Hb.
  - destruct (continues h); reflexivity.
Qed.
Lemma continues_app a b : continues a = false -> (a = ""%string -> continues b = false) -> continues (a ++ b) = false.
Proof. destruct a; simpl; auto. Qed.

(** ** Lines made of cells *)
Fixpoint join_list {A} (sep : list A) (l : list (list A)) : list A :=
  match l with [] => [] | [x] => x | x :: l' => x ++ sep ++ join_list sep l' end.

Definition starts (s : string) : Prop := s <> ""%string /\ continues s = false.

Lemma sjoin_starts sep l : Forall starts l -> continues (sjoin sep l) = false.
Proof.
  intros H. destruct l as [|x [|y l]]; [reflexivity| |]; inversion H as [|? ? [Hne Hx] Hl]; subst; simpl; [exact Hx|].
  apply continues_app; [exact Hx|]. now intros ->.
Qed.
Lemma chars_sjoin sep l : starts sep -> Forall starts l -> chars (sjoin sep l) = join_list (chars sep) (map chars l).
Proof.
  intros [Hs1 Hs] H. induction H as [|x l [Hne Hx] Hl IH]; [reflexivity|]. destruct l as [|y l]; [reflexivity|].
  change (sjoin sep (x :: y :: l)) with (x ++ sep ++ sjoin sep (y :: l))%string. rewrite chars_app.
  - rewrite chars_app; [|now apply sjoin_starts]. now rewrite IH.
  - apply continues_app; [exact Hs|]. now intros ->.
Qed.

Lemma join_length {A} (sep : A) l : Forall (fun x => length x = 3) l -> l <> [] -> length (join_list [sep] l) + 1 = 4 * length l.
Proof.
  intros H. induction H as [|x l Hx Hl IH]; [contradiction|]. intros _. destruct l as [|y l]; [simpl; rewrite Hx; reflexivity|].
  change (join_list [sep] (x :: y :: l)) with (x ++ sep :: join_list [sep] (y :: l)). rewrite app_length. cbn [length] in *.
  specialize (IH ltac:(discriminate)). lia.
Qed.
Lemma join_nth {A} (sep : A) l : Forall (fun x => length x = 3) l -> forall c k, c < length l -> k < 3 ->
  nth_error (join_list [sep] l) (4 * c + k) = nth_error (nth c l []) k.
Proof.
  intros H. induction H as [|x l Hx Hl IH]; intros c k Hc Hk; [simpl in Hc; lia|].
  destruct c as [|c].
  - cbn [nth]. replace (4 * 0 + k) with k by lia. destruct l as [|y l]; [reflexivity|].
    change (join_list [sep] (x :: y :: l)) with (x ++ sep :: join_list [sep] (y :: l)). now rewrite nth_error_app1 by lia.
  - destruct l as [|y l]; [simpl in Hc; lia|].
    change (join_list [sep] (x :: y :: l)) with (x ++ sep :: join_list [sep] (y :: l)).
    rewrite nth_error_app2 by lia. rewrite Hx. replace (4 * S c + k - 3) with (S (4 * c + k)) by lia.
    cbn [nth_error nth]. apply IH; [simpl in *; lia|exact Hk].
Qed.
Lemma join_nth_sep {A} (sep : A) l : Forall (fun x => length x = 3) l -> forall c, S c < length l ->
  nth_error (join_list [sep] l) (4 * c + 3) = Some sep.
Proof.
  intros H. induction H as [|x l Hx Hl IH]; intros c Hc; [simpl in Hc; lia|].
  destruct l as [|y l]; [simpl in Hc; lia|].
  change (join_list [sep] (x :: y :: l)) with (x ++ sep :: join_list [sep] (y :: l)). rewrite nth_error_app2 by lia.
  rewrite Hx. destruct c as [|c]; [reflexivity|]. replace (4 * S c + 3 - 3) with (S (4 * c + 3)) by lia.
  cbn [nth_error]. apply IH. simpl in *. lia.
Qed.

(** The line [left + sep.join(cells) + right], for cells of three characters. *)
Lemma framed left sep right cells : starts left -> starts sep -> starts right -> Forall starts cells ->
  Forall (fun x => length (chars x) = 3) cells -> cells <> [] -> length (chars left) = 1 -> length (chars right) = 1 -> length (chars sep) = 1 ->
  let line := chars (left ++ sjoin sep cells ++ right) in let n := length cells in
  length line = 4 * n + 1 /\
  (forall j, j <= 4 * n -> nth_error line j =
    if j =? 0 then nth_error (chars left) 0 else if j =? 4 * n then nth_error (chars right) 0 else
    if j mod 4 =? 0 then nth_error (chars sep) 0 else nth_error (chars (nth (j / 4) cells ""%string)) (j mod 4 - 1)).
Proof.
  intros [Hl1 Hl] [Hs1 Hs] [Hr1 Hr] Hc H3 Hne Ll Lr Ls line n.
  assert (E : line = chars left ++ join_list (chars sep) (map chars cells) ++ chars right).
  { unfold line. rewrite chars_app.
    - rewrite chars_app by exact Hr. rewrite chars_sjoin; [reflexivity|now split|exact Hc].
    - apply continues_app; [now apply sjoin_starts|]. intros _. exact Hr. }
  destruct (chars left) as [|cl [|? ?]] eqn:El; try discriminate. destruct (chars right) as [|cr [|? ?]] eqn:Er; try discriminate.
  destruct (chars sep) as [|cs [|? ?]] eqn:Es; try discriminate. simpl in E.
  assert (H3' : Forall (fun x => length x = 3) (map chars cells)).
  { apply Forall_forall. intros x Hx. apply in_map_iff in Hx. destruct Hx as (y & <- & Hy). rewrite Forall_forall in H3. auto. }
  assert (Hj : length (join_list [cs] (map chars cells)) + 1 = 4 * n).
  { rewrite join_length; [now rewrite map_length|exact H3'|destruct cells; [contradiction|discriminate]]. }
  assert (Hn : 1 <= n). { unfold n. destruct cells; [contradiction|simpl; lia]. }
  rewrite E. split; [simpl; rewrite app_length; simpl; lia|].
  intros j Hjn. destruct (j =? 0) eqn:E0; [apply Nat.eqb_eq in E0; subst j; reflexivity|]. apply Nat.eqb_neq in E0.
  destruct j as [|j]; [lia|]. cbn [nth_error].
  destruct (S j =? 4 * n) eqn:E4.
  - apply Nat.eqb_eq in E4. rewrite nth_error_app2 by lia. replace (j - length (join_list [cs] (map chars cells))) with 0 by lia. reflexivity.
  - apply Nat.eqb_neq in E4. rewrite nth_error_app1 by lia.
    pose proof (Nat.div_mod (S j) 4 ltac:(lia)) as Hdm. pose proof (Nat.mod_upper_bound (S j) 4 ltac:(lia)) as Hm.
    set (q := S j / 4) in *. set (m := S j mod 4) in *. destruct (m =? 0) eqn:Em.
    + apply Nat.eqb_eq in Em. rewrite Em in Hdm. replace j with (4 * (q - 1) + 3) by lia. apply join_nth_sep; [exact H3'|]. rewrite map_length. fold n. lia.
    + apply Nat.eqb_neq in Em. replace j with (4 * q + (m - 1)) by lia.
      rewrite join_nth; [|exact H3'|rewrite map_length; fold n; lia|lia].
      change ([] : list string) with (chars ""). now rewrite map_nth.
Qed.

(** ** Chessboards *)
Lemma starts_frame : Forall starts ["┌"; "┬"; "┐"; "├"; "┼"; "┤"; "└"; "┴"; "┘"; "│"; "───"; " ♛ "; "   "]%string.
Proof. repeat constructor; discriminate. Qed.

Definition queen_cell (v : Z) : string := if truthy v then " ♛ "%string else "   "%string.

Lemma board_line_chars l m r n : 1 <= n -> starts l -> starts m -> starts r -> length (chars l) = 1 -> length (chars r) = 1 -> length (chars m) = 1 ->
  length (chars (board_line l m r n)) = 4 * n + 1 /\ forall j, j <= 4 * n -> nth_error (chars (board_line l m r n)) j =
    if j =? 0 then nth_error (chars l) 0 else if j =? 4 * n then nth_error (chars r) 0 else
    if j mod 4 =? 0 then nth_error (chars m) 0 else Some "─"%string.
Proof.
  intros Hn Hl Hm Hr Ll Lr Lm. unfold board_line.
  assert (Hst : starts "───"%string) by (split; [discriminate|reflexivity]).
  assert (Hall : forall P : string -> Prop, P "───"%string -> Forall P (repeat "───"%string n)).
  { intros P HP. apply Forall_forall. intros x Hx. apply repeat_spec in Hx. now subst. }
  destruct (framed l m r (repeat "───"%string n)) as [H1 H2]; auto.
  - destruct n; [lia|discriminate].
  - rewrite repeat_length in *. split; [exact H1|]. intros j Hj. rewrite H2 by exact Hj.
    destruct (j =? 0) eqn:E0; [reflexivity|]. destruct (j =? 4 * n) eqn:E4; [reflexivity|]. destruct (j mod 4 =? 0) eqn:Em; [reflexivity|].
    apply Nat.eqb_neq in E4, Em. pose proof (Nat.mod_upper_bound j 4 ltac:(lia)) as Hmu. pose proof (Nat.div_mod j 4 ltac:(lia)) as Hdm.
    assert (Hq : j / 4 < n) by lia.
    replace (nth (j / 4) (repeat "───"%string n) ""%string) with "───"%string.
    2:{ symmetry. apply (repeat_spec n "───"%string). apply nth_In. now rewrite repeat_length. }
    destruct (j mod 4) as [|[|[|[|]]]]; try lia; reflexivity.
Qed.

Lemma board_row_chars row n : length row = n -> 1 <= n ->
  length (chars (board_row row)) = 4 * n + 1 /\ forall j, j <= 4 * n -> nth_error (chars (board_row row)) j =
    Some (if (j mod 4 =? 0)%nat then "│" else if (j mod 4 =? 2)%nat then (if (nth (j / 4) row 0 =? 0)%Z then " " else "♛") else " ")%string.
Proof.
  intros Hn H1. unfold board_row. fold queen_cell. change (fun is_queen => if truthy is_queen then " ♛ "%string else "   "%string) with queen_cell.
  assert (Hb : starts "│"%string) by (split; [discriminate|reflexivity]).
  destruct (framed "│" "│" "│" (map queen_cell row)) as [Ha Hc]; auto.
  - apply Forall_forall. intros x Hx. apply in_map_iff in Hx. destruct Hx as (v & <- & _). unfold queen_cell. destruct (truthy v); (split; [discriminate|reflexivity]).
  - apply Forall_forall. intros x Hx. apply in_map_iff in Hx. destruct Hx as (v & <- & _). unfold queen_cell. destruct (truthy v); reflexivity.
  - destruct row; [simpl in Hn; lia|discriminate].
  - rewrite map_length, Hn in *. split; [exact Ha|]. intros j Hj. rewrite Hc by exact Hj.
    pose proof (Nat.mod_upper_bound j 4 ltac:(lia)) as Hmu. pose proof (Nat.div_mod j 4 ltac:(lia)) as Hdm.
    destruct (j =? 0) eqn:E0; [apply Nat.eqb_eq in E0; subst j; reflexivity|].
    destruct (j =? 4 * n) eqn:E4; [apply Nat.eqb_eq in E4|apply Nat.eqb_neq in E4].
    { replace (j mod 4) with 0; [reflexivity|]. subst j. rewrite Nat.mul_comm. symmetry. apply Nat.mod_mul. lia. }
    destruct (j mod 4 =? 0) eqn:Em; [reflexivity|]. apply Nat.eqb_neq in Em. assert (Hq : j / 4 < n) by lia.
    rewrite (nth_indep _ ""%string (queen_cell 0)) by (rewrite map_length; lia). rewrite map_nth.
    unfold queen_cell, truthy. destruct (nth (j / 4) row 0 =? 0)%Z; simpl negb; cbn iota; destruct (j mod 4) as [|[|[|[|]]]]; try lia; reflexivity.
Qed.

Lemma board_rows_nth h m board : forall r, r < length board ->
  nth_error (board_rows h m board) (2 * r) = Some (if r =? 0 then h else m) /\
  nth_error (board_rows h m board) (2 * r + 1) = Some (board_row (nth r board [])).
Proof.
  revert h. induction board as [|row board IH]; intros h r Hr; [simpl in Hr; lia|]. destruct r as [|r].
  - split; reflexivity.
  - replace (2 * S r) with (S (S (2 * r))) by lia. cbn [board_rows nth_error nth Nat.add].
    destruct (IH m r) as [H1 H2]; [simpl in Hr; lia|]. split; [rewrite H1; now destruct r|].
    replace (S (S (2 * r)) + 1) with (S (S (2 * r + 1))) by lia. exact H2.
Qed.
Lemma board_rows_length h m board : length (board_rows h m board) = 2 * length board.
Proof. revert h. induction board as [|row board IH]; intros h; simpl; [reflexivity|]. rewrite IH. lia. Qed.

Lemma queens_drawn n b : rectangular n n b -> 1 <= n ->
  let d := print_queens_board n b in
  length d = 2 * n + 1 /\ (forall line, In line d -> length (chars line) = 4 * n + 1) /\
  forall i j, i <= 2 * n -> j <= 4 * n -> char_at d i j (board_char n b i j).
Proof.
  intros [Hb Hrow] Hn d.
  assert (Hs := proj1 (Forall_forall _ _) starts_frame).
  assert (Hd : length d = 2 * n + 1).
  { unfold d, print_queens_board. rewrite app_length, board_rows_length, Hb. reflexivity. }
  assert (Hu : forall l m r, starts l -> starts m -> starts r -> length (chars l) = 1 -> length (chars r) = 1 -> length (chars m) = 1 ->
     length (chars (board_line l m r n)) = 4 * n + 1) by (intros l m r A1 A2 A3 A4 A5 A6; now apply board_line_chars).
  assert (Hline : forall i, i <= 2 * n -> exists line, nth_error d i = Some line /\ length (chars line) = 4 * n + 1 /\
     forall j, j <= 4 * n -> nth_error (chars line) j = Some (board_char n b i j)).
  { intros i Hi. unfold d, print_queens_board. set (u := board_line "┌" "┬" "┐" n). set (m := board_line "├" "┼" "┤" n). set (bl := board_line "└" "┴" "┘" n).
    unfold board_char. destruct (Nat.even i) eqn:Ev.
    - apply Nat.even_spec in Ev. destruct Ev as (r & ->). unfold frame. destruct (2 * r =? 2 * n) eqn:E2.
      + apply Nat.eqb_eq in E2. exists bl. rewrite nth_error_app2 by (rewrite board_rows_length; lia). rewrite board_rows_length, Hb.
        replace (2 * r - 2 * n) with 0 by lia. split; [reflexivity|]. split; [apply Hu; try reflexivity; apply Hs; simpl; tauto|]. intros j Hj. unfold bl.
        rewrite (proj2 (board_line_chars "└" "┴" "┘" n Hn ltac:(apply Hs; simpl; tauto) ltac:(apply Hs; simpl; tauto) ltac:(apply Hs; simpl; tauto) eq_refl eq_refl eq_refl)) by exact Hj.
        destruct (j =? 0); [reflexivity|]. destruct (j =? 4 * n); [reflexivity|]. destruct (j mod 4 =? 0); reflexivity.
      + apply Nat.eqb_neq in E2. destruct (board_rows_nth u m b r ltac:(lia)) as [E _].
        exists (if r =? 0 then u else m). rewrite nth_error_app1 by (rewrite board_rows_length; lia). split; [exact E|].
        replace (2 * r =? 0) with (r =? 0) by (destruct r; reflexivity). destruct (r =? 0).
        * split; [apply Hu; try reflexivity; apply Hs; simpl; tauto|]. intros j Hj. unfold u.
          rewrite (proj2 (board_line_chars "┌" "┬" "┐" n Hn ltac:(apply Hs; simpl; tauto) ltac:(apply Hs; simpl; tauto) ltac:(apply Hs; simpl; tauto) eq_refl eq_refl eq_refl)) by exact Hj.
          destruct (j =? 0); [reflexivity|]. destruct (j =? 4 * n); [reflexivity|]. destruct (j mod 4 =? 0); reflexivity.
        * split; [apply Hu; try reflexivity; apply Hs; simpl; tauto|]. intros j Hj. unfold m.
          rewrite (proj2 (board_line_chars "├" "┼" "┤" n Hn ltac:(apply Hs; simpl; tauto) ltac:(apply Hs; simpl; tauto) ltac:(apply Hs; simpl; tauto) eq_refl eq_refl eq_refl)) by exact Hj.
          destruct (j =? 0); [reflexivity|]. destruct (j =? 4 * n); [reflexivity|]. destruct (j mod 4 =? 0); reflexivity.
    - assert (Ho : exists r, i = 2 * r + 1) by (apply Nat.odd_spec; unfold Nat.odd; now rewrite Ev). destruct Ho as (r & ->).
      assert (Hr : r < n) by lia. destruct (board_rows_nth u m b r ltac:(lia)) as [_ E].
      exists (board_row (nth r b [])). rewrite nth_error_app1 by (rewrite board_rows_length; lia). split; [exact E|].
      assert (Hl : length (nth r b []) = n) by (apply Hrow, nth_In; lia).
      destruct (board_row_chars _ n Hl Hn) as [H1' H2']. split; [exact H1'|]. intros j Hj. rewrite H2' by exact Hj.
      replace ((2 * r + 1) / 2) with r by (rewrite Nat.mul_comm, Nat.div_add_l by lia; simpl; lia).
      unfold pixel. rewrite !Nat2Z.id. reflexivity. }
  split; [exact Hd|]. split.
  - intros line Hin. apply In_nth_error in Hin. destruct Hin as (i & Hi).
    assert (i <= 2 * n). { assert (i < length d) by (apply nth_error_Some; congruence). lia. }
    destruct (Hline i H) as (line' & E & Hl & _). congruence.
  - intros i j Hi Hj. destruct (Hline i Hi) as (line & E & _ & Hc). exists line. auto.
Qed.

(** The drawing determines the board. *)
Lemma char_at_unique d i j x y : char_at d i j x -> char_at d i j y -> x = y.
Proof. intros (l & H1 & H2) (l' & H3 & H4). congruence. Qed.

Lemma queens_readable n b b' : 1 <= n -> rectangular n n b -> rectangular n n b' -> black_white b -> black_white b' ->
  print_queens_board n b = print_queens_board n b' -> b = b'.
Proof.
  intros Hn Hb Hb' Hw Hw' E.
  destruct (queens_drawn n b Hb Hn) as (_ & _ & H1). destruct (queens_drawn n b' Hb' Hn) as (_ & _ & H2). rewrite <- E in H2.
  destruct Hb as [Lb Rb]. destruct Hb' as [Lb' Rb'].
  apply nth_ext with (d := []) (d' := []); [congruence|]. intros r Hr. rewrite Lb in Hr.
  assert (L1 : length (nth r b []) = n) by (apply Rb, nth_In; lia). assert (L2 : length (nth r b' []) = n) by (apply Rb', nth_In; lia).
  apply nth_ext with (d := 0%Z) (d' := 0%Z); [congruence|]. intros c Hc. rewrite L1 in Hc.
  assert (Hchar : forall b0, board_char n b0 (2 * r + 1) (4 * c + 2) = (if (nth c (nth r b0 []) 0 =? 0)%Z then " " else "♛")%string).
  { intros b0. unfold board_char. replace (Nat.even (2 * r + 1)) with false by (symmetry; rewrite Nat.even_add_mul_2 with (n := 1) (m := r) || (rewrite Nat.add_comm, Nat.even_add_mul_2); reflexivity).
    replace ((4 * c + 2) mod 4) with 2 by (rewrite (Nat.add_comm (4 * c)), (Nat.mul_comm 4), Nat.mod_add by lia; reflexivity).
    replace ((2 * r + 1) / 2) with r by (rewrite (Nat.mul_comm 2), Nat.div_add_l by lia; simpl; lia).
    replace ((4 * c + 2) / 4) with c by (rewrite (Nat.mul_comm 4), Nat.div_add_l by lia; simpl; lia).
    unfold pixel. rewrite !Nat2Z.id. reflexivity. }
  pose proof (char_at_unique _ _ _ _ _ (H1 (2 * r + 1) (4 * c + 2) ltac:(lia) ltac:(lia)) (H2 (2 * r + 1) (4 * c + 2) ltac:(lia) ltac:(lia))) as Ech.
  rewrite !Hchar in Ech.
  destruct (Hw (nth r b []) ltac:(apply nth_In; lia) (nth c (nth r b []) 0%Z) ltac:(apply nth_In; lia)) as [Ev|Ev];
  destruct (Hw' (nth r b' []) ltac:(apply nth_In; lia) (nth c (nth r b' []) 0%Z) ltac:(apply nth_In; lia)) as [Ev'|Ev'];
  rewrite Ev, Ev' in *; simpl in Ech; try reflexivity; discriminate.
Qed.

(** ** Sudoku schemas *)
Lemma cell_text v : (forall n, v = Some n -> (0 <= n <= 9)%Z) -> schema_cell v = (" " ++ value_char v ++ " ")%string.
Proof.
  intros H. destruct v as [n|]; [|reflexivity]. specialize (H n eq_refl).
  assert (Hn : (n = 0 \/ n = 1 \/ n = 2 \/ n = 3 \/ n = 4 \/ n = 5 \/ n = 6 \/ n = 7 \/ n = 8 \/ n = 9)%Z) by lia.
  repeat (destruct Hn as [->|Hn]; [reflexivity|]). subst n. reflexivity.
Qed.
Lemma value_char_one v : exists c, value_char v = String c ""%string /\ continuation c = false.
Proof.
  destruct v as [n|]; [|now exists "."%char]. destruct n as [|p|p]; [now exists "."%char| |now exists "."%char].
  destruct p as [[[p|p|]|[p|p|]|]|[[p|p|]|[p|p|]|]|]; simpl; try (eexists; split; reflexivity); destruct p; eexists; split; reflexivity.
Qed.
Lemma chars_concat l : Forall starts l -> chars (String.concat "" l) = concat (map chars l).
Proof.
  intros H. induction H as [|x l [Hne Hx] Hl IH]; [reflexivity|]. destruct l as [|y l].
  - simpl. now rewrite app_nil_r.
  - change (String.concat "" (x :: y :: l)) with (x ++ String.concat "" (y :: l))%string.
    rewrite chars_app; [cbn [map concat]; now rewrite IH|].
    clear IH. inversion Hl as [|? ? [Hy1 Hy2] _]; subst. destruct l as [|z l]; [exact Hy2|].
    change (String.concat "" (y :: z :: l)) with (y ++ String.concat "" (z :: l))%string. apply continues_app; [exact Hy2|]. now intros ->.
Qed.
Lemma cell_chars v : (forall n, v = Some n -> (0 <= n <= 9)%Z) -> starts (schema_cell v) /\ chars (schema_cell v) = [" "; value_char v; " "]%string.
Proof.
  intros H. rewrite (cell_text v H). destruct (value_char_one v) as (c & -> & Hc). split; [split; [discriminate|reflexivity]|].
  simpl. rewrite Hc. reflexivity.
Qed.

Lemma schema_row_chars row : length row = 9 -> (forall n, In (Some n) row -> (0 <= n <= 9)%Z) ->
  length (chars (schema_row row)) = 31 /\ forall j, j <= 30 -> nth_error (chars (schema_row row)) j =
    Some (if (j mod 10 =? 0)%nat then "│" else if (j mod 10 mod 3 =? 2)%nat then value_char (nth (j / 10 * 3 + j mod 10 / 3) row None) else " ")%string.
Proof.
  intros Hl Hok. do 9 (destruct row as [|? row]; [discriminate|]). destruct row; [|discriminate]. clear Hl.
  assert (Hc : forall v, In v [o; o0; o1; o2; o3; o4; o5; o6; o7] -> starts (schema_cell v) /\ chars (schema_cell v) = [" "; value_char v; " "]%string).
  { intros v Hv. apply cell_chars. intros n ->. apply Hok. exact Hv. }
  unfold schema_row, insert_at. cbn [map firstn skipn app].
  assert (Hb : starts "│"%string) by (split; [discriminate|reflexivity]).
  rewrite chars_concat.
  2:{ repeat (apply Forall_cons; [first [exact Hb|apply Hc; simpl; tauto]|]). apply Forall_nil. }
  cbn [map]. rewrite !(fun v Hv => proj2 (Hc v Hv)) by (simpl; tauto).
  change (chars "│") with ["│"%string]. cbn [concat app]. split; [reflexivity|].
  intros j Hj. do 31 (destruct j as [|j]; [reflexivity|]). lia.
Qed.

Lemma sudoku_drawn s : is_schema s -> exists d, print_sudoku_schema s = Ok d /\ length d = 13 /\
  (forall line, In line d -> length (chars line) = 31) /\
  forall i j, i <= 12 -> j <= 30 -> char_at d i j (schema_char s i j).
Proof.
  intros [Hl Hrow]. do 9 (destruct s as [|? s]; [discriminate|]). destruct s; [|discriminate]. clear Hl.
  unfold print_sudoku_schema, schema_rows. cbn [mapM nth_error bind app].
  eexists. split; [reflexivity|]. split; [reflexivity|].
  assert (Hr : forall row, In row [l; l0; l1; l2; l3; l4; l5; l6; l7] -> length (chars (schema_row row)) = 31 /\ forall j, j <= 30 -> nth_error (chars (schema_row row)) j =
    Some (if (j mod 10 =? 0)%nat then "│" else if (j mod 10 mod 3 =? 2)%nat then value_char (nth (j / 10 * 3 + j mod 10 / 3) row None) else " ")%string).
  { intros row Hin. apply schema_row_chars; apply Hrow, Hin. }
  split.
  - intros line Hin. cbn [In] in Hin.
    repeat (destruct Hin as [<-|Hin]; [first [reflexivity|apply Hr; simpl; tauto]|]). contradiction.
  - intros i j Hi Hj. unfold char_at.
    do 13 (destruct i as [|i]; [eexists; split; [reflexivity|];
      lazymatch goal with
      | |- nth_error (chars (schema_row ?row)) _ = _ => rewrite (proj2 (Hr row ltac:(simpl; tauto)) j Hj); reflexivity
      | _ => clear - Hj; do 31 (destruct j as [|j]; [reflexivity|]); lia
      end|]). lia.
Qed.

Lemma sudoku_short s : length s < 9 -> print_sudoku_schema s = Err IndexError.
Proof.
  intros H. do 9 (destruct s as [|? s]; [reflexivity|]). simpl in H. lia.
Qed.

Lemma schema_char_cell s r c : r < 9 -> c < 9 -> schema_char s (cell_line r) (cell_column c) = value_char (schema_value s r c).
Proof.
  intros Hr Hc. do 9 (destruct r as [|r]; [do 9 (destruct c as [|c]; [reflexivity|]); lia|]). lia.
Qed.
Lemma value_char_same v v' : (forall n, v = Some n -> (0 <= n <= 9)%Z) -> (forall n, v' = Some n -> (0 <= n <= 9)%Z) ->
  value_char v = value_char v' -> same_value v v'.
Proof.
  assert (D : forall w, (forall n, w = Some n -> (0 <= n <= 9)%Z) ->
    w = None \/ (w = Some 0 \/ w = Some 1 \/ w = Some 2 \/ w = Some 3 \/ w = Some 4 \/ w = Some 5 \/ w = Some 6 \/ w = Some 7 \/ w = Some 8 \/ w = Some 9)%Z).
  { intros [n|] H; [|now left]. right. specialize (H n eq_refl).
    assert (Hn : (n = 0 \/ n = 1 \/ n = 2 \/ n = 3 \/ n = 4 \/ n = 5 \/ n = 6 \/ n = 7 \/ n = 8 \/ n = 9)%Z) by lia.
    intuition (subst; auto 12). }
  intros H H' E. unfold same_value. destruct (D v H) as [->|[->|Hv]]; destruct (D v' H') as [->|[->|Hv']]; auto.
  - exfalso. intuition (subst; discriminate).
  - exfalso. intuition (subst; discriminate).
  - exfalso. intuition (subst; discriminate).
  - exfalso. intuition (subst; discriminate).
  - left. repeat (destruct Hv as [->|Hv] || (subst v)); repeat (destruct Hv' as [->|Hv'] || (subst v')); first [reflexivity|discriminate].
Qed.
Lemma schema_value_ok s r c n : is_schema s -> schema_value s r c = Some n -> (0 <= n <= 9)%Z.
Proof.
  intros [Hl Hs] E. unfold schema_value in E. destruct (nth_in_or_default r s []) as [Hin|E0].
  - destruct (Hs _ Hin) as [_ Hv]. apply Hv. destruct (nth_in_or_default c (nth r s []) None) as [Hin'|E1]; congruence.
  - rewrite E0 in E. destruct c; discriminate.
Qed.
Lemma sudoku_readable s s' : is_schema s -> is_schema s' -> print_sudoku_schema s = print_sudoku_schema s' ->
  forall r c, r < 9 -> c < 9 -> same_value (schema_value s r c) (schema_value s' r c).
Proof.
  intros H H' E r c Hr Hc. destruct (sudoku_drawn s H) as (d & Ed & _ & _ & H1). destruct (sudoku_drawn s' H') as (d' & Ed' & _ & _ & H2).
  assert (d' = d) by congruence. subst d'.
  assert (Hi : cell_line r <= 12) by (clear - Hr; do 9 (destruct r as [|r]; [cbv; lia|]); lia).
  assert (Hj : cell_column c <= 30) by (clear - Hc; do 9 (destruct c as [|c]; [cbv; lia|]); lia).
  pose proof (char_at_unique _ _ _ _ _ (H1 _ _ Hi Hj) (H2 _ _ Hi Hj)) as Ech. rewrite !schema_char_cell in Ech by assumption.
  apply value_char_same; [intros n; now apply schema_value_ok|intros n; now apply schema_value_ok|exact Ech].
Qed.
