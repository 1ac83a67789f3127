(** Properties of the images of demo_nonogram.py. *)
From Verif Require Import DemoImage SpecImage SpecNonogram SpecAscii SpecPuzzle SpecSolve ImageFacts.
Open Scope string_scope.
Open Scope list_scope.
Open Scope Z_scope.

(** C55: drawing a black and white pixmap with at least one row and reading it again gives the
    same pixmap, with the default characters or any others. *)
Theorem C55_round_trip : forall nr nc b zeroes zero one, rectangular nr nc b -> (0 < nr)%nat -> black_white b ->
  In zero zeroes -> ~ In one zeroes -> zero <> ascii_of_nat 10 -> one <> ascii_of_nat 10 ->
  (let! image := pixmap_to_image b (String zero "") (String one "") in image_to_pixmap image zeroes) = Ok b.
Proof. exact image_round_trip. Qed.
Print Assumptions C55_round_trip.

Example C55_round_trip_case :
  let b := [[0; 1; 1]; [0; 0; 0]; [1; 0; 1]] in
  rectangular 3 3 b /\ black_white b /\ In ZERO ZEROES /\ ~ In ONE ZEROES /\
  pixmap_to_image b (String ZERO "") (String ONE "") =
    Ok (" ##" ++ String (ascii_of_nat 10) ("   " ++ String (ascii_of_nat 10) "# #"))%string.
Proof.
  split; [split; [reflexivity|]|split; [|split; [|split]]].
  - intros row H. cbn in H. intuition; now subst.
  - intros row H v Hv. cbn in H. destruct H as [<-|[<-|[<-|[]]]]; cbn in Hv; intuition.
  - now left.
  - intros [H|[H|[]]]; discriminate.
  - vm_compute. reflexivity.
Qed.

(** C55: the pixmap read from any image is as high and as wide as the image, and its black
    cells are the characters of the image that do not stand for white ones. *)
Theorem C55_shows : forall image zeroes lines, lines_of image lines -> exists b, image_to_pixmap image zeroes = Ok b /\ shows zeroes lines b.
Proof. exact image_shows. Qed.
Print Assumptions C55_shows.

(** C55: there is only one such pixmap. *)
Theorem C55_shows_unique : forall zeroes lines b b', shows zeroes lines b -> shows zeroes lines b' -> b = b'.
Proof. exact shows_unique. Qed.
Print Assumptions C55_shows_unique.

(** A newline at the end of the image is a blank row of the pixmap. *)
Example C55_shows_case :
  image_to_pixmap ("_x" ++ String (ascii_of_nat 10) ("x y" ++ String (ascii_of_nat 10) ""))%string ZEROES = Ok [[0; 1; 0]; [1; 0; 1]; [0; 0; 0]] /\
  lines_of ("_x" ++ String (ascii_of_nat 10) ("x y" ++ String (ascii_of_nat 10) ""))%string [["_"%char; "x"%char]; ["x"%char; " "%char; "y"%char]; []].
Proof.
  split; [vm_compute; reflexivity|]. split; [reflexivity|]. split; [discriminate|].
  intros l H F. cbn in H. destruct H as [<-|[<-|[<-|[]]]]; cbn in F; intuition discriminate.
Qed.

(** C55: any pixmap, even with rows of different lengths and other values than 0 and 1, can
    be drawn, with any two texts. *)
Theorem C55_drawn : forall b zero one, exists g, drawn zero one b g /\
  pixmap_to_image b zero one = Ok (String.concat (String (ascii_of_nat 10) "") (map (String.concat "") g)).
Proof. exact image_drawn. Qed.
Print Assumptions C55_drawn.

Example C55_drawn_case : pixmap_to_image [[7]; [0; 1]] ".." "##" = Ok ("##.." ++ String (ascii_of_nat 10) "..##")%string.
Proof. vm_compute. reflexivity. Qed.

(** C55: reading the drawing of such a pixmap again. *)
Theorem C55_normalised : forall b zeroes zero one, b <> [] -> In zero zeroes -> ~ In one zeroes -> zero <> ascii_of_nat 10 -> one <> ascii_of_nat 10 ->
  exists b' nc, (let! image := pixmap_to_image b (String zero "") (String one "") in image_to_pixmap image zeroes) = Ok b' /\
    width b nc /\ rectangular (length b) nc b' /\ forall r c, 0 <= r -> 0 <= c -> pixel b' r c = if pixel b r c =? 0 then 0 else 1.
Proof. exact redraw_pixels. Qed.
Print Assumptions C55_normalised.

Example C55_normalised_case :
  (let! image := pixmap_to_image [[7]; [0; -1; 0]] " " "#" in image_to_pixmap image ZEROES) = Ok [[1; 0; 0]; [0; 1; 0]].
Proof. vm_compute. reflexivity. Qed.

(** C55: a pixmap without rows is read again as a pixmap with one row. *)
Theorem C55_empty_refuted : exists b, rectangular 0 0 b /\ black_white b /\
  (let! image := pixmap_to_image b " " "#" in image_to_pixmap image ZEROES) <> Ok b.
Proof.
  exists []. split; [split; [reflexivity|intros row []]|]. split; [intros row []|]. vm_compute. discriminate.
Qed.
Print Assumptions C55_empty_refuted.

(** C55, the other way round: an image whose lines have the same length and consist of the two
    characters. *)
Theorem C55_image_round_trip : forall image lines n zeroes zero one, lines_of image lines -> (forall l, In l lines -> length l = n) ->
  (forall l c, In l lines -> In c l -> c = zero \/ c = one) -> In zero zeroes -> ~ In one zeroes ->
  (let! b := image_to_pixmap image zeroes in pixmap_to_image b (String zero "") (String one "")) = Ok image.
Proof. exact pixmap_round_trip. Qed.
Print Assumptions C55_image_round_trip.

Example C55_image_round_trip_case :
  lines_of ("# " ++ String (ascii_of_nat 10) " #")%string [["#"%char; " "%char]; [" "%char; "#"%char]].
Proof.
  split; [reflexivity|]. split; [discriminate|]. intros l H F. cbn in H. destruct H as [<-|[<-|[]]]; cbn in F; intuition discriminate.
Qed.

(** C55: solving the nonogram of an image with a black cell enumerates exactly the pixmaps with
    the clues of the image, and the pixmap it shows is one of them. *)
Theorem C55_solved : forall clk shuffle o image lines zeroes p ch, lines_of image lines -> at_cell lines p ch -> ~ In ch zeroes -> shuffles shuffle ->
  exists rows cols b, image_to_nonogram image zeroes = Ok (rows, cols) /\ shows zeroes lines b /\ matches rows cols b /\
    exactly (fun fuel => nonogram_run clk shuffle fuel rows cols o) (matches rows cols) (o_timeout o) (o_limit o).
Proof. exact image_solved. Qed.
Print Assumptions C55_solved.

Example C55_solved_case :
  (let! p := image_to_nonogram ("##" ++ String (ascii_of_nat 10) "  #")%string ZEROES in
   Ok (nonogram_run (fun _ => 0) (fun l => l) 2000 (fst p) (snd p) (Options None LNone LNone true))) =
  Ok (Some ([[[1; 1; 0]; [0; 0; 1]]; [[0; 1; 1]; [1; 0; 0]]], None, None)).
Proof. vm_compute. reflexivity. Qed.
