(** Specification: the pixmap shown by an image, and the image of a pixmap. *)
From Coq Require Import List ZArith String Ascii.
From Verif Require Import SpecNonogram SpecAscii.
Import ListNotations.
Open Scope Z_scope.

(** The largest of the lengths of the lines. *)
Definition width {A} (lines : list (list A)) (n : nat) : Prop :=
  (forall l, In l lines -> (List.length l <= n)%nat) /\ (lines = [] -> n = 0%nat) /\ (lines <> [] -> exists l, In l lines /\ List.length l = n).

(** [b] is as high and as wide as the image; its black cells are the characters of the image
    that do not stand for white ones. *)
Definition shows (zeroes : list ascii) (lines : list (list ascii)) (b : list (list Z)) : Prop :=
  black_white b /\ (exists nc, width lines nc /\ rectangular (List.length lines) nc b) /\
  forall r c, 0 <= r -> 0 <= c -> (pixel b r c = 1 <-> exists ch, at_cell lines (r, c) ch /\ ~ In ch zeroes).

(** The drawing is as high and as wide as the pixmap; each cell is drawn with one of the two
    texts, the non-zero ones with the second. *)
Definition drawn {A} (zero one : A) (b : list (list Z)) (g : list (list A)) : Prop :=
  exists nc, width b nc /\ List.length g = List.length b /\ (forall l, In l g -> List.length l = nc) /\
  forall r c, 0 <= r < Z.of_nat (List.length b) -> 0 <= c < Z.of_nat nc -> at_cell g (r, c) (if pixel b r c =? 0 then zero else one).
