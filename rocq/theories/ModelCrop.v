(** Tight saving of PNG images: save of utils/PlotlyMakePlot.py, 522-536.

    The rendered image is the array PIL makes of it: rows of pixels of channels, bytes being
    natural numbers.  [np.argwhere] lists indices in order; [min] and [max] of an empty array
    raise.  [Image.fromarray(box, "RGBA")] takes four bytes per pixel and raises when the buffer
    is too small; the box has at least one pixel.  An exception is [None]. *)
From Coq Require Import List Bool Arith.
From Verif Require Import Base.
Import ListNotations.

Definition image := list (list (list nat)).
(** the elements with their indices *)
Definition indexed {A} (l : list A) : list (nat * A) := combine (seq 0 (length l)) l.
(** [np.argwhere(pngArray != blankPx)], 530-531; [blankPx] is broadcast over rows and columns *)
Definition argwhere (im : image) (blankPx : list nat) : list (nat * nat * nat) :=
  flat_map (fun '(i, row) => flat_map (fun '(j, px) => flat_map (fun '(z, (v, b)) =>
    if v =? b then [] else [(i, j, z)]) (indexed (combine px blankPx))) (indexed row)) (indexed im).
Definition min_of (l : list nat) : option nat := match l with [] => None | a :: r => Some (fold_left Nat.min r a) end.
Definition max_of (l : list nat) : option nat := match l with [] => None | a :: r => Some (fold_left Nat.max r a) end.
(** [l[a:b]] for [0 <= a] *)
Definition slice {A} (a b : nat) (l : list A) : list A := firstn (b - a) (skipn a l).
(** 528-535 *)
Definition tight_png (im : image) : option image :=
  row0 <- nth_error im 0 ;;
  blankPx <- nth_error row0 0 ;;
  let coords := argwhere im blankPx in
  x0 <- min_of (map (fun p => fst (fst p)) coords) ;;
  y0 <- min_of (map (fun p => snd (fst p)) coords) ;;
  z0 <- min_of (map snd coords) ;;
  x1 <- max_of (map (fun p => fst (fst p)) coords) ;;
  y1 <- max_of (map (fun p => snd (fst p)) coords) ;;
  z1 <- max_of (map snd coords) ;;
  let box := map (fun row => map (slice z0 (S z1)) (slice y0 (S y1) row)) (slice x0 (S x1) im) in
  if 4 <=? S z1 - z0 then Some box else None.
