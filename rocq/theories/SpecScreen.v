(** Lengths on a screen. *)
From Coq Require Import Reals ZArith Ascii String List.
From Verif Require Import Base ModelPrinter ModelScreen.
Open Scope R_scope.

(** a screen that knows its size *)
Definition real_screen (s : screen) : Prop := (0 < px_w s /\ 0 < px_h s /\ 0 < mm_w s /\ 0 < mm_h s)%Z.
(** the units the documentation lists, in millimetres *)
Definition unit_mm (u : text) (k : R) : Prop := (u = txt "in" /\ k = 25.4) \/ (u = txt "mm" /\ k = 1).
(** [p] is the whole number of pixels that fit into [l] millimetres where [px] pixels take [mm] millimetres *)
Definition whole_pixels (p l : R) (px mm : Z) : Prop :=
  (exists n, p = IZR n) /\ p * IZR mm <= l * IZR px < (p + 1) * IZR mm.
