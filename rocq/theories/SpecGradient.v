(** A gradient of 256 colours. *)
From Coq Require Import Reals ZArith List.
Import ListNotations.

(** the largest whole number not above [x] *)
Definition rounded_down (v : Z) (x : R) : Prop := (IZR v <= x < IZR v + 1)%R.
Definition mix (a b t : R) : R := ((1 - t) * a + t * b)%R.
Definition unit (x : R) : Prop := (0 <= x <= 1)%R.
Definition at2 {A} (l : list (list A)) (i z : nat) : option A := match nth_error l i with None => None | Some row => nth_error row z end.
