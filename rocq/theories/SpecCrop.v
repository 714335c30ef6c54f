(** Cropping an image to what differs from its corner pixel. *)
From Coq Require Import List Arith.
From Verif Require Import ModelCrop.
Import ListNotations.

(** an [h] by [w] image with [n] channels *)
Definition rectangular (im : image) (h w n : nat) : Prop :=
  length im = h /\ forall row, In row im -> length row = w /\ forall px, In px row -> length px = n.
Definition pixel (im : image) (i j : nat) : option (list nat) := match nth_error im i with None => None | Some row => nth_error row j end.
Definition channel (im : image) (i j z : nat) : option nat := match pixel im i j with None => None | Some px => nth_error px z end.
(** the image has a pixel there, unlike the corner pixel *)
Definition drawn (im : image) (i j : nat) : Prop := exists px, pixel im i j = Some px /\ pixel im 0 0 <> Some px.
(** some pixel differs from the corner pixel in channel [z] *)
Definition varies (im : image) (z : nat) : Prop := exists i j v, channel im i j z = Some v /\ channel im 0 0 z <> Some v.
(** rows [t] to [b - 1] and columns [l] to [r - 1] contain everything drawn *)
Definition contains_drawing (im : image) (t b l r : nat) : Prop := forall i j, drawn im i j -> t <= i < b /\ l <= j < r.
(** [out] is that part of [im] *)
Definition is_part (im out : image) (t b l r : nat) : Prop :=
  length out = b - t /\ (forall row, In row out -> length row = r - l) /\
  forall i j, i < b - t -> j < r - l -> pixel out i j = pixel im (t + i) (l + j).
(** [out] is the smallest part that contains everything drawn *)
Definition tight (im out : image) : Prop := exists t b l r,
  is_part im out t b l r /\ contains_drawing im t b l r /\ (exists i j, drawn im i j) /\
  forall t' b' l' r', contains_drawing im t' b' l' r' -> t' <= t /\ b <= b' /\ l' <= l /\ r <= r'.
