(** What a grid of labels means, stated on the caller's arguments. *)
From Coq Require Import List Bool Arith Ascii Sorted.
From Verif Require Import Base ModelPrinter ModelMplot.
Import ListNotations.

(** the label the caller wrote for row [j], column [k] *)
Definition entry (a : larg) (j k : nat) : option text :=
  match a with
  | LStr s => match j, k with 0, 0 => Some s | _, _ => None end
  | LFlat l => match k with 0 => nth j l None | _ => None end
  | LNested l => nth k (nth j l []) None
  | LOther => None
  end.
Definition entry_opt (a : option larg) (j k : nat) : option text :=
  match a with None => None | Some a => entry a j k end.
(** the argument is a grid of [r] rows and [c] columns *)
Definition grid (a : larg) (r c : nat) : Prop :=
  match a with
  | LStr _ => r = 1 /\ c = 1
  | LFlat l => r = List.length l /\ c = 1
  | LNested l => l <> [] /\ r = List.length l /\ forall row, In row l -> List.length row = c
  | LOther => False
  end.
(** the argument is a grid with at least [r] rows and [c] columns, or is not given *)
Definition covers (a : option larg) (r c : nat) : Prop :=
  match a with None => True | Some a => exists r' c', grid a r' c' /\ r <= r' /\ c <= c' end.

(** the subplots of a figure in the cell of row [j], column [k] *)
Definition subplots_at (f : figure) (j k : nat) : list axes := filter (fun a => ax_num a =? j * f_c f + k + 1) (f_ax f).
Definition twins_at (f : figure) (j k : nat) : option (list (option text)) :=
  match f_twin f with None => None | Some l => Some (map snd (filter (fun a => fst a =? j * f_c f + k + 1) l)) end.
Definition given {A} (x : option A) : bool := match x with None => false | Some _ => true end.

(** every cell with an x label has one subplot with its own labels, other cells have none; the
    subplots come in row-major order and there are no others *)
Definition labelled (f : figure) (x y : larg) (tw z : option larg) (title : nat -> nat -> option text) (r c : nat) : Prop :=
  f_r f = r /\ f_c f = c /\
  StronglySorted lt (map ax_num (f_ax f)) /\
  (forall a, In a (f_ax f) -> exists j k, j < r /\ k < c /\ ax_num a = j * c + k + 1) /\
  (forall j k, j < r -> k < c ->
     subplots_at f j k = match entry x j k with
                         | None => []
                         | Some s => [Axes (j * c + k + 1) (given z) (Some s) (entry y j k) (entry_opt z j k) (title j k)]
                         end) /\
  match tw with
  | None => f_twin f = None
  | Some tw => forall j k, j < r -> k < c -> twins_at f j k = Some (if given (entry x j k) then [entry tw j k] else [])
  end.

(** the entries of a grid in row-major order, and those that are given *)
Definition row_major {A} (r c : nat) (e : nat -> nat -> A) : list A := flat_map (fun j => map (e j) (seq 0 c)) (seq 0 r).
Definition the_given {A} (l : list (option A)) : list A := flat_map (fun x => match x with None => [] | Some a => [a] end) l.
