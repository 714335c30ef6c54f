(** Colours of the subplots of a Plotly figure, by row and column. *)
From Coq Require Import Reals List Bool Arith String.
From Verif Require Import Base ModelPrinter ModelMplot SpecMplot ModelPlotly SpecPlotly ModelPlotlyCol.
Import ListNotations.
Local Open Scope list_scope.

(** the axes of the subplot in row [j], column [k] (from 0) of a figure with [c] columns *)
Definition sub_axes (p : pcol) (c j k : nat) (is3d : bool) : option (list acol) :=
  option_map (fun s => if is3d then [s_x s; s_y s; s_z s] else [s_x s; s_y s]) (nth_error (c_sub p) (j * c + k)).
(** what holds of all axes of the subplot *)
Definition all_axes (P : acol -> Prop) (p : pcol) (c j k : nat) (is3d : bool) : Prop :=
  exists l, sub_axes p c j k is3d = Some l /\ l <> [] /\ forall a, In a l -> P a.
(** its grid and background are in the colours of the class *)
Definition in_colours (grid back : text) (a : acol) : Prop := a_grid a = Some grid /\ a_back a = Some back.
(** its colours are left to Plotly *)
Definition untouched (a : acol) : Prop := a_grid a = None /\ a_zero a = None /\ a_line a = None /\ a_back a = None.
