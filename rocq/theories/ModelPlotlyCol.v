(** The colours the Plotly figure class sets in __init__ (247-287 of utils/PlotlyMakePlot.py).

    Plotly is modelled as in ModelPlotly.v, by what it is told: [update_xaxes] and [update_yaxes] change
    all x and y axes of the figure; a colour that was not set is [None] (Plotly then takes its own
    default or the template's).  The template itself (289-292) is left out: it names no axis colours. *)
From Coq Require Import Reals List Bool Arith Ascii String.
From Verif Require Import Base ModelPrinter ModelMplot ModelPlotly.
Import ListNotations.
Local Open Scope list_scope.

(** the colours of an axis: grid, zero line, axis line, background *)
Record acol := ACol { a_grid : option text; a_zero : option text; a_line : option text; a_back : option text }.
Definition no_colour : acol := ACol None None None None.
(** the axes of one subplot or scene *)
Record scol := SCol { s_x : acol; s_y : acol; s_z : acol }.
(** the colours of the subplots in the order of their numbers, and of the background of the plot area *)
Record pcol := PCol { c_sub : list scol; c_plot : option text }.

Section Colours.
(** [self._gridColor], [self._backgroundColor], 79-80 *)
Variables grid back : text.
Definition on_all (f : acol -> acol) (s : scol) : scol := SCol (f (s_x s)) (f (s_y s)) (f (s_z s)).
(** 252-263 *)
Definition first_scene (a : acol) : acol := ACol (Some grid) (a_zero a) (a_line a) (Some back).
(** 265-279 *)
Definition other_scene (a : acol) : acol := ACol (Some grid) (Some grid) (a_line a) (Some back).
(** 281-286 *)
Definition flat_axis (a : acol) : acol := ACol (Some grid) (Some grid) (Some (txt "black")) (a_back a).
Definition flat_sub (s : scol) : scol := SCol (flat_axis (s_x s)) (flat_axis (s_y s)) (s_z s).
(** 249-279: the scene of row [row], column [col] is called scene or scene[row+col+1] *)
Definition scene_loop (r c : nat) (l : list scol) : option (list scol) :=
  foldM (fun (rc : nat * nat) (l : list scol) =>
    let (row, col) := rc in
    if (row =? 0) && (col =? 0) then modify (on_all first_scene) l 0
    else modify (on_all other_scene) l (row + col + 1 - 1)) (cells r c) l.
(** 248-287 *)
Definition colours (is3d : bool) (r c : nat) : option pcol :=
  let blank := repeat (SCol no_colour no_colour no_colour) (r * c) in
  if is3d then l <- scene_loop r c blank ;; Some (PCol l None)
  else Some (PCol (map flat_sub blank) (Some back)).
(** __init__ with the colours *)
Definition PlotlyPlotC (keep : bool) (xlabs ylabs : larg) (titles zlabs : option larg) : option (pfig * pcol) :=
  f <- PlotlyPlot keep xlabs ylabs titles zlabs ;;
  c <- colours (pf_3d f) (pf_r f) (pf_c f) ;;
  Some (f, c).
End Colours.
