(** The Plotly figure class: __init__ (81-292) and view (565-617) of utils/PlotlyMakePlot.py.

    Label arguments are those of ModelMplot.v.  Plotly is modelled by what it is told.
    [make_subplots] numbers the subplots row by row, from 1; the axes (or the scene) of subplot
    1 have no number.  [axis.update(title=None)] leaves the title alone or removes it; the model
    takes which as a parameter, [keep].  Colours and templates are left out; angles and distances
    are real numbers. *)
From Coq Require Import Reals List Bool Arith Ascii String.
From Verif Require Import Base ModelPrinter ModelMplot.
Import ListNotations.
Local Open Scope list_scope.

(** the texts of one subplot's axes, and the eye of its camera if it was set *)
Record psub := PSub { p_x : option text; p_y : option text; p_z : option text; p_eye : option (R * R * R) }.
Definition blank : psub := PSub None None None None.
(** [axis.update(title=t)] *)
Definition upd (keep : bool) (t old : option text) : option text := match t with None => if keep then old else None | Some _ => t end.
Definition upd_titles (keep : bool) (x y z : option text) (s : psub) : psub :=
  PSub (upd keep x (p_x s)) (upd keep y (p_y s)) (upd keep z (p_z s)) (p_eye s).

(** a figure: its grid, whether it is three-dimensional, its subplots in the order of their numbers,
    their titles, and the current view distance *)
Record pfig := PFig { pf_r : nat; pf_c : nat; pf_3d : bool; pf_sub : list psub; pf_titles : list (option text); pf_dist : R }.

(** 150-160: titles as a flat list *)
Definition flat_titles (t : option larg) : option (option (list (option text))) :=
  match t with None => Some None | Some t => L <- norm t ;; Some (Some (List.concat (l_d L))) end.
(** 191-251: the numbered axes of the subplot in row [row], column [col], both from 0 *)
Definition axis_index (row col : nat) : nat := if (row =? 0) && (col =? 0) then 0 else row + col + 1 - 1.
Definition put_labels (keep : bool) (X Y : labs) (Z : option labs) (subs : list psub) : option (list psub) :=
  foldM (fun (rc : nat * nat) (subs : list psub) =>
    let (row, col) := rc in
    x <- at_ X row col ;;
    y <- at_ Y row col ;;
    z <- match Z with None => Some None | Some Z => at_ Z row col end ;;
    modify (upd_titles keep x y z) subs (axis_index row col)) (cells (l_r X) (l_c X)) subs.
(** __init__: 104-251; a grid without cells is rejected by make_subplots, and a single title list
    without entries raises IndexError *)
Definition PlotlyPlot (keep : bool) (xlabs ylabs : larg) (titles zlabs : option larg) : option pfig :=
  X <- norm xlabs ;;
  Y <- norm ylabs ;;
  Z <- norm_opt zlabs ;;
  T <- flat_titles titles ;;
  let n := l_r X * l_c X in
  let is3d := match Z with None => false | Some _ => true end in
  ts <- match n with
        | 0 => None
        | 1 => match T with None => Some [None] | Some [] => None | Some (t :: _) => Some [t] end
        | _ => match T with None => Some (repeat None n) | Some l => Some (firstn n (l ++ repeat None n)) end
        end ;;
  subs <- put_labels keep X Y Z (repeat blank n) ;;
  Some (PFig (l_r X) (l_c X) is3d subs ts (25 / 10)).

(** view, 591-617 *)
Definition set_eye (e : R * R * R) (s : psub) : psub := PSub (p_x s) (p_y s) (p_z s) (Some e).
Definition view (f : pfig) (azimuth elevation : R) (row col : option nat) (viewDistance : option R) : option pfig :=
  if pf_3d f then
    let d := match viewDistance with
             | Some v => if Req_EM_T v 0 then pf_dist f else v
             | None => pf_dist f
             end in
    let a := (azimuth * (PI / 180))%R in
    let e := (elevation * (PI / 180))%R in
    let dark := (d * (- sin a * cos e), d * (- cos a * cos e), d * sin e)%R in
    let scene := match row, col with
                 | Some (S r), Some (S c) => S r + S c - 1 - 1
                 | _, _ => 0
                 end in
    subs <- modify (set_eye dark) (pf_sub f) scene ;;
    Some (PFig (pf_r f) (pf_c f) (pf_3d f) subs (pf_titles f) d)
  else None.
