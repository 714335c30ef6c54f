(** Sizes of figures on the screen: [FullScreen] and [PartScreen] of utils/MakePlot.py 189-218 and of
    utils/PlotlyMakePlot.py 619-662.

    [tk.Tk()] is modelled by what it tells of the screen.  Python's floats are real numbers here, and
    a division by zero ([ZeroDivisionError]) is [None]. *)
From Coq Require Import Reals ZArith Bool Ascii String List.
From Flocq Require Import Core.
From Verif Require Import Base ModelPrinter.
Open Scope R_scope.

(** [winfo_screenwidth], [winfo_screenheight] in pixels, [winfo_screenmmwidth], [winfo_screenmmheight] *)
Record screen := Screen { px_w : Z; px_h : Z; mm_w : Z; mm_h : Z }.
(** what the screen sizes of a figure are set to; a figure of matplotlib has inches and a resolution *)
Record msize := MSize { in_w : R; in_h : R; dpi : R }.
(** layout.width, layout.height of a figure of Plotly: pixels *)
Record psize := PSize { p_w : R; p_h : R }.

(** [a / b] *)
Definition pydiv (a b : R) : option R := if Req_EM_T b 0 then None else Some (a / b).
(** [int(x)] cuts off towards zero *)
Definition pyint (x : R) : R := IZR (Ztrunc x).

(** MakePlot.FullScreen, 189-204: [dpi = float(self.fig.get_dpi())] *)
Definition FullScreen_m (s : screen) (f : msize) : option msize :=
  w <- pydiv (IZR (px_w s)) (dpi f) ;;
  h <- pydiv (IZR (px_h s)) (dpi f) ;;
  Some (MSize w h (dpi f)).
(** MakePlot.PartScreen, 206-218 *)
Definition PartScreen_m (width height : R) (f : msize) : msize := MSize width height (dpi f).

(** PlotlyMakePlot.FullScreen, 619-630 *)
Definition FullScreen_p (s : screen) : psize := PSize (IZR (px_w s)) (IZR (px_h s)).
(** PlotlyMakePlot.PartScreen, 632-662 *)
Definition PartScreen_p (s : screen) (width height : R) (units : text) : option psize :=
  if negb (teqb units (txt "px")) then
    wh <- (if teqb units (txt "in") then
             iw <- pydiv (IZR (mm_w s)) 25.4 ;; w <- pydiv (IZR (px_w s)) iw ;;
             ih <- pydiv (IZR (mm_h s)) 25.4 ;; h <- pydiv (IZR (px_h s)) ih ;;
             Some (w, h)
           else
             w <- pydiv (IZR (px_w s)) (IZR (mm_w s)) ;;
             h <- pydiv (IZR (px_h s)) (IZR (mm_h s)) ;;
             Some (w, h)) ;;
    Some (PSize (pyint (width * fst wh)) (pyint (height * snd wh)))
  else Some (PSize width height).
