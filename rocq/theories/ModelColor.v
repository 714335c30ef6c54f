(** NormalizeColorScale of utils/PlotlyMakePlot.py, 664-717.

    A trace of the figure is its class name, what [data in trace] gives (whether the trace type has
    a property of that name; [None] if the test raises, as it does for [data=None]), the numbers
    [trace[data]] holds ([None] if the property is not set), whether the trace type has the
    properties cmax and cmin, and their values.  Numbers are real, -inf and inf being separate.
    An exception is [None]. *)
From Coq Require Import Reals List Bool.
From Verif Require Import Base ModelPrinter ModelMplot.
Import ListNotations.

Inductive ext := NInf | Fin (x : R) | PInf.
Record trace := Trace { t_class : text; t_in : option bool; t_val : option (list R); t_scaled : bool; t_cmax : option ext; t_cmin : option ext }.
Definition listed (types : list text) (k : trace) : bool := existsb (teqb (t_class k)) types.
(** [a > b] and [a < b] for a number [a] *)
Definition gt_ext (a : R) (b : ext) : bool := match b with NInf => true | PInf => false | Fin b => if Rlt_dec b a then true else false end.
Definition lt_ext (a : R) (b : ext) : bool := match b with NInf => false | PInf => true | Fin b => if Rlt_dec a b then true else false end.
(** [array.max()] and [array.min()]; they raise on empty arrays *)
Definition amax (l : list R) : option R := match l with [] => None | a :: r => Some (fold_left Rmax r a) end.
Definition amin (l : list R) : option R := match l with [] => None | a :: r => Some (fold_left Rmin r a) end.

(** the loop of 694-706; the first component is kmax and kmin, [None] before they are assigned *)
Definition scan (types : list text) (ks : list trace) : option (option (R * R) * (ext * ext)) :=
  foldM (fun k (s : option (R * R) * (ext * ext)) =>
    let '(kk, (cmax, cmin)) := s in
    if listed types k then
      b <- t_in k ;;
      kk <- (if b then v <- t_val k ;; mx <- amax v ;; mn <- amin v ;; Some (Some (mx, mn)) else Some kk) ;;
      match kk with
      | None => None
      | Some (kmax, kmin) =>
          Some (Some (kmax, kmin), (if gt_ext kmax cmax then Fin kmax else cmax, if lt_ext kmin cmin then Fin kmin else cmin))
      end
    else Some s) ks (None, (NInf, PInf)).
(** [k.update(colorScaleUpdate)], 708-717 *)
Definition rescale (types : list text) (cmax cmin : option ext) (k : trace) : option trace :=
  if listed types k then
    b <- t_in k ;;
    if b then
      if t_scaled k
      then Some (Trace (t_class k) (t_in k) (t_val k) (t_scaled k)
                   (match cmax with None => t_cmax k | Some _ => cmax end) (match cmin with None => t_cmin k | Some _ => cmin end))
      else None
    else Some k
  else Some k.
Definition NormalizeColorScale (types : list text) (cmax cmin : option ext) (ks : list trace) : option (list trace) :=
  c <- (match cmax, cmin with
        | None, None => s <- scan types ks ;; Some (Some (fst (snd s)), Some (snd (snd s)))
        | _, _ => Some (cmax, cmin)
        end) ;;
  mapM (rescale types (fst c) (snd c)) ks.
