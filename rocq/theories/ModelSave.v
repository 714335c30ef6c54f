(** Saving figures and animations: save and animate of utils/MakePlot.py (232-271, 303-348),
    utils/PlotlyMakePlot.py (481-542) and utils/MayaviMakePlot.py (157-268).

    The result of saving is the name of the file written and the type of its content; [None] is
    an exception.  matplotlib is told the type; Plotly's write_image, PIL and Mayavi take it from
    the file name's suffix, found as pathlib does (without changing case), and raise if there is
    none.  Rendering, cropping (ModelCrop.v), warnings and making the output directory are left out. *)
From Coq Require Import List Bool Arith ZArith Ascii String.
From Verif Require Import Base ModelPrinter.
Import ListNotations.
Local Open Scope list_scope.

Definition slash : ascii := "/"%char.
Definition dot : ascii := "."%char.
(** pathlib: the parts between slashes *)
Fixpoint split_at (acc t : text) : list text :=
  match t with
  | [] => [acc]
  | c :: r => if Ascii.eqb c slash then acc :: split_at [] r else split_at (acc ++ [c]) r
  end.
(** pathlib drops empty parts and single dots *)
Definition parts (t : text) : list text :=
  filter (fun p => negb (teqb p [] || teqb p [dot])) (split_at [] t).
Definition path_name (t : text) : text := last (parts t) [].
(** [name.rfind('.')] *)
Fixpoint rfind (i : nat) (t : text) : option nat :=
  match t with
  | [] => None
  | c :: r => match rfind (S i) r with
              | Some k => Some k
              | None => if Ascii.eqb c dot then Some i else None
              end
  end.
(** [Path(t).suffix] *)
Definition suffix (t : text) : text :=
  let name := path_name t in
  match rfind 0 name with
  | Some i => if (0 <? i) && (i <? List.length name - 1) then skipn i name else []
  | None => []
  end.
Definition memb (x : text) (l : list text) : bool := existsb (teqb x) l.
(** [not fileType] *)
Definition no_type (t : option text) : option text := match t with Some (c :: r) => Some (c :: r) | _ => None end.
(** the type other libraries find in a file name *)
Definition named_type (f : text) : option text := match suffix f with [] => None | _ :: t => Some t end.

(** MakePlot.py 250-271 *)
Definition mpl_types : list text := map txt ["png"; "pdf"; "ps"; "eps"; "svg"]%string.
Definition mpl_save (fileName : text) (fileType : option text) : option (text * text) :=
  match no_type fileType with
  | None =>
      let suf := tl (suffix fileName) in
      let ty := if memb suf mpl_types then suf else txt "pdf" in
      Some (fileName, ty)
  | Some ty => Some (fileName ++ dot :: ty, ty)
  end.
(** PlotlyMakePlot.py 503-542; [tight] selects between two ways to write a png *)
Definition plotly_types : list text := map txt ["pdf"; "jpg"; "png"; "svg"; "eps"; "html"]%string.
Definition plotly_save (fileName : text) (fileType : option text) : option (text * text) :=
  let (full, ty) :=
    match no_type fileType with
    | None =>
        let suf := tl (suffix fileName) in
        if memb suf plotly_types then (fileName, suf) else (fileName ++ dot :: txt "png", txt "png")
    | Some ty => (fileName ++ dot :: ty, ty)
    end in
  if teqb ty (txt "html") then Some (full, txt "html")
  else ty' <- named_type full ;; Some (full, ty').
(** MayaviMakePlot.py 238-268 *)
Definition mayavi_types : list text :=
  map txt ["png"; "jpg"; "bmp"; "tiff"; "ps"; "eps"; "pdf"; "rib"; "oogl"; "iv"; "wrl"; "vrml"; "obj"; "x3d"; "pov"]%string.
Definition mayavi_save (fileName : text) (fileType : option text) : option (text * text) :=
  let full :=
    match no_type fileType with
    | None => if memb (tl (suffix fileName)) mayavi_types then fileName else fileName ++ dot :: txt "pdf"
    | Some ty => fileName ++ dot :: ty
    end in
  ty <- named_type full ;; Some (full, ty).

(** MakePlot.py 273-301 *)
Definition mpl_saveAll (fileName : text) (fileType : option text) : option (list (text * text)) :=
  fig <- mpl_save fileName fileType ;; Some [fig; (fileName ++ txt ".pickle", txt "pickle")].

(** ["{:0>6d}".format(k)] *)
Definition pad6 (k : nat) : text := repeat "0"%char (6 - List.length (dec k)) ++ dec k.
(** [os.path.join(dir, name)] *)
Definition join_path (dir name : text) : text :=
  match name with
  | c :: _ => if Ascii.eqb c slash then name
              else match dir with
                   | [] => name
                   | _ => if Ascii.eqb (last dir dot) slash then dir ++ name else dir ++ slash :: name
                   end
  | [] => match dir with
          | [] => []
          | _ => if Ascii.eqb (last dir dot) slash then dir else dir ++ [slash]
          end
  end.
(** what a generator yields *)
Inductive yielded := YNone | YInt (n : Z).
(** [next(iterable, -1) != -1] *)
Definition goes_on (y : yielded) : bool := match y with YInt (-1)%Z => false | _ => true end.
(** MakePlot.py 328-339 and MayaviMakePlot.py 190-196: the files written by the frames *)
Fixpoint frames (save : text -> option text -> option (text * text)) (outDir fileName : text) (k : nat) (ys : list yielded)
  : option (list (text * text)) :=
  match ys with
  | [] => Some []
  | y :: ys => if goes_on y
               then f <- save (join_path outDir (fileName ++ pad6 k)) (Some (txt "png")) ;;
                    fs <- frames save outDir fileName (S k) ys ;; Some (f :: fs)
               else Some []
  end.
Definition animate (save : text -> option text -> option (text * text)) (outDir fileName : text) (ys : list yielded) : option (list (text * text)) :=
  frames save outDir fileName 0 ys.
