(** File names, suffixes and numbered frames, stated without the model's functions. *)
From Coq Require Import List Bool Arith ZArith Ascii String.
From Verif Require Import Base ModelPrinter.
Import ListNotations.
Local Open Scope list_scope.

(** a file type: some characters, none a dot or a slash *)
Definition plain_type (t : text) : Prop := t <> [] /\ ~ In "."%char t /\ ~ In "/"%char t.
(** the name of a file, not of a directory: its last part is neither empty nor a dot *)
Definition file_name (f : text) : Prop :=
  exists dir name, f = dir ++ name /\ (dir = [] \/ exists d, dir = d ++ ["/"%char]) /\ ~ In "/"%char name /\ name <> [] /\ name <> ["."%char].
(** [f] has the suffix [.t] *)
Definition has_suffix (f t : text) : Prop :=
  plain_type t /\ exists stem, f = stem ++ "."%char :: t /\ stem <> [] /\ forall d, stem <> d ++ ["/"%char].

(** the three ways a file type is found; [def] is what happens otherwise.  An empty file type
    is none. *)
Definition saves_well (save : text -> option text -> option (text * text)) (types : list text) (def : text) : Prop :=
  (forall f t, file_name f -> plain_type t -> save f (Some t) = Some (f ++ "."%char :: t, t) /\ has_suffix (f ++ "."%char :: t) t) /\
  (forall f t, has_suffix f t -> In t types -> save f None = Some (f, t)) /\
  (forall f, file_name f -> (forall t, In t types -> ~ has_suffix f t) ->
     save f None = Some (f ++ "."%char :: def, def) /\ has_suffix (f ++ "."%char :: def) def) /\
  (forall f, save f (Some []) = save f None).

(** the types each class documents (MakePlot.py 236, PlotlyMakePlot.py 485, MayaviMakePlot.py 234) *)
Definition matplotlib_documented : list text := map txt ["eps"; "pdf"; "png"; "ps"; "svg"]%string.
Definition plotly_documented : list text := map txt ["eps"; "html"; "jpg"; "pdf"; "png"; "svg"]%string.
Definition mayavi_documented : list text :=
  map txt ["bmp"; "eps"; "iv"; "jpg"; "obj"; "oogl"; "pdf"; "png"; "pov"; "ps"; "rib"; "tiff"; "vrml"; "wrl"; "x3d"]%string.

(** ** Numbered frames *)
Definition digit (c : ascii) : Prop := 48 <= nat_of_ascii c <= 57.
(** the number a decimal numeral stands for *)
Definition value (t : text) : nat := fold_left (fun v c => 10 * v + (nat_of_ascii c - 48)) t 0.
(** what printf writes for %06d *)
Definition printf06 (k : nat) (t : text) : Prop :=
  Forall digit t /\ value t = k /\ 6 <= List.length t /\ (6 < List.length t -> hd "0"%char t <> "0"%char).
(** the directories and the name of a path: parts between slashes, dropping empty ones and dots *)
Inductive path_parts : text -> list text -> Prop :=
| pp_last p : ~ In "/"%char p -> path_parts p (if list_eq_dec ascii_dec p [] then [] else if list_eq_dec ascii_dec p ["."%char] then [] else [p])
| pp_cons p r ps : ~ In "/"%char p -> path_parts r ps ->
    path_parts (p ++ "/"%char :: r) ((if list_eq_dec ascii_dec p [] then [] else if list_eq_dec ascii_dec p ["."%char] then [] else [p]) ++ ps).
Definition absolute (f : text) : Prop := exists r, f = "/"%char :: r.
(** two names of the same file *)
Definition same_file (f g : text) : Prop := (absolute f <-> absolute g) /\ exists ps, path_parts f ps /\ path_parts g ps.
(** the [k]-th file read by [ffmpeg -i ./outDir/fileName%06d.png] *)
Definition ffmpeg_reads (outDir fileName : text) (k : nat) (f : text) : Prop :=
  exists d, printf06 k d /\ same_file f (txt "./" ++ outDir ++ "/"%char :: fileName ++ d ++ txt ".png").
(** alphabetical order *)
Inductive before : text -> text -> Prop :=
| bf_nil c r : before [] (c :: r)
| bf_head a b r r' : nat_of_ascii a < nat_of_ascii b -> before (a :: r) (b :: r')
| bf_tail a r r' : before r r' -> before (a :: r) (a :: r').
