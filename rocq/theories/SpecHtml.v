(** Files and directories, by their paths. *)
From Coq Require Import List Ascii String.
From Verif Require Import Base ModelPrinter SpecSave ModelHtml.
Import ListNotations.
Local Open Scope list_scope.

(** directories above a directory or file exist, and the root does *)
Definition sound (fs : fsys) : Prop :=
  fs [] = Some Dir /\ forall p a n, fs (p ++ [a]) = Some n -> fs p = Some Dir.
(** [f] names the file [name] in directory [dir] (a list of names), without using ".." *)
Definition names_file (cwd : list text) (f : text) (dir : list text) (name : text) : Prop :=
  exists head ps, f = head ++ "/"%char :: name /\ ~ In "/"%char name /\ name <> [] /\ name <> ["."%char] /\ name <> txt ".." /\
    path_parts head ps /\ ~ In (txt "..") ps /\
    dir = (if match f with [] => false | c :: _ => Ascii.eqb c "/"%char end then ps else cwd ++ ps).
(** nothing on the way to the file is a file itself, and the file is not a directory *)
Definition free (fs : fsys) (dir : list text) (name : text) : Prop :=
  (forall p q t, dir = p ++ q -> fs p <> Some (File t)) /\ fs (dir ++ [name]) <> Some Dir.
(** [fs'] is [fs] with the file written and the directories above it made, and nothing else *)
Definition written (fs fs' : fsys) (dir : list text) (name page : text) : Prop :=
  fs' (dir ++ [name]) = Some (File page) /\
  (forall p q, dir = p ++ q -> fs' p = Some Dir) /\
  (forall r, r <> dir ++ [name] -> (forall q, dir <> r ++ q) -> fs' r = fs r).
