(** HTML.WriteFile and HTML.ReadFile of utils/Html.py (45-71), with the parts of the file system
    they use.

    A file system maps absolute paths, as lists of names, to files and directories.  Links and
    permissions are left out; names with a part ".." are outside the model and fail.  Writing
    and reading keep the text as it is (no encoding, no line-end translation).  An exception is
    [None]. *)
From Coq Require Import List Bool Arith Ascii String.
From Verif Require Import Base ModelPrinter ModelSave.
Import ListNotations.
Local Open Scope list_scope.

Inductive node := Dir | File (t : text).
Definition fsys := list text -> option node.
Fixpoint path_eqb (p q : list text) : bool :=
  match p, q with
  | [], [] => true
  | a :: p', b :: q' => teqb a b && path_eqb p' q'
  | _, _ => false
  end.
Definition put (fs : fsys) (p : list text) (n : node) : fsys := fun q => if path_eqb q p then Some n else fs q.
(** the file a name stands for, in the working directory [cwd] *)
Definition resolve (cwd : list text) (t : text) : option (list text) :=
  if memb (txt "..") (parts t) then None
  else match t with
       | [] => None
       | c :: _ => Some (if Ascii.eqb c slash then parts t else cwd ++ parts t)
       end.
(** [os.path.dirname]: everything before the last slash, less the slashes at its end unless it is
    all slashes *)
Fixpoint rstrip_slash (t : text) : text :=
  match t with
  | [] => []
  | c :: r => match rstrip_slash r with [] => if Ascii.eqb c slash then [] else [c] | r' => c :: r' end
  end.
Fixpoint up_to_slash (t : text) : text :=
  match t with
  | [] => []
  | c :: r => match up_to_slash r with [] => if Ascii.eqb c slash then [c] else [] | h => c :: h end
  end.
Definition dirname (t : text) : text :=
  let head := up_to_slash t in match rstrip_slash head with [] => head | h => h end.
(** [os.path.exists] *)
Definition exists_ (fs : fsys) (cwd : list text) (t : text) : bool :=
  match resolve cwd t with None => false | Some p => match fs p with None => false | Some _ => true end end.
(** [os.mkdir]: the parent is a directory, and nothing of that name is there *)
Definition mkdir (fs : fsys) (p : list text) : option fsys :=
  match p, fs p, fs (removelast p) with
  | _ :: _, None, Some Dir => Some (put fs p Dir)
  | _, _, _ => None
  end.
(** [os.makedirs]: makes the missing directories above first; [n] bounds the depth *)
Fixpoint makedirs_path (n : nat) (fs : fsys) (p : list text) : option fsys :=
  match n with
  | 0 => None
  | S n' =>
      fs <- (match fs (removelast p) with Some _ => Some fs | None => makedirs_path n' fs (removelast p) end) ;;
      mkdir fs p
  end.
Definition makedirs (fs : fsys) (cwd : list text) (t : text) : option fsys :=
  p <- resolve cwd t ;; makedirs_path (S (List.length p)) fs p.
(** does the name end in a slash or a single dot, so that it names a directory? *)
Definition names_dir (t : text) : bool := let l := last (split_at [] t) [] in teqb l [] || teqb l [dot].
(** [open(t, "w")], [write] and [close] *)
Definition write_file (fs : fsys) (cwd : list text) (t : text) (content : text) : option fsys :=
  p <- resolve cwd t ;;
  if names_dir t then None else
  match fs p, fs (removelast p) with
  | Some Dir, _ => None
  | _, Some Dir => Some (put fs p (File content))
  | _, _ => None
  end.
(** [open(t, "r")], [read] and [close] *)
Definition read_file (fs : fsys) (cwd : list text) (t : text) : option text :=
  p <- resolve cwd t ;;
  if names_dir t then None else match fs p with Some (File c) => Some c | _ => None end.

(** WriteFile, 45-51; [page] is what GenerateHtml returns *)
Definition WriteFile (fs : fsys) (cwd : list text) (outFile page : text) : option fsys :=
  fs <- (if exists_ fs cwd (dirname outFile) then Some fs else makedirs fs cwd (dirname outFile)) ;;
  write_file fs cwd outFile page.
(** ReadFile, 53-71 *)
Definition ReadFile (fs : fsys) (cwd : list text) (inFile : text) : option text := read_file fs cwd inFile.
