(** Messages on the terminal, the printer of symbolic expressions, and the checkpoint command.

    Simplifications: standard output is the list of bytes written to it ([print] of a string and a
    line end, no buffering); [sys.exit] raises an exception that only a handler for it stops;
    colorama's constants are the escape sequences of its file ansi.py; sympy's [init_printing]
    (outside an IPython session) replaces one printer shared by the whole process. *)
From Coq Require Import List Arith Bool Ascii String.
Import ListNotations.

Definition text := list ascii.
Definition txt (s : string) : text := list_ascii_of_string s.
Definition nl : text := ["010"%char].
Definition esc : ascii := "027"%char.

(** colorama.ansi: code_to_chars(code) = ESC [ code m; Fore.RED 31, Fore.YELLOW 33, Style.BRIGHT 1,
    Style.RESET_ALL 0 *)
Definition sgr (code : string) : text := esc :: txt "[" ++ txt code ++ txt "m".
Definition fg_RED := sgr "31". Definition fg_YELLOW := sgr "33".
Definition style_BRIGHT := sgr "1". Definition style_RESET_ALL := sgr "0".

(** *** running statements: what was written, and how the statement ended *)
Inductive ending (X : Type) := Returns (x : X) | Raises_exit (status : option nat) | Raises_other.
Arguments Returns {X}. Arguments Raises_exit {X}. Arguments Raises_other {X}.
Definition stmt (X : Type) := (text * ending X)%type.
Definition ret {X} (x : X) : stmt X := ([], Returns x).
Definition seqs {X Y} (a : stmt X) (k : X -> stmt Y) : stmt Y :=
  match a with
  | (o, Returns x) => let (o', e) := k x in (o ++ o', e)
  | (o, Raises_exit s) => (o, Raises_exit s)
  | (o, Raises_other) => (o, Raises_other)
  end.
Definition print_ (s end_ : text) : stmt unit := (s ++ end_, Returns tt).
Definition sys_exit : stmt unit := ([], Raises_exit None).

(** TFCPrint.Error, TFCUtils.py 45-58 *)
Definition Error (s : text) : stmt unit :=
  seqs (print_ (fg_RED ++ style_BRIGHT ++ s) nl) (fun _ =>
  seqs (print_ style_RESET_ALL []) (fun _ => sys_exit)).
(** TFCPrint.Warning, TFCUtils.py 60-71 *)
Definition Warning (s : text) : stmt unit :=
  seqs (print_ (fg_YELLOW ++ style_BRIGHT ++ s) nl) (fun _ => print_ style_RESET_ALL []).

(** handlers of the caller: [except Exception] and [except BaseException] (or a bare [except]) *)
Inductive handler := H_Exception | H_BaseException.
Definition try_ {X} (h : handler) (a : stmt X) (k : stmt X) : stmt X :=
  match a with
  | (o, Returns x) => (o, Returns x)
  | (o, Raises_exit s) =>
      match h with H_Exception => (o, Raises_exit s) | H_BaseException => let (o', e) := k in (o ++ o', e) end
  | (o, Raises_other) => let (o', e) := k in (o ++ o', e)
  end.
(** exit status of the process: an uncaught exception is 1, [sys.exit()] is 0 *)
Definition status {X} (a : stmt X) : nat :=
  match snd a with Returns _ => 0 | Raises_exit None => 0 | Raises_exit (Some n) => n | Raises_other => 1 end.

(** *** CeSolver.print_type, CeSolver.py 76-99 *)
(** what [init_printing] installs: a TfcPrinter, [str], sympy's [pretty], [latex] *)
Inductive printer := P_tfc | P_str | P_pretty | P_latex.
(** the printer of the process, if one was installed, and the attributes [_print_type] of the objects *)
Record session := Session { s_printer : option printer; s_type : nat -> option text }.
Definition type_set (f : nat -> option text) (i : nat) (v : text) : nat -> option text :=
  fun k => if Nat.eqb k i then Some v else f k.
Fixpoint text_eqb (a b : text) : bool :=
  match a, b with
  | [], [] => true
  | x :: a, y :: b => Ascii.eqb x y && text_eqb a b
  | _, _ => false
  end.
Definition bad_type (v : text) : text :=
  txt "print_type was specified as " ++ v ++ txt " but only ""tfc"", ""pretty"", ""latex"", and ""str"" are accepted.".
(** [o.print_type = v], lines 80-99 *)
Definition set_print_type (s : session) (i : nat) (v : text) : session * stmt unit :=
  let s := Session (s_printer s) (type_set (s_type s) i v) in
  if text_eqb v (txt "tfc") then (Session (Some P_tfc) (s_type s), ret tt)
  else if text_eqb v (txt "str") then (Session (Some P_str) (s_type s), ret tt)
  else if text_eqb v (txt "pretty") then (Session (Some P_pretty) (s_type s), ret tt)
  else if text_eqb v (txt "latex") then (Session (Some P_latex) (s_type s), ret tt)
  else (s, Error (bad_type v)).
(** [o.print_type], lines 76-78: an attribute error before the first assignment *)
Definition get_print_type (s : session) (i : nat) : stmt text :=
  match s_type s i with Some v => ret v | None => ([], Raises_other) end.
(** a sequence of assignments; the caller stops every exit (as an interactive session does) *)
Definition session0 := Session None (fun _ => None).
Definition assign_all (l : list (nat * text)) : session :=
  fold_left (fun s a => fst (set_print_type s (fst a) (snd a))) l session0.

(** *** criuCheckpoint, TFCUtils.py 1749-1788 *)
Definition sp : ascii := " "%char.
Fixpoint split_slash (t : text) (cur : text) : list text :=
  match t with
  | [] => [rev cur]
  | c :: t => if Ascii.eqb c "/"%char then rev cur :: split_slash t [] else split_slash t (c :: cur)
  end.
Definition parts (t : text) : list text :=
  filter (fun p => negb (text_eqb p []) && negb (text_eqb p (txt "."))) (split_slash t []).
Definition rooted (t : text) : bool := match t with c :: _ => Ascii.eqb c "/"%char | [] => false end.
Definition join_slash (l : list text) : text :=
  match l with [] => ["/"%char] | _ => List.concat (map (fun p => "/"%char :: p) l) end.
(** [str(Path(dir).absolute())] in the working directory [cwd] (given by its parts) *)
Definition absolute (cwd : list text) (dir : text) : text :=
  join_slash (if rooted dir then parts dir else cwd ++ parts dir).

(** what the function does, in order *)
Inductive event := Mkdir (p : text) | System (command : text) | Printed (t : text).
(** file system: what exists, and whether a new directory can be made there (its parent is a
    directory); [None]: [os.mkdir] raises *)
Definition command (user_mode : bool) (pid p : text) : text :=
  if user_mode then
    txt "(criu dump --unpriviledged -t " ++ pid ++ txt " -D " ++ p ++ txt " --shell-job --leave-running &) &"
  else
    txt "(sudo criu dump -t " ++ pid ++ txt " -D " ++ p ++ txt " --shell-job --leave-running &) &".
Definition hint (p : text) : text :=
  txt "Creating a checkpoint. To restart run: sudo criu restore -D " ++ p ++ txt " --shell-job".
Definition criuCheckpoint (exists_ : text -> bool) (parent_dir : text -> bool) (cwd : list text) (pid dir : text)
    (user_mode : bool) : option (list event) :=
  let p := absolute cwd dir in
  let rest := [System (command user_mode pid p); Printed (hint p ++ nl)] in
  if exists_ p then Some rest
  else if parent_dir p then Some (Mkdir p :: rest) else None.
