(** Vocabulary of C86, C87 and C88: what a terminal shows and what a shell runs. *)
From Coq Require Import List Arith Bool Ascii String.
From Verif Require Import ModelConsole.
Import ListNotations.

(** *** a terminal: bytes are shown in the current style; ESC [ digits m changes the style.  Only
    reset, bright, underline and the foreground colours are interpreted *)
Record style := Style { st_color : option nat; st_bright : bool; st_underline : bool }.
Definition default := Style None false false.
Definition change (code : text) (s : style) : style :=
  if text_eqb code [] || text_eqb code (txt "0") then default
  else if text_eqb code (txt "1") then Style (st_color s) true (st_underline s)
  else if text_eqb code (txt "4") then Style (st_color s) (st_bright s) true
  else match code with
       | [a; b] => if Ascii.eqb a "3"%char then Style (Some (nat_of_ascii b - 48)) (st_bright s) (st_underline s) else s
       | _ => s
       end.
Inductive reading := Plain | AfterEsc | InCode (code : text).
Fixpoint display (s : style) (r : reading) (t : text) : list (ascii * style) * style * reading :=
  match t with
  | [] => ([], s, r)
  | c :: t =>
      match r with
      | Plain => if Ascii.eqb c esc then display s AfterEsc t
                 else let '(out, s', r') := display s Plain t in ((c, s) :: out, s', r')
      | AfterEsc => if Ascii.eqb c "["%char then display s (InCode []) t else display s Plain t
      | InCode code => if Ascii.eqb c "m"%char then display (change code s) Plain t
                       else display s (InCode (code ++ [c])) t
      end
  end.
Definition red := 1. Definition yellow := 3.

(** *** print types *)
Definition valid_type (v : text) : Prop := In v [txt "tfc"; txt "pretty"; txt "latex"; txt "str"].
Definition printer_for (v : text) (p : printer) : Prop :=
  (v = txt "tfc" /\ p = P_tfc) \/ (v = txt "pretty" /\ p = P_pretty) \/
  (v = txt "latex" /\ p = P_latex) \/ (v = txt "str" /\ p = P_str).

(** *** a shell: words and operators; [None] where quoting or expansions would be needed *)
Definition blank (c : ascii) : bool := Ascii.eqb c " "%char || Ascii.eqb c "009"%char.
Definition operator (c : ascii) : bool := existsb (Ascii.eqb c) (list_ascii_of_string "();&|<>" ++ ["010"%char]).
Definition expands (c : ascii) : bool :=
  existsb (Ascii.eqb c) (list_ascii_of_string "'""$`\*?[]~#!{}=").
Definition ordinary (c : ascii) : bool := negb (blank c) && negb (operator c) && negb (expands c).
Definition flush (w : text) (l : list text) : list text := match w with [] => l | _ => rev w :: l end.
(** the simple commands, each a list of words; [w] is the word and [l] the command being read, reversed *)
Fixpoint shell (t : text) (w : text) (l : list text) : option (list (list text)) :=
  match t with
  | [] => Some (match flush w l with [] => [] | l' => [rev l'] end)
  | c :: t =>
      if expands c then None
      else if blank c then shell t [] (flush w l)
      else if operator c then
        match shell t [] [] with
        | Some r => Some (match flush w l with [] => r | l' => rev l' :: r end)
        | None => None
        end
      else shell t (c :: w) l
  end.
Definition runs (t : text) : option (list (list text)) := shell t [] [].
Definition ordinary_text (t : text) : Prop := t <> [] /\ forallb ordinary t = true.
(** the simple commands run by a call, in order; [None] if it raised or needs more of the shell *)
Fixpoint ran_by (l : list event) : option (list (list text)) :=
  match l with
  | [] => Some []
  | System c :: l => match runs c, ran_by l with Some a, Some b => Some (a ++ b) | _, _ => None end
  | _ :: l => ran_by l
  end.
Definition ran (r : option (list event)) : option (list (list text)) :=
  match r with Some l => ran_by l | None => None end.
Definition words (l : list string) : list text := map txt l.
(** the dump asked for: as root, or in user mode with the option as the code writes it *)
Definition dump (user_mode : bool) (pid dir : text) : list text :=
  (if user_mode then words ["criu"; "dump"; "--unpriviledged"; "-t"] else words ["sudo"; "criu"; "dump"; "-t"])%string
  ++ [pid; txt "-D"; dir] ++ words ["--shell-job"; "--leave-running"]%string.

(** *** what a text means as a path: the names between the slashes, without the empty ones and [.] *)
Definition name_of (s : text) (l : list text) : Prop :=
  ((s = [] \/ s = txt ".") /\ l = []) \/ (s <> [] /\ s <> txt "." /\ l = [s]).
Inductive path_names : text -> list text -> Prop :=
| PN_last s l : ~ In "/"%char s -> name_of s l -> path_names s l
| PN_more s k t l : ~ In "/"%char s -> name_of s k -> path_names t l -> path_names (s ++ "/"%char :: t) (k ++ l).
(** the path from the root through the directories [l] *)
Inductive from_root : list text -> text -> Prop :=
| FR_root : from_root [] (txt "/")
| FR_one a : from_root [a] ("/"%char :: a)
| FR_more a b l t : from_root (b :: l) t -> from_root (a :: b :: l) ("/"%char :: a ++ t).
