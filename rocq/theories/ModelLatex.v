(** LaTeX tables (utils/Latex.py).

    Arrays enter as their formatted entries: what [form % x] or numpy gives for each number is a
    parameter.  numpy's [array2string] of one row is modelled from its source: wrapping at the
    line width, and "..." for rows longer than the threshold; its print options are arbitrary. *)
From Coq Require Import List Bool Arith Ascii String.
From Verif Require Import Base ModelPrinter.
Import ListNotations.
Local Open Scope list_scope.

Definition nl : text := [ascii_of_nat 10].
(** [str.isspace] on one character, Latin-1 *)
Definition space (c : ascii) : bool :=
  let n := nat_of_ascii c in
  ((9 <=? n) && (n <=? 13)) || ((28 <=? n) && (n <=? 32)) || (n =? 133) || (n =? 160).
Fixpoint drop_while (p : ascii -> bool) (t : text) : text :=
  match t with [] => [] | c :: r => if p c then drop_while p r else t end.
(** [t.rstrip()] and [t.strip(chars)] *)
Definition rstrip (t : text) : text := rev (drop_while space (rev t)).
Definition strip (p : ascii -> bool) (t : text) : text := rev (drop_while p (rev (drop_while p t))).
(** [sep.join(l)] *)
Fixpoint join (sep : text) (l : list text) : text :=
  match l with [] => [] | [a] => a | a :: r => a ++ sep ++ join sep r end.

(** ** numpy: array2string of a one-dimensional array *)
Record popts := Popts { linewidth : nat; threshold : nat; edgeitems : nat }.
Definition sep : text := txt " & ".
(** _extendLine: [s] is the finished lines, [line] the current one *)
Definition extend (o : popts) (sl : text * text) (word : text) : text * text :=
  let '(s, line) := sl in
  if (linewidth o <? List.length line + List.length word + 2) && negb (List.length line <=? 1)
  then (s ++ rstrip line ++ nl, txt " " ++ word)
  else (s, line ++ word).
(** the entries shown *)
Definition shown (o : popts) (cells : list text) : list text :=
  if (threshold o <? List.length cells) && (2 * edgeitems o <? List.length cells)
  then firstn (edgeitems o) cells ++ [txt "..."] ++ skipn (List.length cells - max 1 (edgeitems o)) cells
  else cells.
Fixpoint format_row (o : popts) (sl : text * text) (cells : list text) : text :=
  match cells with
  | [] => fst sl
  | [w] => let '(s, line) := extend o sl w in s ++ line
  | w :: r => let '(s, line) := extend o sl w in format_row o (s, line ++ sep) r
  end.
Definition array2string (o : popts) (cells : list text) : text :=
  match cells with
  | [] => txt "[]"
  | _ => txt "[" ++ skipn 1 (format_row o ([], txt " ") (shown o cells)) ++ txt "]"
  end.

(** ** The module *)
(** an array: two-dimensional with its number of columns and its rows, or of other dimension *)
Inductive larr := Arr2 (cols : nat) (rows : list (list text)) | ArrN (shape : list nat).
(** _Header, 10-23 *)
Definition Header (numCols : nat) : text :=
  txt "\begin{center}" ++ nl ++ txt "\begin{tabular}{" ++ List.concat (repeat (txt "|c") numCols) ++ txt "|}" ++ nl.
(** _colHeader, 26-40 *)
Definition colHeader_ (strIn : list text) : text := join sep strIn ++ txt "\\" ++ nl.
Definition bracket (c : ascii) : bool := Ascii.eqb c "["%char || Ascii.eqb c "]"%char.
(** _Arr2Tab, 43-95; the other dimensions read the unbound [k] (76, 90).  The loop over the rows
    takes [rowHeader[k]] (85), [None] when it is too short *)
Fixpoint Arr2Tab_rows (o : popts) (rowHeader : option (list text)) (k : nat) (rows : list (list text)) (out : text) : option text :=
  match rows with
  | [] => Some out
  | row :: r =>
      h <- match rowHeader with
           | None => Some []
           | Some l => a <- nth_error l k ;; Some (a ++ sep)
           end ;;
      Arr2Tab_rows o rowHeader (S k) r
        (out ++ h ++ strip bracket (array2string o row) ++ txt "\\" ++ nl ++ txt "\hline" ++ nl)
  end.
Definition Arr2Tab (o : popts) (a : larr) (rowHeader : option (list text)) : option text :=
  match a with
  | Arr2 _ rows => out <- Arr2Tab_rows o rowHeader 0 rows [] ;; Some (rstrip out)
  | ArrN _ => None
  end.
(** _Footer, 98-102 *)
Definition Footer : text := txt "\end{tabular}" ++ nl ++ txt "\end{center}".
(** SimpleTable, 105-172 *)
Definition SimpleTable (o : popts) (a : larr) (colHeader rowHeader : option (list text)) : option text :=
  n <- match a with Arr2 c _ => Some c | ArrN sh => nth_error sh 1 end ;;
  tab <- Arr2Tab o a rowHeader ;;
  Some (match colHeader, rowHeader with
        | None, None => Header n ++ txt "\hline" ++ nl ++ tab ++ nl ++ Footer
        | Some ch, None => Header n ++ txt "\hline" ++ nl ++ colHeader_ ch ++ txt "\hline" ++ nl ++ tab ++ nl ++ Footer
        | None, Some _ => Header (n + 1) ++ txt "\hline" ++ nl ++ tab ++ nl ++ Footer
        | Some ch, Some _ => Header (n + 1) ++ txt "\hline" ++ nl ++ colHeader_ ch ++ txt "\hline" ++ nl ++ tab ++ nl ++ Footer
        end).
