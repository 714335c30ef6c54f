(** Reading a LaTeX table. *)
From Coq Require Import List Bool Arith Ascii String.
From Verif Require Import Base ModelPrinter ModelLatex.
Import ListNotations.
Local Open Scope list_scope.

(** white space does not count at the ends of a cell *)
Fixpoint ltrim (t : text) : text := match t with [] => [] | c :: r => if space c then ltrim r else t end.
Definition trim (t : text) : text := rev (ltrim (rev (ltrim t))).

Inductive ltok := LRow | LRule | LAmp | LCh (c : ascii).
(** the body of the environment; a backslash is only allowed in the two commands *)
Fixpoint ltoks (t : text) : option (list ltok) :=
  match t with
  | [] => Some []
  | "\"%char :: "\"%char :: r => ts <- ltoks r ;; Some (LRow :: ts)
  | "\"%char :: "h"%char :: "l"%char :: "i"%char :: "n"%char :: "e"%char :: r => ts <- ltoks r ;; Some (LRule :: ts)
  | "\"%char :: _ => None
  | "&"%char :: r => ts <- ltoks r ;; Some (LAmp :: ts)
  | c :: r => ts <- ltoks r ;; Some (LCh c :: ts)
  end.
Inductive line := Rule | Row (cells : list text).
Definition blank (cell : text) (row : list text) : bool :=
  match trim cell, row with [], [] => true | _, _ => false end.
(** [row] is the finished cells of the current row, [cell] the text of the current one *)
Fixpoint lines (cell : text) (row : list text) (ts : list ltok) : option (list line) :=
  match ts with
  | [] => if blank cell row then Some [] else None
  | LRow :: r => ls <- lines [] [] r ;; Some (Row (row ++ [trim cell]) :: ls)
  | LRule :: r => if blank cell row then ls <- lines [] [] r ;; Some (Rule :: ls) else None
  | LAmp :: r => lines [] (row ++ [trim cell]) r
  | LCh c :: r => lines (cell ++ [c]) row r
  end.
(** the column specification: c between bars *)
Fixpoint letters (t : text) : option nat :=
  match t with
  | ["|"%char] => Some 0
  | "|"%char :: "c"%char :: r => n <- letters r ;; Some (S n)
  | _ => None
  end.
Fixpoint after (p t : text) : option text :=
  match p, t with
  | [], _ => Some t
  | a :: p', b :: t' => if Ascii.eqb a b then after p' t' else None
  | _, [] => None
  end.
Definition before (p t : text) : option text := r <- after (rev p) (rev t) ;; Some (rev r).
Fixpoint upto (c : ascii) (t : text) : option (text * text) :=
  match t with
  | [] => None
  | d :: r => if Ascii.eqb c d then Some ([], r) else p <- upto c r ;; Some (d :: fst p, snd p)
  end.
(** number of columns, and the lines *)
Definition read (t : text) : option (nat * list line) :=
  r <- after (txt "\begin{center}" ++ nl ++ txt "\begin{tabular}{") t ;;
  p <- upto "}"%char r ;;
  n <- letters (fst p) ;;
  body <- before (txt "\end{tabular}" ++ nl ++ txt "\end{center}") (snd p) ;;
  ts <- ltoks body ;;
  ls <- lines [] [] ts ;;
  Some (n, ls).

(** the entries of the array, the headings *)
Definition clean (t : text) : Prop :=
  forall c, In c t -> c <> "&"%char /\ c <> "\"%char /\ c <> "["%char /\ c <> "]"%char /\ c <> ascii_of_nat 10.
Definition clean_all (l : list text) : Prop := forall t, In t l -> clean t.
Definition ruled (rows : list (list text)) : list line := flat_map (fun r => [Row (map trim r); Rule]) rows.
(** the rows one expects: with the row headings in front *)
Definition with_heads (rh : option (list text)) (rows : list (list text)) : list (list text) :=
  match rh with None => rows | Some l => map (fun p => fst p :: snd p) (combine l rows) end.
Definition one_if {A} (o : option A) : nat := match o with None => 0 | Some _ => 1 end.
Definition heading (ch : option (list text)) : list line :=
  match ch with None => [] | Some l => [Row (map trim l); Rule] end.
(** what may be passed: a proper array of clean entries, headings for every row, a non-empty column heading *)
Definition proper_table (c : nat) (rows : list (list text)) (ch rh : option (list text)) : Prop :=
  0 < c /\ (forall row, In row rows -> List.length row = c /\ clean_all row) /\
  match ch with None => True | Some l => l <> [] /\ clean_all l end /\
  match rh with None => True | Some l => List.length rows <= List.length l /\ clean_all l end.
