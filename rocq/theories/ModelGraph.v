(** ComponentConstraintGraph (utils/TFCUtils.py 1525-1684).

    Node names and edge names are of any types with equality.  [numpy.linalg.eigvals] is
    modelled by the exact roots, with multiplicity, of the characteristic polynomial over an
    algebraically closed field (floating point is not modelled).  The graphviz and yattag
    libraries are modelled by what they are told to draw and write. *)
From Coq Require Import String DecimalString Decimal.
From mathcomp Require Import all_ssreflect all_algebra.
From Verif Require Import Base.
Set Implicit Arguments.
Unset Strict Implicit.
Unset Printing Implicit Defensive.
Import GRing.Theory.
Local Open Scope ring_scope.

Section Graph.
Variables (V : eqType) (L : Type) (F : numClosedFieldType).
(** a ComponentConstraintDict *)
Record edge := Edge { e_name : L; e_node0 : V; e_node1 : V }.

(** [itertools.product([0, 1], repeat=n)], 1564 *)
Fixpoint product01 (n : nat) : seq (seq bool) :=
  if n is n'.+1 then [seq false :: t | t <- product01 n'] ++ [seq true :: t | t <- product01 n']
  else [:: [::]].

(** [adj], 1569-1578: a matrix of zeros with entries set to 1.0 *)
Definition set_entry (a : nat -> nat -> F) (i j : nat) : nat -> nat -> F :=
  fun i' j' => if (i' == i) && (j' == j) then 1 else a i' j'.
(** body of the loop over edges [g] for node [kNode], 1573-1578 *)
Definition adj_edge (N : seq V) (kNode : V) (a : nat -> nat -> F) (p : edge * bool) : nat -> nat -> F :=
  let (e, t) := p in
  if e_node0 e == kNode then
    if t then set_entry a (index (e_node1 e) N) (index (e_node0 e) N) else a
  else if e_node1 e == kNode then
    if ~~ t then set_entry a (index (e_node0 e) N) (index (e_node1 e) N) else a
  else a.
Definition adj (N : seq V) (E : seq edge) (t : seq bool) : nat -> nat -> F :=
  foldl (fun a kNode => foldl (adj_edge N kNode) a (zip E t)) (fun _ _ => 0) N.
Definition eigvals n (A : 'M[F]_n) : seq F := sval (closed_field_poly_normal (char_poly A)).
(** the test of 1579 *)
Definition keeps (N : seq V) (E : seq edge) (t : seq bool) : bool :=
  all (fun z => z == 0) (eigvals (\matrix_(i < size N, j < size N) adj N E t i j)).

Record graph := Graph { g_N : seq V; g_E : seq edge; g_targets : seq (seq bool); g_good : seq nat }.
(** __init__, 1530-1584; an edge with an unknown node exits the program *)
Definition ComponentConstraintGraph (N : seq V) (E : seq edge) : option graph :=
  if all (fun e => (e_node0 e \in N) && (e_node1 e \in N)) E then
    let targets := product01 (size E) in
    Some (Graph N E targets [seq j <- iota 0 (size targets) | keeps N E (nth [::] targets j)])
  else None.

(** ** SaveGraphs, 1584-1684 *)
(** [str(k)] *)
Definition str (k : nat) : string := NilEmpty.string_of_uint (Nat.to_uint k).
Definition tree (k : nat) : string := append "tree" (str k).
(** Paths are lists of components below [outputDir]. *)
Inductive action :=
| MainDot (rows : seq (seq (string * string * seq string))) (links : seq (string * string))
    (* nodes (identifier, label, href) by row; invisible edges *)
| TreeDot (path : seq string) (nodes : seq V) (arcs : seq (V * V * L)) (formats : seq string)
| Page (path : seq string) (img : seq string) (usemap : string) (included : seq string).
(** 1617-1630, rows of five *)
Definition main_rows (n : nat) : seq (seq (string * string * seq string)) :=
  (fix go (js : seq nat) (cnt : nat) :=
     match js with
     | [::] => [::]
     | j :: js' =>
         let len := minn 5 (n - j * 5) in
         [seq (tree k, append "Tree " (str k), [:: "htmlFiles"; append (tree k) ".html"]%string)
           | k <- iota cnt len] :: go js' (cnt + len)%N
     end) (iota 0 ((n + 4) %/ 5)) 0%N.
Definition main_links (n : nat) : seq (string * string) :=
  [seq (tree ((j - 1) * 5), tree (j * 5)) | j <- iota 0 ((n + 4) %/ 5) & j != 0%N].
Definition tree_arcs (E : seq edge) (t : seq bool) : seq (V * V * L) :=
  [seq (if ~~ p.2 then (e_node0 p.1, e_node1 p.1) else (e_node1 p.1, e_node0 p.1), e_name p.1) | p <- zip E t].
Definition SaveGraphs (g : graph) (allGraphs savePDFs : bool) : seq action :=
  let targets := if allGraphs then g_targets g else [seq nth [::] (g_targets g) k | k <- g_good g] in
  let n := size targets in
  [:: MainDot (main_rows n) (main_links n);                                             (* 1612-1632 *)
      Page [:: "main.html"]%string [:: "dotFiles"; "main.svg"]%string "#main" [:: "dotFiles"; "main.cmapx"]%string]  (* 1634-1646 *)
  ++ [seq TreeDot [:: "dotFiles"; tree k]%string (g_N g) (tree_arcs (g_E g) (nth [::] targets k))
        (if savePDFs then [:: "cmapx"; "svg"; "pdf"] else [:: "cmapx"; "svg"])%string | k <- iota 0 n]  (* 1648-1668 *)
  ++ [seq Page [:: "htmlFiles"; append (tree k) ".html"]%string [:: ".."; "dotFiles"; append (tree k) ".svg"]%string
        (append "#" (tree k)) [:: "dotFiles"; append (tree k) ".cmapx"]%string | k <- iota 0 n].        (* 1670-1684 *)
End Graph.
