(** Orientations of a graph and cycles. *)
From Coq Require Import String.
From mathcomp Require Import all_ssreflect.
From Verif Require Import ModelGraph.
Set Implicit Arguments.
Unset Strict Implicit.
Unset Printing Implicit Defensive.

Section Spec.
Variables (V : eqType) (L : Type).
Notation edge := (@edge V L).
(** An orientation says for each edge whether it runs backwards, from node1 to node0. *)
Definition arc_of (p : edge * bool) : V * V :=
  if p.2 then (e_node1 p.1, e_node0 p.1) else (e_node0 p.1, e_node1 p.1).
Definition arc (E : seq edge) (t : seq bool) : rel V := fun x y => (x, y) \in [seq arc_of p | p <- zip E t].
(** a walk along arcs that ends where it began is empty *)
Definition acyclic (r : rel V) : Prop := forall x p, path r x p -> last x p = x -> p = [::].
Definition no_loops (E : seq edge) : bool := all (fun e => e_node0 e != e_node1 e) E.
(** the walk without the self-loops that the orientation does not turn round *)
Definition arc' (E : seq edge) (t : seq bool) : rel V :=
  fun x y => (x, y) \in [seq arc_of p | p <- zip E t & p.2 || (e_node0 p.1 != e_node1 p.1)].
End Spec.
(** files a rendered drawing leaves behind, and files a page reads or shows *)
Section Files.
Variables (V : eqType) (L : Type).
Definition with_ext (p : seq string) (f : string) : seq string :=
  rcons (belast (head EmptyString p) (behead p)) (append (last EmptyString p) (append "." f)).
Definition leaves (a : @action V L) : seq (seq string) :=
  match a with
  | MainDot _ _ => [seq with_ext [:: "dotFiles"; "main"]%string f | f <- [:: "cmapx"; "svg"]%string]
  | TreeDot p _ _ fs => [seq with_ext p f | f <- fs]
  | Page p _ _ _ => [:: p]
  end.
(** a relative path followed from a directory *)
Definition resolve (dir rel : seq string) : seq string :=
  foldl (fun acc c => if String.eqb c ".." then take (size acc).-1 acc else rcons acc c) dir rel.
Definition from_page (page img : seq string) : seq string := resolve (take (size page).-1 page) img.
Definition needs (a : @action V L) : seq (seq string) :=
  if a is Page p img _ inc then [:: from_page p img; inc] else [::].
Definition is_page (a : @action V L) : bool := if a is Page _ _ _ _ then true else false.
Definition path_of (a : @action V L) : seq string := match a with Page p _ _ _ | TreeDot p _ _ _ => p | _ => [::] end.
Definition hrefs (a : @action V L) : seq (seq string) :=
  if a is MainDot rows _ then [seq x.2 | x <- flatten rows] else [::].
End Files.
