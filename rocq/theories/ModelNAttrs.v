(** Assigning the attributes of a compiled n-dimensional basis object (nCP, nLeP, nFS).

    BF_Py.cc 210-236 exposes the fields [z0], [zf], [dim], [numBasisFunc], [numBasisFuncFull] of
    nBasisFunc, and a property [c]; [m], [numC] and [x0] are inherited from the binding of BasisFunc
    (BF_Py.cc 90-95).  nBasisFunc declares its own [z0], [c] and [x0] (BF.h 416-426), so the inherited
    [x0] is the field of BasisFunc (BF.h 27), which no constructor of an n-dimensional object sets and
    no method of it reads.  The arrays [nC], [x0] and [c] keep the length given by the constructor
    (BF.cc 1028-1036).

    Simplifications: [int] does not overflow; a negative size is [None] ([new] and [malloc] of it, or
    the shape of the result); [None] is undefined behaviour or an exception. *)
From Coq Require Import List Arith ZArith Bool.
From Verif Require Import Base ModelBFPy ModelBFCpp ModelND.
Import ListNotations.

Section NAttrs.
Context {T : Type} (A : Ops T) (E : Fun T).

(** fields of nBasisFunc and BasisFunc, BF.h 24-42 and 413-435 *)
Record nobj := NObj {
  p_dim : Z; p_m : Z; p_numC : Z;
  p_nC : buf Z;                              (* the flat array of removed functions *)
  p_x0 : list T; p_c : list T;
  p_z0 : T; p_zf : T;
  p_num : Z; p_numFull : Z;
  p_base : option T }.                       (* BasisFunc::x0 *)

(** the object after nBasisFunc::nBasisFunc, BF.cc 1013-1062 *)
Definition nobj_of (zf : T) (B : nbasis (T:=T)) : nobj :=
  NObj (Z.of_nat (nb_dim B)) (Z.of_nat (nb_m B)) (Z.of_nat (nb_numC B)) (nb_flat B) (nb_x0 B) (nb_c B)
       (nb_z0 B) zf (Z.of_nat (nb_num B)) (Z.of_nat (nb_numFull B)) None.

(** one statement: [obj.m = v] and so on; [NSet_c nd v]: [obj.c = v] with an array of [nd] dimensions
    and the entries [v]; [NPoke_c k v]: [obj.c[k] = v] *)
Inductive nassign :=
| NSet_m (v : Z) | NSet_numC (v : Z) | NSet_dim (v : Z) | NSet_num (v : Z) | NSet_numFull (v : Z)
| NSet_z0 (v : T) | NSet_zf (v : T) | NSet_x0 (v : T) | NSet_c (nd : nat) (v : list T) | NPoke_c (k : nat) (v : T).

Definition list_set {X} (l : list X) (k : nat) (v : X) : list X := firstn k l ++ v :: skipn (S k) l.

Definition nobj_set (o : nobj) (a : nassign) : option nobj :=
  match a with
  | NSet_m v => Some (NObj (p_dim o) v (p_numC o) (p_nC o) (p_x0 o) (p_c o) (p_z0 o) (p_zf o) (p_num o) (p_numFull o) (p_base o))
  | NSet_numC v => Some (NObj (p_dim o) (p_m o) v (p_nC o) (p_x0 o) (p_c o) (p_z0 o) (p_zf o) (p_num o) (p_numFull o) (p_base o))
  | NSet_dim v => Some (NObj v (p_m o) (p_numC o) (p_nC o) (p_x0 o) (p_c o) (p_z0 o) (p_zf o) (p_num o) (p_numFull o) (p_base o))
  | NSet_num v => Some (NObj (p_dim o) (p_m o) (p_numC o) (p_nC o) (p_x0 o) (p_c o) (p_z0 o) (p_zf o) v (p_numFull o) (p_base o))
  | NSet_numFull v => Some (NObj (p_dim o) (p_m o) (p_numC o) (p_nC o) (p_x0 o) (p_c o) (p_z0 o) (p_zf o) (p_num o) v (p_base o))
  | NSet_z0 v => Some (NObj (p_dim o) (p_m o) (p_numC o) (p_nC o) (p_x0 o) (p_c o) v (p_zf o) (p_num o) (p_numFull o) (p_base o))
  | NSet_zf v => Some (NObj (p_dim o) (p_m o) (p_numC o) (p_nC o) (p_x0 o) (p_c o) (p_z0 o) v (p_num o) (p_numFull o) (p_base o))
  | NSet_x0 v => Some (NObj (p_dim o) (p_m o) (p_numC o) (p_nC o) (p_x0 o) (p_c o) (p_z0 o) (p_zf o) (p_num o) (p_numFull o) (Some v))
  | NSet_c nd v =>                                        (* BF_Py.cc 220-231: checks, stores nothing *)
      if negb (nd =? 1) then None else
      if negb (Z.of_nat (length v) =? p_dim o)%Z then None else Some o
  | NPoke_c k v =>                                        (* the array returned by the getter, 216-219, is a
                                                             writable view of [dim] numbers at [c] *)
      if (Z.of_nat k <? p_dim o)%Z then
        if k <? length (p_c o) then
          Some (NObj (p_dim o) (p_m o) (p_numC o) (p_nC o) (p_x0 o) (list_set (p_c o) k v) (p_z0 o) (p_zf o) (p_num o) (p_numFull o) (p_base o))
        else None
      else None                                           (* IndexError *)
  end.
Fixpoint nobj_sets (o : nobj) (l : list nassign) : option nobj :=
  match l with [] => Some o | a :: l' => o' <- nobj_set o a ;; nobj_sets o' l' end.

(** [obj.c], BF_Py.cc 216-219 *)
Definition nobj_get_c (o : nobj) : option (list T) :=
  if (p_dim o <? 0)%Z then None else mapM (nth_error (p_c o)) (seq 0 (Z.to_nat (p_dim o))).
(** [obj.x0], BF_Py.cc 91: the uninitialised field of BasisFunc until it is assigned *)
Definition nobj_get_x0 (o : nobj) : option T := p_base o.

(** the object as the methods of ModelND.v see it; a loop to a negative [numC] does not run *)
Definition nobj_nb (o : nobj) (num : nat) : option (nbasis (T:=T)) :=
  if (p_dim o <? 0)%Z || (p_m o <? 0)%Z then None else
  Some (NBasis (Z.to_nat (p_dim o)) (Z.to_nat (p_m o)) (Z.to_nat (p_numC o)) [] (p_nC o) (p_x0 o) (p_c o) (p_z0 o) num num).
(** nBasisFunc::H, BF.cc 1074-1088 *)
Definition nobj_H (f : fam) (o : nobj) (x : mat T) (d : list nat) (full : bool) : option (mat T) :=
  let num := if full then p_numFull o else p_num o in
  if (num <? 0)%Z then None else
  B <- nobj_nb o (Z.to_nat num) ;; cpp_nH A E f B x d full.
(** nBasisFunc::xla, BF.cc 1094-1104, run from a call compiled when the result had [cols] columns
    (mtfc.py 573-601: the numbers of rows and columns are constants of the compiled call) *)
Definition ncompiled_call (f : fam) (o : nobj) (cols : nat) (x : mat T) (d : list nat) (full : bool) : option (mat T) :=
  B <- nobj_nb o cols ;;
  out <- cpp_n_xla A E f B (bof (concat (md x))) d full (mc x) cols (bnew (cols * mc x)%nat) ;;
  rows <- buf_matrix out (mc x) cols ;;
  Some (Mat (mc x) cols rows).

(** the same statements on an object of BF_Py.py: [c], [numBasisFunc] and [numBasisFuncFull] are
    properties without setters (960-1003); [c] returns the array itself; other names are not used by
    the class (903-920) *)
Definition py_nobj_set (B : nbasis (T:=T)) (a : nassign) : option (nbasis (T:=T)) :=
  match a with
  | NSet_c _ _ | NSet_num _ | NSet_numFull _ => None
  | NPoke_c k v =>
      if k <? length (nb_c B) then
        Some (NBasis (nb_dim B) (nb_m B) (nb_numC B) (nb_nC B) (nb_flat B) (nb_x0 B) (list_set (nb_c B) k v) (nb_z0 B) (nb_num B) (nb_numFull B))
      else None
  | _ => Some B
  end.
End NAttrs.
Arguments NObj {T}. Arguments p_dim {T}. Arguments p_m {T}. Arguments p_numC {T}. Arguments p_nC {T}.
Arguments p_x0 {T}. Arguments p_c {T}. Arguments p_z0 {T}. Arguments p_zf {T}. Arguments p_num {T}.
Arguments p_numFull {T}. Arguments p_base {T}.
Arguments nobj : clear implicits. Arguments nassign : clear implicits.
Arguments NSet_m {T}. Arguments NSet_numC {T}. Arguments NSet_dim {T}. Arguments NSet_num {T}.
Arguments NSet_numFull {T}. Arguments NSet_z0 {T}. Arguments NSet_zf {T}. Arguments NSet_x0 {T}.
Arguments NSet_c {T}. Arguments NPoke_c {T}.
