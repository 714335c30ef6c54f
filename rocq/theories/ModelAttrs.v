(** Assigning the attributes of a compiled basis object.

    BF_Py.cc 89-95 exposes the fields [z0], [x0], [c], [m], [numC] and [identifier] of every
    compiled one-dimensional object as readable and writable attributes ([def_readwrite]); the
    array [nC] and, for the ELM classes, the arrays [w] and [b] keep the length they were
    allocated with by the constructor (BF.cc 28-29, 598-599).  This file transcribes the methods
    again for an object whose fields may disagree with those lengths.

    Simplifications: [int] does not overflow; a negative size makes [new] or [malloc]
    meaningless and is [None]; [None] is undefined behaviour or a Python exception. *)
From Coq Require Import List Arith ZArith Bool.
From Verif Require Import Base ModelBFPy ModelBFCpp ModelELM ModelRegistry.
Import ListNotations.

Section Attrs.
Context {T : Type} (A : Ops T) (E : Fun T).
Local Infix "+" := (oadd A). Local Infix "-" := (osub A). Local Infix "*" := (omul A).

(** the fields of BF.h 25-42 that the methods read *)
Record cobj := Cobj {
  q_m : Z; q_numC : Z; q_nC : list Z; q_x0 : T; q_c : T; q_z0 : T }.

(** the object made by the constructor, BF.cc 25-42 *)
Definition obj_of (B : basis (T:=T)) : cobj :=
  Cobj (Z.of_nat (b_m B)) (Z.of_nat (length (b_nC B))) (b_nC B) (b_x0 B) (b_c B) (b_z0 B).

(** the assignments [obj.m = v], [obj.numC = v], [obj.x0 = v], [obj.c = v], [obj.z0 = v];
    BF_Py.cc 90-94 *)
Inductive assign := Set_m (v : Z) | Set_numC (v : Z) | Set_x0 (v : T) | Set_c (v : T) | Set_z0 (v : T).
Definition obj_set (o : cobj) (a : assign) : cobj :=
  match a with
  | Set_m v => Cobj v (q_numC o) (q_nC o) (q_x0 o) (q_c o) (q_z0 o)
  | Set_numC v => Cobj (q_m o) v (q_nC o) (q_x0 o) (q_c o) (q_z0 o)
  | Set_x0 v => Cobj (q_m o) (q_numC o) (q_nC o) v (q_c o) (q_z0 o)
  | Set_c v => Cobj (q_m o) (q_numC o) (q_nC o) (q_x0 o) v (q_z0 o)
  | Set_z0 v => Cobj (q_m o) (q_numC o) (q_nC o) (q_x0 o) (q_c o) v
  end.
Definition obj_sets (o : cobj) (l : list assign) : cobj := fold_left obj_set l o.

(** the search loop, BF.cc 76-81 and 122-127: [k] runs from [k] for [n] further rounds; the array
    is read at every round, and the loop stops at the first match *)
Fixpoint obj_listed (nC : list Z) (n k : nat) (j : nat) : option bool :=
  match n with
  | O => Some false
  | S n' => v <- nth_error nC k ;;
            if Z.eqb (Z.of_nat j) v then Some true else obj_listed nC n' (S k) j
  end.

(** the copy into the output, BF.cc 72-95 and 118-140; [Z.to_nat] of a negative [numC] is 0, as a
    loop to a negative bound does not run *)
Definition obj_emit (nC : list Z) (numC : Z) (m n mOut : nat) (dMult : T) (full : bool) (dark F : buf T)
  : option (buf T) :=
  if full then
    for_ 0 m (fun j F => for_ 0 n (fun k F =>
      v <- brd dark (m * k + j)%nat ;; bwr F (m * k + j)%nat (v * dMult)) F) F
  else
    r <- for_ 0 m (fun j (s : nat * buf T) =>
           let (i, F) := s in
           flag <- obj_listed nC (Z.to_nat numC) 0 j ;;
           if (flag : bool) then Some (i, F)
           else F <- for_ 0 n (fun k F =>
                       v <- brd dark (m * k + j)%nat ;;
                       bwr F (mOut * k + i)%nat (v * dMult)) F ;;
                Some (S i, F)) (0%nat, F) ;;
    Some (snd r).

(** [z[k] = (x[k] - x0) * c + z0], BF.cc 66-67 and 113-114 *)
Definition obj_map_points (o : cobj) (x : buf T) (n : nat) : option (buf T) :=
  for_ 0 n (fun k z => xk <- brd x k ;; bwr z k ((xk - q_x0 o) * q_c o + q_z0 o)) (bnew n).

(** BasisFunc::H, BF.cc 57-98 *)
Definition obj_H_with (hint : nat -> nat -> buf T -> nat -> buf T -> option (buf T)) (o : cobj)
    (x : buf T) (n d : nat) (full : bool) : option (nat * nat * buf T) :=
  let mOut := if full then q_m o else (q_m o - q_numC o)%Z in     (* 59 *)
  if (q_m o <? 0)%Z then None else
  if (mOut <? 0)%Z then None else
  let m := Z.to_nat (q_m o) in let mOut := Z.to_nat mOut in
  let dMult := opow A (q_c o) d in
  let dark := bnew (n * m)%nat in
  z <- obj_map_points o x n ;;
  let F := bnew (mOut * n)%nat in
  dark <- hint m d z n dark ;;
  F <- obj_emit (q_nC o) (q_numC o) m n mOut dMult full dark F ;;
  Some (n, mOut, F).

(** what Python receives, BF_Py.cc 112-128 *)
Definition obj_H_mat_with hint (o : cobj) (xs : list T) (d : nat) (full : bool) : option (mat T) :=
  r <- obj_H_with hint o (bof xs) (length xs) d full ;;
  let '(n, mOut, F) := r in
  rows <- buf_matrix F n mOut ;;
  Some (Mat n mOut rows).
(** classes CP, LeP, LaP, HoPpro, HoPphy, FS *)
Definition obj_H (f : fam) := obj_H_mat_with (cpp_hint A E f).
(** ELM classes; [w] and [b] are the arrays allocated by the constructor *)
Definition obj_elm_H (f : elm) (w b : list T) := obj_H_mat_with (fun m => cpp_elm_hint A E f m (bof w) (bof b)).

(** [obj.w] and [obj.b], BF_Py.cc 159-186 with ELM::getW, ELM::getB, BF.cc 631-645: an array of
    [m] numbers read from the array of the object *)
Definition obj_get (o : cobj) (w : list T) : option (list T) :=
  if (q_m o <? 0)%Z then None else mapM (brd (bof w)) (seq 0 (Z.to_nat (q_m o))).
(** [obj.w = v], ELM::setW, ELM::setB, BF.cc 613-629.  A vector of the wrong size ends the process *)
Inductive set_result := Exits | Stored (w : buf T).
Definition obj_put (o : cobj) (w : list T) (v : list T) : option set_result :=
  if negb (Z.of_nat (length v) =? q_m o)%Z then Some Exits else
  b <- for_ 0 (Z.to_nat (q_m o)) (fun k b => vk <- brd (bof v) k ;; bwr b k vk) (bof w) ;;
  Some (Stored b).

(** BasisFunc::xla, BF.cc 100-144: [n] and [mOut] are the constants recorded when the call was
    compiled (utfc.py 300-347), the fields are those of the object at the time of the call *)
Definition obj_xla_with (hint : nat -> nat -> buf T -> nat -> buf T -> option (buf T)) (o : cobj)
    (x : buf T) (d : nat) (full : bool) (n mOut : nat) (out : buf T) : option (buf T) :=
  if (q_m o <? 0)%Z then None else
  let m := Z.to_nat (q_m o) in
  let dMult := opow A (q_c o) d in
  let dark := bnew (n * m)%nat in
  z <- obj_map_points o x n ;;
  dark <- hint m d z n dark ;;
  obj_emit (q_nC o) (q_numC o) m n mOut dMult full dark out.
(** a call compiled while the result had [cols] columns, run now on [o]: the output array has
    [length xs] rows of [cols] numbers *)
Definition compiled_call_with hint (o : cobj) (cols : nat) (xs : list T) (d : nat) (full : bool) : option (mat T) :=
  out <- obj_xla_with hint o (bof xs) d full (length xs) cols (bnew (length xs * cols)%nat) ;;
  rows <- buf_matrix out (length xs) cols ;;
  Some (Mat (length xs) cols rows).
Definition compiled_call (f : fam) := compiled_call_with (cpp_hint A E f).
(** columns recorded by the tracing of utfc.py 304-308, 325-329 *)
Definition traced_cols (o : cobj) (full : bool) : Z := if full then q_m o else (q_m o - q_numC o)%Z.

(** the same assignments on an object of BF_Py.py: [c] is a property without setter (106-118), the
    other names are not used by the class (its fields are [_m], [_numC], [_x0], [_z0], 46-57), so
    a new attribute is made that no method reads *)
Definition py_obj_set (B : basis (T:=T)) (a : assign) : option (basis (T:=T)) :=
  match a with Set_c _ => None | _ => Some B end.
End Attrs.
Arguments Cobj {T}. Arguments q_m {T}. Arguments q_numC {T}. Arguments q_nC {T}.
Arguments q_x0 {T}. Arguments q_c {T}. Arguments q_z0 {T}.
Arguments assign : clear implicits. Arguments cobj : clear implicits.
Arguments Set_m {T}. Arguments Set_numC {T}. Arguments Set_x0 {T}. Arguments Set_c {T}. Arguments Set_z0 {T}.
Arguments set_result : clear implicits. Arguments Exits {T}. Arguments Stored {T}.

(** [obj.identifier = n], BF_Py.cc 95, on the object at address [a] of the registry *)
Definition set_identifier {P} (s : reg P) (a n : nat) : option (reg P) :=
  o <- r_heap s a ;;
  Some (Reg (r_next s) (r_cont s) (heap_set (r_heap s) a (Some (Obj (Some n) (o_pay o))))).
(** the object that serves the compiled calls of the object at [a]: the identifier is a constant of
    the compiled call (utfc.py 288, 339), [xlaWrapper] looks it up (BF.cc 8-11) *)
Definition served_by {P} (s : reg P) (a : nat) : option (object P) :=
  o <- r_heap s a ;; n <- o_id o ;; dispatch s n.
