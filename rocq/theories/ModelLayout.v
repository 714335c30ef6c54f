(** Array arguments of the C++ classes: BF_Py.cc 9-83 (constructors) and 104-131, 218-248 ([H]).

    Memory and one-dimensional arrays are those of ModelWeights.v.  pybind11 hands an array of the
    element type of the C++ function over as it is; any other array is first copied by NumPy.
    [array_t<T>] asks for nothing else, so the copy keeps the order of the axes in memory
    (order K); [array_t<T, c_style | forcecast>] asks for contiguous rows and copies otherwise.
    The C++ code reads [data()[0], data()[1], ...].  Simplification: a copy never fails (the
    elements convert). *)
From Coq Require Import List Arith ZArith Bool.
From Verif Require Import Base ModelBFPy ModelBFCpp ModelND ModelELM ModelNELM ModelWeights.
Import ListNotations.

(** a two-dimensional array: element (i, j) is cell [off + i*s0 + j*s1] *)
Record view2 := View2 { w_blk : nat; w_off : Z; w_s0 : Z; w_s1 : Z; w_n0 : nat; w_n1 : nat }.
Section Layout.
Context {T : Type}.
Definition vread2 (h : heap T) (v : view2) : option (list (list T)) :=
  mapM (fun i => mapM (fun j => cell h (w_blk v) (w_off v + Z.of_nat i * w_s0 v + Z.of_nat j * w_s1 v)%Z)
                   (seq 0 (w_n1 v))) (seq 0 (w_n0 v)).
(** the same elements, column by column *)
Definition vcols2 (h : heap T) (v : view2) : option (list (list T)) :=
  mapM (fun j => mapM (fun i => cell h (w_blk v) (w_off v + Z.of_nat i * w_s0 v + Z.of_nat j * w_s1 v)%Z)
                   (seq 0 (w_n0 v))) (seq 0 (w_n1 v)).

(** [array_t<T>], one dimension: what [data()[0..size)] holds; [same] says that the element type is [T] *)
Definition plain1 (h : heap T) (v : view) (same : bool) : option (list T) :=
  if same then vraw h v (v_len v) else vread h v.
(** [array_t<T>], two dimensions *)
Definition plain2 (h : heap T) (v : view2) (same : bool) : option (list T) :=
  if same then vraw h (View (w_blk v) (w_off v) 1 (w_n0 v * w_n1 v)) (w_n0 v * w_n1 v)
  else if (Z.abs (w_s0 v) <? Z.abs (w_s1 v))%Z then r <- vcols2 h v ;; Some (concat r)
  else r <- vread2 h v ;; Some (concat r).
(** [array_t<T, c_style | forcecast>] *)
Definition cstyle1 (h : heap T) (v : view) (same : bool) : option (list T) :=
  if same && ((v_str v =? 1)%Z || (v_len v <=? 1)) then vraw h v (v_len v) else vread h v.
Definition contiguous2 (v : view2) : bool :=
  (w_n0 v * w_n1 v =? 0) || (((w_s1 v =? 1)%Z || (w_n1 v =? 1)) && ((w_s0 v =? Z.of_nat (w_n1 v))%Z || (w_n0 v =? 1))).
Definition cstyle2 (h : heap T) (v : view2) (same : bool) : option (list T) :=
  if same && contiguous2 v then vraw h (View (w_blk v) (w_off v) 1 (w_n0 v * w_n1 v)) (w_n0 v * w_n1 v)
  else r <- vread2 h v ;; Some (concat r).
(** [n] rows of [c] numbers from a block *)
Definition chop (n c : nat) (l : list T) : list (list T) := map (fun i => firstn c (skipn (i * c) l)) (seq 0 n).
End Layout.

Section Classes.
Context {T : Type} (A : Ops T) (E : Fun T).
(** add1DInit, BF_Py.cc 8-27, for the six families and the ELM classes *)
Definition new_fam (f : fam) (x0 xf : T) (h : heap Z) (nC : view) (int32 : bool) (m : nat) : option (basis (T:=T)) :=
  l <- plain1 h nC int32 ;; Some (fam_init A E f x0 xf l m).
Definition new_elm (x0 xf : T) (h : heap Z) (nC : view) (int32 : bool) (m : nat) : option (basis (T:=T)) :=
  l <- plain1 h nC int32 ;; Some (elm_init A x0 xf l m).
(** addNdInit, BF_Py.cc 29-56 *)
Definition new_nfam (f : fam) (hd : heap T) (x0 : view) (f64 : bool) (xf : view) (f64' : bool)
    (h : heap Z) (nC : view2) (int32 : bool) (m : nat) : option (nbasis (T:=T)) :=
  a <- plain1 hd x0 f64 ;; b <- plain1 hd xf f64' ;; l <- plain2 h nC int32 ;;
  nd_init A E Cpp f a b (Mat (w_n0 nC) (w_n1 nC) (chop (w_n0 nC) (w_n1 nC) l)) m.
(** addNdElmInit, BF_Py.cc 58-83 *)
Definition new_nelm (hd : heap T) (x0 : view) (f64 : bool) (xf : view) (f64' : bool)
    (h : heap Z) (nC : view) (int32 : bool) (m : nat) : option (nbasis (T:=T)) :=
  a <- plain1 hd x0 f64 ;; b <- plain1 hd xf f64' ;; l <- plain1 h nC int32 ;; nelm_init A Cpp a b l m.
(** [H] of one-dimensional objects, BF_Py.cc 104-123, and of n-dimensional ones, 218-239 *)
Definition call_H (f : fam) (B : basis (T:=T)) (h : heap T) (x : view) (f64 : bool) (d : nat) (full : bool) : option (mat T) :=
  xs <- cstyle1 h x f64 ;; cpp_H_mat A E f B xs d full.
Definition call_nH (f : fam) (B : nbasis (T:=T)) (h : heap T) (x : view2) (f64 : bool) (hi : heap Z) (d : view) (int32 : bool)
    (full : bool) : option (mat T) :=
  l <- cstyle2 h x f64 ;; ds <- cstyle1 hi d int32 ;;
  cpp_nH A E f B (Mat (w_n0 x) (w_n1 x) (chop (w_n0 x) (w_n1 x) l)) (map Z.to_nat ds) full.
End Classes.
