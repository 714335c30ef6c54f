(** [H] of the n-dimensional classes called with any integers as the orders:
    /repo/src/tfc/utils/BF_Py.py 1026-1121 and /repo/src/tfc/utils/BF.cc 1064-1146.

    ModelND.v takes natural numbers and lets the recursions run to their end.  Here the orders
    are integers, the univariate tables are those of ModelOrder.v, and [lim] is again the number
    of nested calls there is room for.  Everything after the tables is ModelND.v's. *)
From Coq Require Import List Arith ZArith Bool.
From Verif Require Import Base ModelBFPy ModelBFCpp ModelND ModelOrder.
Import ListNotations.

Section NOrder.
Context {T : Type} (A : Ops T) (E : Fun T) (lim : nat).
Local Notation "1" := (o1 A).
Local Infix "*" := (omul A).

(** [T[:, :, k]] for one point, BF_Py.py 1033-1035 *)
Definition py_nd_Tz (f : fam) (B : nbasis (T:=T)) (z : list T) (d : list Z) : option (list (list T)) :=
  mapM (fun k =>
    zk <- nth_error z k ;; dk <- nth_error d k ;; ck <- nth_error (nb_c B) k ;;
    row <- py_hint_row_z A E lim f (nb_m B) zk dk ;;
    Some (map (fun v => v * opowz A ck dk) row)) (seq 0 (nb_dim B)).
(** [nBasisFunc.H], BF_Py.py 1026-1121 *)
Definition py_nHz (f : fam) (B : nbasis (T:=T)) (x : mat T) (d : list Z) (full : bool) : option (mat T) :=
  if (mr x =? nb_dim B)%nat then
    rows <- mapM (fun j =>
              xj <- mapM (fun r => nth_error r j) (md x) ;;
              Tk <- py_nd_Tz f B (py_nd_z A B xj) d ;;
              py_nd_row A B full Tk) (seq 0 (mc x)) ;;
    Some (Mat (mc x) (if full then nb_numFull B else nb_num B) rows)
  else None.

(** univariate tables, BF.cc 1121-1132 *)
Definition cpp_nd_Tz (f : fam) (B : nbasis (T:=T)) (z : buf T) (n : nat) (d : list Z) : option (buf T) :=
  let m := nb_m B in
  r <- for_ 0 (nb_dim B) (fun k (st : buf T * buf T) =>
         let (dark, Tb) := st in
         zk <- bsub z (k * n)%nat n ;;
         ck <- nth_error (nb_c B) k ;;
         let dk := nth k d 0%Z in                                (* k >= dDim0: order 0, factor 1 *)
         dark <- cpp_hint_z A E lim f m dk zk n dark ;;
         let dMult := if (length d <=? k)%nat then 1 else opowz A ck dk in
         Tb <- for_ 0 (n * m)%nat (fun j Tb =>
                 v <- brd dark j ;; bwr Tb (j + k * m * n)%nat (v * dMult)) Tb ;;
         Some (dark, Tb)) (bnew (n * m)%nat, bnew (n * m * nb_dim B)%nat) ;;
  Some (snd r).
(** nBasisFunc::nHint, BF.cc 1106-1146 *)
Definition cpp_nHintz (f : fam) (B : nbasis (T:=T)) (x : buf T) (n : nat) (d : list Z) (numBasis : nat)
    (F : buf T) (full : bool) : option (buf T) :=
  match nb_dim B with
  | O => None
  | S dim' =>
      z <- cpp_nd_z A B x n ;;
      Tb <- cpp_nd_Tz f B z n d ;;
      F <- for_ 0 (n * numBasis)%nat (fun k F => bwr F k 1) F ;;
      r <- nrec (nb_m B) (fun vec (st : buf T * nat) =>
             let (out, count) := st in
             k <- cpp_keep (nb_dim B) (nb_m B) (nb_numC B) (nb_flat B) full vec ;;
             if (k : bool) then
               out <- cpp_nd_mult A B n numBasis Tb vec count out ;;
               Some (out, S count)
             else Some (out, count)) dim' (bnew (nb_dim B)) (F, O) ;;
      Some (fst (snd r))
  end.
(** nBasisFunc::H, BF.cc 1074-1088 *)
Definition cpp_nHz (f : fam) (B : nbasis (T:=T)) (x : mat T) (d : list Z) (full : bool) : option (mat T) :=
  let numBasis := if full then nb_numFull B else nb_num B in
  let n := mc x in
  F <- cpp_nHintz f B (bof (concat (md x))) n d numBasis (bnew (numBasis * n)%nat) full ;;
  rows <- buf_matrix F n numBasis ;;
  Some (Mat n numBasis rows).

Definition nd_Hz (be : backend) := match be with Py => py_nHz | Cpp => cpp_nHz end.
End NOrder.
