(** Assigning the attributes and weights of a compiled n-dimensional ELM object (nELM<f>).

    The attributes are those of ModelNAttrs.v (BF_Py.cc 90-95 and 210-236, inherited), and the
    properties [w] and [b] (BF_Py.cc 282-316).  nELM::nELM (BF.cc 1266-1327) allocates [dim * m]
    weights, [m] biases and [dim * ncDim0] entries of [nC], of which it writes the first [ncDim0].
    No assignment reallocates them.

    Simplifications: those of ModelNAttrs.v; [obj.b = v] is given a contiguous array (the strides of
    [v] are not looked at, BF_Py.cc 296); an entry of [nC] never written counts as undefined. *)
From Coq Require Import List Arith ZArith Bool.
From Verif Require Import Base ModelBFPy ModelBFCpp ModelELM ModelND ModelNELM ModelAttrs ModelNAttrs.
Import ListNotations.

Section NEAttrs.
Context {T : Type} (A : Ops T) (E : Fun T).

Record eobj := EObj {
  e_o : nobj T;             (* the fields of nBasisFunc; its [p_nC] is not used *)
  e_nC : list Z;            (* the entries of [nC] that the constructor wrote *)
  e_w : list T;             (* the array of weights, row by row *)
  e_b : list T }.

(** the object after nELM::nELM; the arrays it fills with random numbers are [w] and [b] *)
Definition eobj_of (zf : T) (B : nbasis (T:=T)) (w b : list T) : eobj :=
  EObj (nobj_of zf B) (ne_nC B) w b.

(** one statement; [ESet_w sh v]: [obj.w = v] with an array of shape [sh] and entries [v], row by row *)
Inductive eassign := ESet (a : nassign T) | ESet_w (sh : list nat) (v : list T) | ESet_b (sh : list nat) (v : list T).

(** what becomes of the program *)
Inductive eres := EDone (o : eobj) | EExit.

(** the loops of nELM::setW and nELM::setB, BF.cc 1336-1337 and 1345-1346, into an array of the
    length of [w] *)
Definition put_cells (v : list T) (n : nat) (w : list T) : option (list T) :=
  b <- for_ 0 n (fun k b => vk <- brd (bof v) k ;; bwr b k vk) (bof w) ;;
  mapM (brd b) (seq 0 (length w)).

Definition eobj_set (o : eobj) (a : eassign) : option eres :=
  match a with
  | ESet a => o' <- nobj_set (e_o o) a ;; Some (EDone (EObj o' (e_nC o) (e_w o) (e_b o)))
  | ESet_w sh v =>                                        (* BF_Py.cc 311-316, BF.cc 1331-1338 *)
      match sh with
      | [r; c] =>
          if negb (Z.of_nat c =? p_m (e_o o))%Z || negb (Z.of_nat r =? p_dim (e_o o))%Z then Some EExit else
          w <- put_cells v (Z.to_nat (p_m (e_o o) * p_dim (e_o o))) (e_w o) ;;
          Some (EDone (EObj (e_o o) (e_nC o) w (e_b o)))
      | _ => None                                         (* ValueError *)
      end
  | ESet_b sh v =>                                        (* BF_Py.cc 296, BF.cc 1340-1347 *)
      if negb (Z.of_nat (length v) =? p_m (e_o o))%Z then Some EExit else
      b <- put_cells v (Z.to_nat (p_m (e_o o))) (e_b o) ;;
      Some (EDone (EObj (e_o o) (e_nC o) (e_w o) b))
  end.
Fixpoint eobj_sets (o : eobj) (l : list eassign) : option eres :=
  match l with
  | [] => Some (EDone o)
  | a :: l' => r <- eobj_set o a ;; match r with EDone o' => eobj_sets o' l' | EExit => Some EExit end
  end.

(** [obj.w], BF_Py.cc 298-310 with nELM::getW, BF.cc 1349-1356: an array of shape (dim, m) *)
Definition eobj_w (o : eobj) : option (mat T) :=
  if (p_dim (e_o o) <? 0)%Z || (p_m (e_o o) <? 0)%Z then None else
  let dim := Z.to_nat (p_dim (e_o o)) in let m := Z.to_nat (p_m (e_o o)) in
  rows <- mapM (fun i => mapM (fun k => nth_error (e_w o) (i * m + k)%nat) (seq 0 m)) (seq 0 dim) ;;
  Some (Mat dim m rows).
(** [obj.b], BF_Py.cc 285-295 with nELM::getB, BF.cc 1358-1364 *)
Definition eobj_b (o : eobj) : option (list T) :=
  if (p_m (e_o o) <? 0)%Z then None else mapM (nth_error (e_b o)) (seq 0 (Z.to_nat (p_m (e_o o)))).

(** the columns copied, BF.cc 1388-1403; the loop over the table is that of the one-dimensional
    classes *)
Definition eobj_emit (nC : list Z) (numC : Z) (m n numBasis : nat) (dark F : buf T) : option (buf T) :=
  r <- for_ 0 m (fun j (s : nat * buf T) =>
         let (i, F) := s in
         flag <- obj_listed nC (Z.to_nat numC) 0 j ;;
         if (flag : bool) then Some (i, F)
         else F <- for_ 0 n (fun k F =>
                     v <- brd dark (m * k + j)%nat ;; bwr F (numBasis * k + i)%nat v) F ;;
              Some (S i, F)) (0%nat, F) ;;
  Some (snd r).
(** nELM::nHint, BF.cc 1369-1408 *)
Definition eobj_nHint (f : elm) (o : eobj) (x : buf T) (n : nat) (d : list nat) (numBasis : nat) (F : buf T)
    (full : bool) : option (buf T) :=
  B <- nobj_nb (e_o o) numBasis ;;
  z <- cpp_nd_z A B x n ;;
  let hint := cpp_nelm_hint A E f (nb_dim B) (nb_m B) (nb_c B) (bof (e_w o)) (bof (e_b o)) d z n in
  if ((p_numC (e_o o) =? 0)%Z || full)%bool then hint F
  else dark <- hint (bnew (nb_m B * n)%nat) ;; eobj_emit (e_nC o) (p_numC (e_o o)) (nb_m B) n numBasis dark F.
(** nBasisFunc::xla, BF.cc 1094-1104, run from a call compiled when the result had [cols] columns *)
Definition ecompiled_call (f : elm) (o : eobj) (cols : nat) (x : mat T) (d : list nat) (full : bool) : option (mat T) :=
  F <- eobj_nHint f o (bof (concat (md x))) (mc x) d cols (bnew (cols * mc x)%nat) full ;;
  rows <- buf_matrix F (mc x) cols ;;
  Some (Mat (mc x) cols rows).
(** nBasisFunc::H, BF.cc 1074-1088: the same with the number of functions of the object *)
Definition eobj_H (f : elm) (o : eobj) (x : mat T) (d : list nat) (full : bool) : option (mat T) :=
  let num := if full then p_numFull (e_o o) else p_num (e_o o) in
  if (num <? 0)%Z then None else ecompiled_call f o (Z.to_nat num) x d full.

(** The same statements on an object of BF_Py.py, with its weights [w] (row by row) and biases [b]:
    an array with the right number of entries, of any shape, is stored reshaped (BF_Py.py 1300-1334);
    any other is a ValueError. *)
Definition py_eobj_set (s : nbasis (T:=T) * list T * list T) (a : eassign) : option (nbasis (T:=T) * list T * list T) :=
  let '(B, w, b) := s in
  match a with
  | ESet a => B' <- py_nobj_set B a ;; Some (B', w, b)
  | ESet_w _ v => if (length v =? nb_m B * nb_dim B)%nat then Some (B, v, b) else None
  | ESet_b _ v => if (length v =? nb_m B)%nat then Some (B, w, v) else None
  end.
End NEAttrs.
Arguments EObj {T}. Arguments e_o {T}. Arguments e_nC {T}. Arguments e_w {T}. Arguments e_b {T}.
Arguments eobj : clear implicits. Arguments eassign : clear implicits. Arguments eres : clear implicits.
Arguments ESet {T}. Arguments ESet_w {T}. Arguments ESet_b {T}. Arguments EDone {T}. Arguments EExit {T}.
