(** n-dimensional basis functions: /repo/src/tfc/utils/BF_Py.py 869-1211 and
    /repo/src/tfc/utils/BF.cc 1012-1263.  Same conventions as ModelBFPy.v and ModelBFCpp.v.

    The recursion of [_NumBasisFunc]/[Recurse] (Python) and [NumBasisFunc]/[RecurseBasis] (C++)
    has one shape: for every value of [vec[dim]], recurse on [dim - 1], and at [dim = 0] run a
    body.  It is written once, as [nrec]; the bodies are transcribed separately. *)
From Coq Require Import List Arith ZArith Bool.
From Verif Require Import Base ModelBFPy ModelBFCpp.
Import ListNotations.

Section Rec.
Context {S : Type}.
Fixpoint nrec (m : nat) (leaf : buf nat -> S -> option S) (dim : nat) (vec : buf nat) (s : S)
  : option (buf nat * S) :=
  for_ 0 m (fun x (st : buf nat * S) =>
    let (vec, s) := st in
    vec <- bwr vec dim x ;;
    match dim with
    | Datatypes.S dim' => nrec m leaf dim' vec s
    | O => s <- leaf vec s ;; Some (vec, s)
    end) (vec, s).
End Rec.

(** *** which multi-indices are used *)

(** Python, BF_Py.py 942-957 and 1091-1107.  [vec == self._nC] compares a (dim, 1) with a
    (dim, numC) array. *)
Definition py_keep (m : nat) (nC : list (list Z)) (full : bool) (vec : list nat) : bool :=
  let small := list_sum vec <=? m - 1 in
  if full then small
  else negb (forallb (fun p => existsb (Z.eqb (Z.of_nat (fst p))) (snd p)) (combine vec nC)) && small.

(** C++, BF.cc 1163-1192 and 1216-1247.  [nC] is the flat copy; [break] stops the reads. *)
Definition cpp_sum (dim : nat) (vec : buf nat) : option nat :=
  for_ 0 dim (fun j sum => v <- brd vec j ;; Some (sum + v)) 0.
Definition cpp_flag (dim numC : nat) (nC : buf Z) (vec : buf nat) : option bool :=
  for_ 0 dim (fun j flag =>
    v <- brd vec j ;;
    flag1 <- for_ 0 numC (fun g (flag1 : bool) =>
               if flag1 then c <- brd nC (j * numC + g) ;; Some (negb (Z.eqb (Z.of_nat v) c))
               else Some false) true ;;
    Some (flag || flag1)) false.
Definition cpp_keep (dim m numC : nat) (nC : buf Z) (full : bool) (vec : buf nat) : option bool :=
  if full then sum <- cpp_sum dim vec ;; Some (sum <=? m - 1)
  else
    flag <- cpp_flag dim numC nC vec ;;
    if (flag : bool) then sum <- cpp_sum dim vec ;; Some (sum <=? m - 1) else Some false.

(** [_NumBasisFunc], BF_Py.py 940-958, called with [vec = np.zeros((dim, 1))] (918-920).
    With [dim = 0] the call is [_NumBasisFunc(-1, ...)], an IndexError as soon as [m > 0]. *)
Definition py_num (dim m : nat) (nC : list (list Z)) (full : bool) : option nat :=
  match dim with
  | O => None
  | S dim' =>
      r <- nrec m (fun vec n => v <- bto_list vec ;; Some (if py_keep m nC full v then S n else n))
             dim' (bfill dim 0) 0 ;;
      Some (snd r)
  end.
(** [NumBasisFunc], BF.cc 1148-1196, called with an uninitialised [vec] (1042-1045) *)
Definition cpp_num (dim m numC : nat) (nC : buf Z) (full : bool) : option nat :=
  match dim with
  | O => None
  | S dim' =>
      r <- nrec m (fun vec n => k <- cpp_keep dim m numC nC full vec ;; Some (if (k : bool) then S n else n))
             dim' (bnew dim) 0 ;;
      Some (snd r)
  end.

Section ND.
Context {T : Type} (A : Ops T) (E : Fun T).
Local Notation "0" := (o0 A). Local Notation "1" := (o1 A).
Local Infix "+" := (oadd A). Local Infix "-" := (osub A).
Local Infix "*" := (omul A). Local Infix "/" := (odiv A).

(** the object after construction *)
Record nbasis := NBasis {
  nb_dim : nat; nb_m : nat; nb_numC : nat;
  nb_nC : list (list Z);                     (* Python: the array; C++: the flat copy is [nb_flat] *)
  nb_flat : buf Z;
  nb_x0 : list T; nb_c : list T; nb_z0 : T;
  nb_num : nat; nb_numFull : nat }.

(** [self._c = (zf - z0) / (xf - self._x0)], BF_Py.py 915; BF.cc 1034-1036 *)
Definition nd_c (z0 zf : T) (x0 xf : list T) : list T :=
  map (fun p => (zf - z0) / (snd p - fst p)) (combine x0 xf).

(** [nBasisFunc.__init__], BF_Py.py 902-920.  [reshape((dim, 1))] needs [dim] entries. *)
Definition py_nd_init (x0 xf : list T) (nC : mat Z) (m : nat) (z0 zf : T) : option nbasis :=
  let dim := mr nC in
  if (length x0 =? dim)%nat && (length xf =? dim)%nat then
    num <- py_num dim m (md nC) false ;;
    numFull <- py_num dim m (md nC) true ;;
    Some (NBasis dim m (mc nC) (md nC) (bof (concat (md nC))) x0 (nd_c z0 zf x0 xf) z0 num numFull)
  else None.
(** nBasisFunc::nBasisFunc, BF.cc 1013-1062.  [nC] has [dim * numC] cells and receives
    [ncDim0 * ncDim1] numbers; [xf[k]] is read for [k < dim]. *)
Definition cpp_nd_init (x0 xf : list T) (nC : mat Z) (m : nat) (z0 zf : T) : option nbasis :=
  let dim := length x0 in
  let numC := mc nC in
  let flat := concat (md nC) in
  if (length flat <=? dim * numC)%nat && (dim <=? length xf)%nat then
    let nCb := Buf (dim * numC)%nat (nth_error flat) in
    num <- cpp_num dim m numC nCb false ;;
    numFull <- cpp_num dim m numC nCb true ;;
    Some (NBasis dim m numC (md nC) nCb x0 (nd_c z0 zf x0 (firstn dim xf)) z0 num numFull)
  else None.

(** classes nCP, nLeP, nFS: BF_Py.py 1147, 1177, 1207; BF.h 512-561.  Others do not exist. *)
Definition nd_dom (f : fam) : option (T * T) :=
  match f with
  | CP | LeP => Some (oopp A 1, 1)
  | FS => Some (oopp A (fpi E), fpi E)
  | _ => None
  end.
Definition nd_init (be : backend) (f : fam) (x0 xf : list T) (nC : mat Z) (m : nat) : option nbasis :=
  zz <- nd_dom f ;;
  match be with
  | Py => py_nd_init x0 xf nC m (fst zz) (snd zz)
  | Cpp => cpp_nd_init x0 xf nC m (fst zz) (snd zz)
  end.

(** *** Python matrix *)

(** the column of [x] for one point, mapped to the basis domain: BF_Py.py 1030, 1035 *)
Definition py_nd_z (B : nbasis) (x : list T) : list T :=
  map (fun p => (fst p - fst (snd p)) * snd (snd p) + nb_z0 B) (combine x (combine (nb_x0 B) (nb_c B))).
(** [T[:, :, k]] for one point, BF_Py.py 1033-1035; [d[k]] beyond the end is an IndexError *)
Definition py_nd_T (f : fam) (B : nbasis) (z : list T) (d : list nat) : option (list (list T)) :=
  mapM (fun k =>
    zk <- nth_error z k ;; dk <- nth_error d k ;; ck <- nth_error (nb_c B) k ;;
    row <- py_hint_row A E f (nb_m B) zk dk ;;
    Some (map (fun v => v * opow A ck dk) row)) (seq 0 (nb_dim B)).
(** [MultT], BF_Py.py 1057-1060 *)
Definition py_multT (Tk : list (list T)) (dim : nat) (vec : list nat) : option T :=
  for_ 0 dim (fun k tout =>
    row <- nth_error Tk k ;; v <- nth_error vec k ;; t <- nth_error row v ;; Some (tout * t)) 1.
(** [Recurse] and the allocation of [out] on one row, BF_Py.py 1086-1121 *)
Definition py_nd_row (B : nbasis) (full : bool) (Tk : list (list T)) : option (list T) :=
  match nb_dim B with
  | O => None
  | S dim' =>
      let num := if full then nb_numFull B else nb_num B in
      r <- nrec (nb_m B) (fun vec (st : buf T * nat) =>
             let (out, n) := st in
             v <- bto_list vec ;;
             if py_keep (nb_m B) (nb_nC B) full v then
               t <- py_multT Tk (nb_dim B) v ;;
               out <- bwr out n t ;;
               Some (out, S n)
             else Some (out, n)) dim' (bfill (nb_dim B) O) (bfill num 0, O) ;;
      bto_list (fst (snd r))
  end.
(** [nBasisFunc.H], BF_Py.py 1026-1121; [x] is dim by N *)
Definition py_nH (f : fam) (B : nbasis) (x : mat T) (d : list nat) (full : bool) : option (mat T) :=
  if (mr x =? nb_dim B)%nat then
    rows <- mapM (fun j =>
              xj <- mapM (fun r => nth_error r j) (md x) ;;
              Tk <- py_nd_T f B (py_nd_z B xj) d ;;
              py_nd_row B full Tk) (seq 0 (mc x)) ;;
    Some (Mat (mc x) (if full then nb_numFull B else nb_num B) rows)
  else None.

(** *** C++ matrix *)

(** [z[j * n + k] = (x[j * n + k] - x0[j]) * c[j] + z0], BF.cc 1115-1118 (and 1375-1378) *)
Definition cpp_nd_z (B : nbasis) (x : buf T) (n : nat) : option (buf T) :=
  for_ 0 (nb_dim B) (fun j z => for_ 0 n (fun k z =>
    xv <- brd x (j * n + k)%nat ;; x0j <- nth_error (nb_x0 B) j ;; cj <- nth_error (nb_c B) j ;;
    bwr z (j * n + k)%nat ((xv - x0j) * cj + nb_z0 B)) z) (bnew (n * nb_dim B)%nat).
(** the pointer [z + off] to the next [n] cells *)
Definition bsub (z : buf T) (off n : nat) : option (buf T) :=
  if (off + n <=? blen z)%nat then Some (Buf n (fun i => bcell z (off + i)%nat)) else None.
(** univariate tables, BF.cc 1121-1132; one block [dark] is reused for all dimensions *)
Definition cpp_nd_T (f : fam) (B : nbasis) (z : buf T) (n : nat) (d : list nat) : option (buf T) :=
  let m := nb_m B in
  r <- for_ 0 (nb_dim B) (fun k (st : buf T * buf T) =>
         let (dark, Tb) := st in
         zk <- bsub z (k * n)%nat n ;;
         ck <- nth_error (nb_c B) k ;;
         let dk := nth k d 0%nat in                              (* k >= dDim0: order 0, factor 1 *)
         dark <- cpp_hint A E f m dk zk n dark ;;
         let dMult := if (length d <=? k)%nat then 1 else opow A ck dk in
         Tb <- for_ 0 (n * m)%nat (fun j Tb =>
                 v <- brd dark j ;; bwr Tb (j + k * m * n)%nat (v * dMult)) Tb ;;
         Some (dark, Tb)) (bnew (n * m)%nat, bnew (n * m * nb_dim B)%nat) ;;
  Some (snd r).
(** body of RecurseBasis, BF.cc 1220-1226 and 1248-1254 *)
Definition cpp_nd_mult (B : nbasis) (n numBasis : nat) (Tb : buf T) (vec : buf nat) (count : nat) (out : buf T)
  : option (buf T) :=
  for_ 0 n (fun h out => for_ 0 (nb_dim B) (fun l out =>
    v <- brd vec l ;;
    t <- brd Tb (nb_m B * n * l + v + h * nb_m B)%nat ;;
    o <- brd out (h * numBasis + count)%nat ;;
    bwr out (h * numBasis + count)%nat (o * t)) out) out.
(** nBasisFunc::nHint, BF.cc 1106-1146 *)
Definition cpp_nHint (f : fam) (B : nbasis) (x : buf T) (n : nat) (d : list nat) (numBasis : nat)
    (F : buf T) (full : bool) : option (buf T) :=
  match nb_dim B with
  | O => None
  | S dim' =>
      z <- cpp_nd_z B x n ;;
      Tb <- cpp_nd_T f B z n d ;;
      F <- for_ 0 (n * numBasis)%nat (fun k F => bwr F k 1) F ;;          (* 1134-1135 *)
      r <- nrec (nb_m B) (fun vec (st : buf T * nat) =>
             let (out, count) := st in
             k <- cpp_keep (nb_dim B) (nb_m B) (nb_numC B) (nb_flat B) full vec ;;
             if (k : bool) then
               out <- cpp_nd_mult B n numBasis Tb vec count out ;;
               Some (out, S count)
             else Some (out, count)) dim' (bnew (nb_dim B)) (F, O) ;;
      Some (fst (snd r))
  end.
(** nBasisFunc::H, BF.cc 1074-1088 and the binding BF_Py.cc: [x] is a C-contiguous two-dimensional
    array, only its second dimension is passed on *)
Definition cpp_nH (f : fam) (B : nbasis) (x : mat T) (d : list nat) (full : bool) : option (mat T) :=
  let numBasis := if full then nb_numFull B else nb_num B in
  let n := mc x in
  F <- cpp_nHint f B (bof (concat (md x))) n d numBasis (bnew (numBasis * n)%nat) full ;;
  rows <- buf_matrix F n numBasis ;;
  Some (Mat n numBasis rows).
(** nBasisFunc::xla, BF.cc 1094-1104: sizes and output block come from the caller *)
Definition cpp_n_xla (f : fam) (B : nbasis) (x : buf T) (d : list nat) (full : bool) (nOut mOut : nat)
    (out : buf T) : option (buf T) :=
  cpp_nHint f B x nOut d mOut out full.

Definition nd_H (be : backend) := match be with Py => py_nH | Cpp => cpp_nH end.
End ND.
Arguments NBasis {T}. Arguments nb_dim {T}. Arguments nb_m {T}. Arguments nb_numC {T}. Arguments nb_nC {T}.
Arguments nb_flat {T}. Arguments nb_x0 {T}. Arguments nb_c {T}. Arguments nb_z0 {T}. Arguments nb_num {T}.
Arguments nb_numFull {T}.
