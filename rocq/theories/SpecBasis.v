(** Vocabulary of the property statements about basis matrices.  Only the public
    shape of a matrix and its entries are mentioned; no helper of the model is used. *)
From Coq Require Import List Arith ZArith Reals Sorted.
From Coquelicot Require Import Coquelicot.
From Verif Require Import Base Numbers ModelBFPy ModelBFCpp.
Import ListNotations.

(** entry in row [j], column [k], if the matrix has one *)
Definition ment {T} (M : mat T) (j k : nat) : option T :=
  match nth_error (md M) j with Some r => nth_error r k | None => None end.

(** a genuine [r] by [c] matrix *)
Definition shaped {T} (M : mat T) (r c : nat) : Prop :=
  mr M = r /\ mc M = c /\ length (md M) = r /\ forall row, In row (md M) -> length row = c.

(** [tfc.utils.BF.<f>(x0, xf, nC, m).H(xs, d, full)] and the same call on
    [tfc.utils.BF_Py], over the reals *)
Definition H1 (be : backend) (f : fam) (x0 xf : R) (nC : list Z) (m : nat)
    (xs : list R) (d : nat) (full : bool) : option (mat R) :=
  let B := fam_init ROps RFun f x0 xf nC m in
  match be with
  | Py => py_H ROps RFun f B xs d full
  | Cpp => cpp_H_mat ROps RFun f B xs d full
  end.

(** the same over the rationals, for computed examples *)
Definition H1Q (be : backend) (f : fam) (x0 xf : QArith_base.Q) (nC : list Z) (m : nat) xs (d : nat) (full : bool) :=
  let B := fam_init QOps QFun f x0 xf nC m in
  match be with
  | Py => py_H QOps QFun f B xs d full
  | Cpp => cpp_H_mat QOps QFun f B xs d full
  end.

(** [H xs d] is the matrix of d-th derivatives of the functions in the columns of
    [H _ 0], taken in the physical variable, at the points [xs]. *)
Definition derivative_matrices (H : list R -> nat -> option (mat R)) (m : nat) : Prop :=
  forall xs d, exists M, H xs d = Some M /\ shaped M (length xs) m /\
  forall k, (k < m)%nat -> exists y : R -> R,
    (forall t, exists M0, H [t] 0%nat = Some M0 /\ ment M0 0 k = Some (y t)) /\
    forall j x, nth_error xs j = Some x ->
      exists v, ment M j k = Some v /\ is_derive_n y d x v.

(** [Mc] is [M] without the columns listed in [nC]: the kept columns, in order. *)
Definition columns_removed {T} (m : nat) (nC : list Z) (M Mc : mat T) : Prop :=
  exists kept : list nat,
    StronglySorted lt kept /\
    (forall k, In k kept <-> (k < m)%nat /\ ~ In (Z.of_nat k) nC) /\
    shaped Mc (mr M) (length kept) /\
    forall j i, ment Mc j i = match nth_error kept i with Some k => ment M j k | None => None end.

(** a list of distinct column numbers of an [m]-column matrix *)
Definition valid_nC (nC : list Z) (m : nat) : Prop :=
  NoDup nC /\ forall i, In i nC -> (0 <= i < Z.of_nat m)%Z.

(** the coordinate in which the basis functions of family [f] are written *)
Definition zmap (f : fam) (x0 xf x : R) : R :=
  (match f with
   | CP | LeP => -1 + 2 * ((x - x0) / (xf - x0))
   | FS => - PI + 2 * PI * ((x - x0) / (xf - x0))
   | LaP | HoPpro | HoPphy => x
   end)%R.

(** the full matrix of order [d] at the points [xs] has entry [v] in row [j], column [k] *)
Definition entry_is (be : backend) (f : fam) x0 xf nC m xs d j k (v : R) : Prop :=
  exists M, H1 be f x0 xf nC m xs d true = Some M /\ ment M j k = Some v.

(** the combination of the entries of a row with the coefficients [a 0, a 1, ...] *)
Fixpoint row_comb (a : nat -> R) (row : list R) : R :=
  match row with [] => 0%R | v :: r => (a 0%nat * v + row_comb (fun i => a (S i)) r)%R end.
(** value at [x] of the polynomial with coefficients [b], constant term first *)
Fixpoint poly_at (b : list R) (x : R) : R :=
  match b with [] => 0%R | c :: b' => (c + x * poly_at b' x)%R end.

(** ends of the basis domain of the bounded families *)
Definition zlo (f : fam) : R := match f with FS => (- PI)%R | _ => (-1)%R end.
Definition zhi (f : fam) : R := match f with FS => PI | _ => 1%R end.
Definition bounded (f : fam) : Prop := f = CP \/ f = LeP \/ f = FS.
