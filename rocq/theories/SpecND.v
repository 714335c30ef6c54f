(** Vocabulary of the property statements about n-dimensional basis matrices. *)
From Coq Require Import List Arith ZArith Reals Permutation.
From Coquelicot Require Import Coquelicot.
From Verif Require Import Base Numbers ModelBFPy ModelBFCpp ModelND SpecBasis.
Import ListNotations.

(** [tfc.utils.BF.<f>(x0, xf, nC, m)] and the same on [tfc.utils.BF_Py], over the reals *)
Definition mkn (be : backend) (f : fam) (x0 xf : list R) (nC : mat Z) (m : nat) : option (nbasis (T:=R)) :=
  nd_init ROps RFun be f x0 xf nC m.
(** its attributes [numBasisFunc], [numBasisFuncFull] *)
Definition advertised (B : nbasis (T:=R)) (full : bool) : nat := if full then nb_numFull B else nb_num B.
(** [.H(x, d, full)] *)
Definition Hn (be : backend) (f : fam) (B : nbasis (T:=R)) (x : mat R) (d : list nat) (full : bool) :=
  nd_H ROps RFun be f B x d full.

(** the same over the rationals, for computed examples: matrix and advertised number *)
Definition HnQ (be : backend) (f : fam) x0 xf nC m x d full :=
  match nd_init QOps QFun be f x0 xf nC m with
  | Some B => match nd_H QOps QFun be f B x d full with
              | Some M => Some (if full then nb_numFull B else nb_num B, M)
              | None => None
              end
  | None => None
  end.

(** arguments the classes accept: [dim] intervals, a table of [dim] rows, at least one function *)
Definition n_args (f : fam) (dim : nat) (x0 xf : list R) (nC : mat Z) (m : nat) : Prop :=
  bounded f /\ (1 <= dim)%nat /\ (1 <= m)%nat /\ length x0 = dim /\ length xf = dim /\ shaped nC dim (mc nC).
(** one order per dimension; the C++ classes read missing orders as zero *)
Definition orders_ok (be : backend) (dim : nat) (d : list nat) : Prop := be = Cpp \/ (dim <= length d)%nat.

(** a multi-index that the basis uses: total degree at most [m - 1] and, unless all functions are
    asked for, not constrained in every dimension *)
Definition admissible (dim m : nat) (nC : mat Z) (full : bool) (v : list nat) : Prop :=
  length v = dim /\ (list_sum v <= m - 1)%nat /\
  (full = true \/
   exists k row a, nth_error (md nC) k = Some row /\ nth_error v k = Some a /\ ~ In (Z.of_nat a) row).

(** product of [F 0], ..., [F (n - 1)] *)
Fixpoint prodn (n : nat) (F : nat -> R) : R :=
  match n with O => 1%R | S n' => (prodn n' F * F n')%R end.

(** entry of the univariate full matrix: function number [a], order [d], at the point [x] *)
Definition uni_entry (be : backend) (f : fam) (x0 xf : R) (m : nat) (x : R) (d a : nat) (v : R) : Prop :=
  entry_is be f x0 xf [] m [x] d 0 a v.

(** [idx] lists the multi-indices of the columns of [Hn be f B _ _ full] *)
Definition column_indices be f x0 xf m dim (B : nbasis (T:=R)) (full : bool) (idx : list (list nat)) : Prop :=
  forall n x d, shaped x dim n -> orders_ok be dim d ->
  exists M, Hn be f B x d full = Some M /\ shaped M n (length idx) /\
  forall i v j, nth_error idx i = Some v -> (j < n)%nat ->
  exists F : nat -> R,
    (forall k, (k < dim)%nat ->
       exists xk, ment x k j = Some xk /\
       uni_entry be f (nth k x0 0%R) (nth k xf 0%R) m xk (nth k d 0%nat) (nth k v 0%nat) (F k)) /\
    ment M j i = Some (prodn dim F).

(** *** mixed partial derivatives of functions of points [X 0, X 1, ...] *)
Definition pt := nat -> R.
Definition upd (X : pt) (k : nat) (t : R) : pt := fun i => if Nat.eqb i k then t else X i.
(** differentiate [f] [d k] times in variable [k] for every [k] of the list, in that order *)
Fixpoint mixed (d : list nat) (ks : list nat) (f g : pt -> R) : Prop :=
  match ks with
  | [] => forall X, f X = g X
  | k :: ks' => exists h : pt -> R,
      (forall X, is_derive_n (fun t => f (upd X k t)) (nth k d 0%nat) (X k) (h X)) /\ mixed d ks' h g
  end.
(** the point with coordinates [X 0 .. X (dim-1)] as a one-column array, and column [j] of an array *)
Definition one_point (dim : nat) (X : pt) : mat R := Mat dim 1 (map (fun k => [X k]) (seq 0 dim)).
Definition at_col (x : mat R) (j dim : nat) (X : pt) : Prop :=
  forall k, (k < dim)%nat -> ment x k j = Some (X k).

(** [H x d] is the matrix of the [d]-th mixed partial derivatives of the functions in the columns of
    [H _ 0], whatever the order of differentiation *)
Definition partial_matrices (H : mat R -> list nat -> option (mat R)) (dim num : nat) (ok : list nat -> Prop)
  : Prop :=
  forall i, (i < num)%nat -> exists y : pt -> R,
    (forall X, exists M0, H (one_point dim X) (repeat 0%nat dim) = Some M0 /\ ment M0 0 i = Some (y X)) /\
    forall d, ok d -> exists g : pt -> R,
      (forall ks, Permutation ks (seq 0 dim) -> mixed d ks y g) /\
      forall n x j X, shaped x dim n -> (j < n)%nat -> at_col x j dim X ->
        exists M, H x d = Some M /\ ment M j i = Some (g X).
