(** Properties C15, C20-C23: n-dimensional basis matrices. *)
From Coq Require Import Reals Arith List Bool ZArith Lra Lia QArith Permutation.
From Coquelicot Require Import Coquelicot.
From Verif Require Import Base Numbers ModelBFPy ModelBFCpp SpecBasis ModelND SpecND ProofND2.
Import ListNotations.
Open Scope R_scope.

(** ** C20 (and the product form of C22) *)
Theorem C20_multi_indices : forall be f dim x0 xf nC m full, n_args f dim x0 xf nC m ->
  exists B idx, mkn be f x0 xf nC m = Some B /\
    NoDup idx /\ (forall v, In v idx <-> admissible dim m nC full v) /\
    advertised B full = length idx /\ column_indices be f x0 xf m dim B full idx.
Proof. exact c20. Qed.
Print Assumptions C20_multi_indices.

(** two dimensions, degree 2, first dimension constrained at 0 and 1, second at 0: of the six
    functions of degree at most 2 those numbered (0,0) and (1,0) go *)
Example C20_args : n_args CP 2 [0; -1] [1; 3] (Mat 2 2 [[0; 1]; [0; -1]]%Z) 3.
Proof.
  repeat split; try (cbn; lia).
  - left; reflexivity.
  - intros row [<-|[<-|[]]]; reflexivity.
Qed.
Example C20_computed :
  HnQ Py CP [(-1); (-1)]%Q [1; 1]%Q (Mat 2 2 [[0; 1]; [0; -1]]%Z) 3 (Mat 2 1 [[3]; [5]])%Q [0; 0]%nat false
    = Some (4%nat, Mat 1 4 [[17; 5; 15; 49]])%Q /\
  HnQ Cpp CP [(-1); (-1)]%Q [1; 1]%Q (Mat 2 2 [[0; 1]; [0; -1]]%Z) 3 (Mat 2 1 [[3]; [5]])%Q [0; 0]%nat true
    = Some (6%nat, Mat 1 6 [[1; 3; 17; 5; 15; 49]])%Q.
Proof. split; vm_compute; reflexivity. Qed.

(** ** C21 *)
Theorem C21_number_of_functions : forall be f dim x0 xf nC deg, n_args f dim x0 xf nC (deg + 1) ->
  exists B, mkn be f x0 xf nC (deg + 1) = Some B /\ INR (advertised B true) = Binomial.C (deg + dim) dim.
Proof. exact c21. Qed.
Print Assumptions C21_number_of_functions.

Example C21_computed : option_map nb_numFull
  (nd_init QOps QFun Cpp LeP [0; 0; 0]%Q [1; 1; 1]%Q (Mat 3 1 [[0]; [0]; [0]]%Z) 5) = Some 35%nat.
Proof. vm_compute. reflexivity. Qed.

(** ** C22 *)
Theorem C22_mixed_partials : forall be f dim x0 xf nC m full, n_args f dim x0 xf nC m ->
  exists B, mkn be f x0 xf nC m = Some B /\
  partial_matrices (fun x d => Hn be f B x d full) dim (advertised B full) (orders_ok be dim).
Proof. exact c22. Qed.
Print Assumptions C22_mixed_partials.

(** first row: 1, x, 2x^2-1, y, xy, 2y^2-1 with x = 2t, y = s/2 (t = 3, s = 10), once in t *)
Example C22_computed :
  HnQ Cpp CP [(-1)#2; (-2)]%Q [1#2; 2]%Q (Mat 2 1 [[-1]; [-1]]%Z) 3 (Mat 2 1 [[3]; [10]])%Q [1; 0]%nat true
    = Some (6%nat, Mat 1 6 [[0; 2; 48; 0; 10; 0]])%Q /\
  HnQ Py CP [(-1)#2; (-2)]%Q [1#2; 2]%Q (Mat 2 1 [[-1]; [-1]]%Z) 3 (Mat 2 1 [[3]; [10]])%Q [1; 1]%nat false
    = Some (6%nat, Mat 1 6 [[0; 0; 0; 0; 1; 0]])%Q.
Proof. split; vm_compute; reflexivity. Qed.

(** ** C23 *)
Theorem C23_backends_agree : forall f dim x0 xf nC m n x d full,
  n_args f dim x0 xf nC m -> shaped x dim n -> (dim <= length d)%nat ->
  exists Bp Bc M, mkn Py f x0 xf nC m = Some Bp /\ mkn Cpp f x0 xf nC m = Some Bc /\
    advertised Bp full = advertised Bc full /\
    Hn Py f Bp x d full = Some M /\ Hn Cpp f Bc x d full = Some M /\ shaped M n (advertised Bc full).
Proof. exact c23. Qed.
Print Assumptions C23_backends_agree.

(** missing orders: read as zero by C++, rejected by Python *)
Theorem C23_cpp_missing_orders : forall f dim x0 xf nC m n x d full,
  n_args f dim x0 xf nC m -> shaped x dim n ->
  exists B M, mkn Cpp f x0 xf nC m = Some B /\
    Hn Cpp f B x d full = Some M /\ Hn Cpp f B x (d ++ repeat 0%nat dim) full = Some M.
Proof. exact c23_short. Qed.
Print Assumptions C23_cpp_missing_orders.
Theorem C23_py_missing_orders : forall f dim x0 xf nC m n x d full,
  n_args f dim x0 xf nC m -> shaped x dim (S n) -> (length d < dim)%nat ->
  exists B, mkn Py f x0 xf nC m = Some B /\ Hn Py f B x d full = None.
Proof. exact c23_py_short. Qed.
Print Assumptions C23_py_missing_orders.

(** an array with too few rows: Python raises, C++ reads out of bounds (it never looks at the
    number of rows) *)
Theorem C23_too_few_rows_refuted : forall f dim x0 xf nC m n x d full,
  n_args f dim x0 xf nC m ->
  (forall r, In r (md x) -> length r = S n) -> mc x = S n -> (length (md x) < dim)%nat -> mr x = length (md x) ->
  exists Bp Bc, mkn Py f x0 xf nC m = Some Bp /\ Hn Py f Bp x d full = None /\
    mkn Cpp f x0 xf nC m = Some Bc /\ Hn Cpp f Bc x d full = None.
Proof. exact c23_rows. Qed.
Print Assumptions C23_too_few_rows_refuted.

Example C23_computed :
  let H be := HnQ be LeP [0; 0; 0]%Q [1; 2; 3]%Q (Mat 3 1 [[0]; [1]; [0]]%Z) 3
                (Mat 3 2 [[1#2; 1]; [1; 1#3]; [0; 2]])%Q [1; 0; 1]%nat false in
  H Py = H Cpp /\ H Cpp <> None.
Proof. split; vm_compute; [reflexivity|discriminate]. Qed.

(** ** C15 in n dimensions *)
Theorem C15_nd_xla_matches_H : forall f dim x0 xf nC m n x d full out,
  n_args f dim x0 xf nC m -> shaped x dim n ->
  exists B, mkn Cpp f x0 xf nC m = Some B /\
  (blen out = (n * advertised B full)%nat ->
   exists M out', Hn Cpp f B x d full = Some M /\
     cpp_n_xla ROps RFun f B (bof (concat (md x))) d full n (advertised B full) out = Some out' /\
     buf_matrix out' n (advertised B full) = Some (md M)).
Proof. exact c15n. Qed.
Print Assumptions C15_nd_xla_matches_H.
