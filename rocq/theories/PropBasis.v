(** Properties C01-C09, C13, C15, C17, C58: one-dimensional basis matrices. *)
From Coq Require Import Reals Arith List Bool ZArith Lra QArith.
From Coquelicot Require Import Coquelicot.
From Verif Require Import Base Numbers ModelBFPy ModelBFCpp SpecBasis ProofH ProofPoly ProofBasis ProofIndep.
Import ListNotations.
Open Scope R_scope.

(** ** C01 *)
Theorem C01_chebyshev_columns : forall be x0 xf nC m xs j k x theta,
  x0 <> xf -> (k < m)%nat -> nth_error xs j = Some x -> zmap CP x0 xf x = cos theta ->
  entry_is be CP x0 xf nC m xs 0 j k (cos (INR k * theta)).
Proof. exact c01. Qed.
Print Assumptions C01_chebyshev_columns.

Example C01_case : entry_is Cpp CP 0 2 [1%Z] 4 [7; 3/2] 0 1 3 (cos (INR 3 * (PI / 3))).
Proof.
  apply (C01_chebyshev_columns Cpp 0 2 [1%Z] 4%nat [7; 3/2] 1%nat 3%nat (3/2)); try reflexivity; try lra.
  - auto with arith.
  - unfold zmap. rewrite cos_PI3. lra.
Qed.
Example C01_computed : H1Q Py CP 0 2 [] 4 [(3#2)%Q] 0 true = Some (Mat 1 4 [[1; 1#2; (-1)#2; (-1)]])%Q.
Proof. vm_compute. reflexivity. Qed.

(** ** C02: column k is a function y with ((1-z^2) y')' = -k(k+1) y, y(1) = 1, parity (-1)^k *)
Theorem C02_legendre_columns : forall be k, exists y y' : R -> R,
  (forall z, is_derive y z (y' z)) /\
  (forall z, is_derive (fun t => (1 - t ^ 2) * y' t) z (- (INR k * (INR k + 1) * y z))) /\
  y 1 = 1 /\ (forall z, y (- z) = (-1) ^ k * y z) /\
  forall x0 xf nC m xs j x, x0 <> xf -> (k < m)%nat -> nth_error xs j = Some x ->
    entry_is be LeP x0 xf nC m xs 0 j k (y (zmap LeP x0 xf x)).
Proof. exact c02. Qed.
Print Assumptions C02_legendre_columns.

Example C02_computed : H1Q Cpp LeP (-1) 1 [] 4 [(1#2)%Q] 0 true = Some (Mat 1 4 [[1; 1#2; (-1)#8; (-7)#16]])%Q.
Proof. vm_compute. reflexivity. Qed.

(** ** C03 *)
Theorem C03_laguerre_columns : forall be x0 xf nC m xs j k x,
  x0 <> xf -> (k < m)%nat -> nth_error xs j = Some x ->
  entry_is be LaP x0 xf nC m xs 0 j k
    (sum_f_R0 (fun i => Binomial.C k i * (-1) ^ i * x ^ i / INR (fact i)) k).
Proof. exact c03. Qed.
Print Assumptions C03_laguerre_columns.

Example C03_computed : H1Q Py LaP 0 1 [] 4 [2%Q] 0 true = Some (Mat 1 4 [[1; (-1); (-1); (-1)#3]])%Q.
Proof. vm_compute. reflexivity. Qed.

(** ** C04, C05 *)
Theorem C04_hermite_pro_columns : forall be x0 xf nC m xs j k x,
  x0 <> xf -> (k < m)%nat -> nth_error xs j = Some x ->
  let w := fun t => exp (- t ^ 2 / 2) in
  ex_derive_n w k x /\
  entry_is be HoPpro x0 xf nC m xs 0 j k ((-1) ^ k * exp (x ^ 2 / 2) * Derive_n w k x).
Proof. exact c04. Qed.
Print Assumptions C04_hermite_pro_columns.

Example C04_computed : H1Q Cpp HoPpro 0 1 [] 5 [3%Q] 0 true = Some (Mat 1 5 [[1; 3; 8; 18; 30]])%Q.
Proof. vm_compute. reflexivity. Qed.

Theorem C05_hermite_phy_columns : forall be x0 xf nC m xs j k x,
  x0 <> xf -> (k < m)%nat -> nth_error xs j = Some x ->
  let w := fun t => exp (- t ^ 2) in
  ex_derive_n w k x /\
  entry_is be HoPphy x0 xf nC m xs 0 j k ((-1) ^ k * exp (x ^ 2) * Derive_n w k x).
Proof. exact c05. Qed.
Print Assumptions C05_hermite_phy_columns.

Example C05_computed : H1Q Py HoPphy 0 1 [] 4 [1%Q] 0 true = Some (Mat 1 4 [[1; 2; 2; (-4)]])%Q.
Proof. vm_compute. reflexivity. Qed.

(** ** C06 *)
Theorem C06_fourier_columns : forall be x0 xf nC m xs j x,
  x0 <> xf -> nth_error xs j = Some x ->
  let z := zmap FS x0 xf x in
  ((0 < m)%nat -> entry_is be FS x0 xf nC m xs 0 j 0 1) /\
  (forall g, (2 * S g - 1 < m)%nat -> entry_is be FS x0 xf nC m xs 0 j (2 * S g - 1) (sin (INR (S g) * z))) /\
  (forall g, (2 * S g < m)%nat -> entry_is be FS x0 xf nC m xs 0 j (2 * S g) (cos (INR (S g) * z))).
Proof. exact c06. Qed.
Print Assumptions C06_fourier_columns.

Theorem C06_fourier_periodic : forall be x0 xf nC m k x, x0 <> xf -> (k < m)%nat ->
  exists v, entry_is be FS x0 xf nC m [x] 0 0 k v /\ entry_is be FS x0 xf nC m [x + (xf - x0)] 0 0 k v.
Proof. exact c06_periodic. Qed.
Print Assumptions C06_fourier_periodic.

Example C06_case : entry_is Cpp FS 0 1 [] 5 [1/4] 0 0 (2 * 2 - 1) (sin (INR 2 * zmap FS 0 1 (1/4))).
Proof.
  destruct (C06_fourier_columns Cpp 0 1 [] 5 [1/4] 0 (1/4)) as (_ & Hs & _); [lra|reflexivity|].
  apply (Hs 1%nat). auto with arith.
Qed.

(** ** C07 and C09: both backends, all families *)
Theorem C07_polynomial_derivatives : forall be f x0 xf nC m,
  f <> FS -> x0 <> xf -> (1 <= m)%nat ->
  derivative_matrices (fun xs d => H1 be f x0 xf nC m xs d true) m.
Proof. exact (fun be f x0 xf nC m _ _ => H1_derivs be f x0 xf nC m). Qed.
Print Assumptions C07_polynomial_derivatives.

Theorem C09_fourier_derivatives : forall be x0 xf nC m,
  x0 <> xf -> (1 <= m)%nat ->
  derivative_matrices (fun xs d => H1 be FS x0 xf nC m xs d true) m.
Proof. exact (fun be x0 xf nC m _ => H1_derivs be FS x0 xf nC m). Qed.
Print Assumptions C09_fourier_derivatives.

(** third derivative of (1, z, T2, T3, T4) at z = 1/2 with dz/dx = 2 *)
Example C07_computed : H1Q Py CP 0 1 [] 5 [(3#4)%Q] 3 true = Some (Mat 1 5 [[0; 0; 0; 192; 768]])%Q
  /\ H1Q Cpp CP 0 1 [] 5 [(3#4)%Q] 3 true = Some (Mat 1 5 [[0; 0; 0; 192; 768]])%Q.
Proof. split; vm_compute; reflexivity. Qed.

(** ** C08: same result, and no undefined behaviour ([Some]) on the C++ side *)
Theorem C08_backends_agree : forall f x0 xf nC m xs d full,
  (1 <= m)%nat -> valid_nC nC m ->
  exists M, H1 Py f x0 xf nC m xs d full = Some M /\ H1 Cpp f x0 xf nC m xs d full = Some M.
Proof. exact H1_backends. Qed.
Print Assumptions C08_backends_agree.

Example C08_computed : exists M, H1Q Py LeP 0 3 [2; 0]%Z 5 [1; 2]%Q 2 false = Some M
  /\ H1Q Cpp LeP 0 3 [2; 0]%Z 5 [1; 2]%Q 2 false = Some M /\ mc M = 3%nat.
Proof. eexists. repeat split; vm_compute; reflexivity. Qed.
Example C08_valid : valid_nC [2; 0]%Z 5.
Proof.
  split.
  - repeat constructor; cbn; intuition discriminate.
  - intros i [<-|[<-|[]]]; split; reflexivity || (intro; discriminate).
Qed.

(** ** C13 *)
Theorem C13_columns_removed : forall be f x0 xf nC m xs d,
  (1 <= m)%nat -> valid_nC nC m ->
  exists M Mc, H1 be f x0 xf nC m xs d true = Some M /\ H1 be f x0 xf nC m xs d false = Some Mc /\
    columns_removed m nC M Mc /\ mc Mc = (m - length nC)%nat.
Proof. exact H1_removed. Qed.
Print Assumptions C13_columns_removed.

(** Without the distinctness of [valid_nC] the claim fails: Python silently returns more
    than [m - len(nC)] columns and C++ writes outside its output block. *)
Theorem C13_repeated_entries_refuted : forall f x0 xf x, f <> FS ->
  (exists M, H1 Py f x0 xf [0; 0]%Z 2 [x] 0 false = Some M /\ shaped M 1 1) /\
  H1 Cpp f x0 xf [0; 0]%Z 2 [x] 0 false = None.
Proof. exact c13_dup. Qed.
Print Assumptions C13_repeated_entries_refuted.

(** ** C15: the block filled by the compiled entry point is the eager matrix *)
Theorem C15_compiled_equals_eager : forall f x0 xf nC m xs d full out M,
  (1 <= m)%nat -> valid_nC nC m ->
  H1 Cpp f x0 xf nC m xs d full = Some M -> blen out = (mr M * mc M)%nat ->
  exists b, cpp_xla ROps RFun f (fam_init ROps RFun f x0 xf nC m) (bof xs) d full (mr M) (mc M) out = Some b
    /\ buf_matrix b (mr M) (mc M) = Some (md M).
Proof. exact c15. Qed.
Print Assumptions C15_compiled_equals_eager.

Example C15_case : exists b,
  cpp_xla ROps RFun CP (fam_init ROps RFun CP 0 1 [1%Z] 3) (bof [0; 1; 2]) 1 false 3 2 (bnew 6) = Some b
    /\ exists rows, buf_matrix b 3 2 = Some rows.
Proof.
  assert (Hv : valid_nC [1%Z] 3).
  { split; [repeat constructor; easy|]. intros i [<-|[]]; split; reflexivity || (intro; discriminate). }
  destruct (C13_columns_removed Cpp CP 0 1 [1%Z] 3 [0; 1; 2] 1) as (M & Mc & _ & HMc & Hr & Hc);
    [auto with arith|exact Hv|].
  assert (Hmr : mr Mc = 3%nat).
  { pose proof HMc as H. rewrite H1_part in H by (auto with arith || exact Hv). injection H as <-. reflexivity. }
  destruct (C15_compiled_equals_eager CP 0 1 [1%Z] 3 [0; 1; 2] 1 false (bnew 6) Mc) as (b & E & Eb);
    [auto with arith|exact Hv|exact HMc|rewrite Hmr, Hc; reflexivity|].
  rewrite Hmr, Hc in E, Eb. exists b. split; [exact E|]. exists (md Mc). exact Eb.
Qed.

(** ** C17 *)
Theorem C17_domain_map : forall f x0 xf, bounded f -> x0 < xf ->
  zmap f x0 xf x0 = zlo f /\ zmap f x0 xf xf = zhi f /\
  forall x y, x0 <= x -> x < y -> y <= xf ->
    zlo f <= zmap f x0 xf x /\ zmap f x0 xf x < zmap f x0 xf y /\ zmap f x0 xf y <= zhi f.
Proof. exact c17_map. Qed.
Print Assumptions C17_domain_map.

(** the matrix on [x0, xf] is the matrix on the basis domain at the mapped points *)
Theorem C17_evaluated_at_image : forall be f x0 xf nC m xs, bounded f -> (1 <= m)%nat -> x0 <> xf ->
  exists M, H1 be f x0 xf nC m xs 0 true = Some M /\
    H1 be f (zlo f) (zhi f) nC m (map (zmap f x0 xf) xs) 0 true = Some M.
Proof. exact c17_eval. Qed.
Print Assumptions C17_evaluated_at_image.

Example C17_computed : H1Q Cpp CP 2 6 [] 3 [5%Q] 0 true = H1Q Cpp CP (-1) 1 [] 3 [(1#2)%Q] 0 true.
Proof. vm_compute. reflexivity. Qed.

(** ** C58 *)
Theorem C58_remaining_independent : forall be f x0 xf n m xs (a : nat -> R) (b : list R),
  f <> FS -> x0 <> xf -> (n <= m)%nat -> (1 <= m)%nat ->
  NoDup xs -> (m <= length xs)%nat -> (length b <= n)%nat ->
  exists M, H1 be f x0 xf (map Z.of_nat (seq 0 n)) m xs 0 false = Some M /\
  ((forall j x row, nth_error xs j = Some x -> nth_error (md M) j = Some row -> row_comb a row = poly_at b x) ->
   forall i, (i < m - n)%nat -> a i = 0).
Proof. exact c58. Qed.
Print Assumptions C58_remaining_independent.

(** with one point fewer the conclusion fails: T2 + 1/2 vanishes at z = 1/2 and z = -1/2 *)
Example C58_sharp : H1Q Py CP (-1) 1 [0; 1]%Z 3 [(1#2); (-1)#2]%Q 0 false = Some (Mat 2 1 [[(-1)#2]; [(-1)#2]])%Q.
Proof. vm_compute. reflexivity. Qed.
