(** Property C24 (and C13, C15 for these bases): n-dimensional ELM basis matrices. *)
From Coq Require Import Reals Arith List Bool ZArith Lra Lia QArith Permutation.
From Coquelicot Require Import Coquelicot.
From Verif Require Import Base Numbers ModelBFPy ModelBFCpp SpecBasis ModelELM SpecELM ModelND SpecND ModelNELM SpecNELM ProofNELM2.
Import ListNotations.
Open Scope R_scope.

Example jvpn_ok_case : jvpn_ok (fun g z t => Derive (fun s => g (line z t s)) 0).
Proof. intros g z t l _ H. apply is_derive_unique, H. Qed.

(** ** C24 *)
Theorem C24_nelm_partials_partial : forall jvpn be f dim m w b x0 xf nC o n x,
  jvpn_ok jvpn -> ne_args dim m w b x0 xf -> ne_valid nC m ->
  nsupported be f o -> (length (ord_list o) <= dim)%nat -> shaped x dim n ->
  exists M, HNE jvpn be f w b x0 xf nC m x o true = Some M /\
    nneuron_matrix f dim m w b x0 xf n x (ord_list o) M.
Proof. exact c24. Qed.
Print Assumptions C24_nelm_partials_partial.

(** three neurons in two dimensions *)
Example C24_args : ne_args 2 3 [1; 2; -1; 0; 1; 3] [1; -1; 0] [0; -1] [1; 3].
Proof.
  repeat split; try (cbn; lia). intros i Hi.
  destruct i as [|[|i]]; [cbn; lra|cbn; lra|lia].
Qed.
(** neurons max(0, 1 + x), max(0, 2x + y/2 - 1), max(0, -x + 3y/2) at (x, y) = (3, 2), twice on
    [0,1] x [0,2]; then the derivative in y *)
Example C24_computed :
  HNEQ Py ReLU [1; 2; (-1); 0; 1; 3]%Q [1; (-1); 0]%Q [0; 0]%Q [1; 2]%Q [-1]%Z 3 (Mat 2 1 [[3]; [2]])%Q (DTuple [0; 0]%nat) true
    = Some (Mat 1 3 [[4; 6; 0]])%Q /\
  HNEQ Cpp ReLU [1; 2; (-1); 0; 1; 3]%Q [1; (-1); 0]%Q [0; 0]%Q [1; 2]%Q [-1]%Z 3 (Mat 2 1 [[3]; [10]])%Q (DTuple [0; 1]%nat) true
    = Some (Mat 1 3 [[0; 1#2; 3#2]])%Q /\
  HNEQ Py ReLU [1; 2; (-1); 0; 1; 3]%Q [1; (-1); 0]%Q [0; 0]%Q [1; 2]%Q [1]%Z 3 (Mat 2 1 [[3]; [10]])%Q (DArr [0; 1]%nat) false
    = Some (Mat 1 2 [[0; 3#2]])%Q.
Proof. repeat split; vm_compute; reflexivity. Qed.

Theorem C24_backends_agree : forall jvpn f dim m w b x0 xf nC o full n x,
  jvpn_ok jvpn -> ne_args dim m w b x0 xf -> ne_valid nC m ->
  nsupported Py f o -> nsupported Cpp f o -> (length (ord_list o) <= dim)%nat -> shaped x dim n ->
  exists M, HNE jvpn Py f w b x0 xf nC m x o full = Some M /\ HNE jvpn Cpp f w b x0 xf nC m x o full = Some M.
Proof. exact c24_backends. Qed.
Print Assumptions C24_backends_agree.

(** from total order 9 on, the C++ sigmoid and tanh return the undifferentiated matrix *)
Theorem C24_order_nine_is_not_a_derivative : forall jvpn f dim m w b x0 xf nC o n x, f = Sigmoid \/ f = Tanh ->
  ne_args dim m w b x0 xf -> ne_valid nC m -> (9 <= list_sum (ord_list o))%nat ->
  (length (ord_list o) <= dim)%nat -> shaped x dim n ->
  HNE jvpn Cpp f w b x0 xf nC m x o true = HNE jvpn Cpp f w b x0 xf nC m x (DArr []) true.
Proof. exact c24_untabulated. Qed.
Print Assumptions C24_order_nine_is_not_a_derivative.
Theorem C24_refuted : forall jvpn f d, f = Sigmoid \/ f = Tanh -> (9 <= d)%nat ->
  exists M, HNE jvpn Cpp f [0] [1] [0] [1] [(-1)%Z] 1 (Mat 1 1 [[0]]) (DTuple [d]) true = Some M /\
    ~ nneuron_matrix f 1 1 [0] [1] [0] [1] 1 (Mat 1 1 [[0]]) [d] M.
Proof. exact c24_refuted. Qed.
Print Assumptions C24_refuted.
(** ... and swish returns memory it never wrote *)
Theorem C24_swish_refuted : forall jvpn dim m w b x0 xf nC o n x, ne_args dim m w b x0 xf -> ne_valid nC m ->
  (9 <= list_sum (ord_list o))%nat -> (length (ord_list o) <= dim)%nat -> shaped x dim n ->
  (1 <= n)%nat -> (1 <= m)%nat ->
  HNE jvpn Cpp Swish w b x0 xf nC m x o true = None.
Proof. exact c24_swish. Qed.
Print Assumptions C24_swish_refuted.
(** Python ReLU: first-order derivatives fail when the orders come as a tuple, which is how mtfc
    passes them *)
Theorem C24_tuple_refuted : forall jvpn dim m w b x0 xf nC d full n x,
  ne_args dim m w b x0 xf -> ne_valid nC m ->
  list_sum d = 1%nat -> shaped x dim n -> (1 <= n)%nat ->
  HNE jvpn Py ReLU w b x0 xf nC m x (DTuple d) full = None.
Proof. exact c24_tuple. Qed.
Print Assumptions C24_tuple_refuted.

(** ** C13 *)
Theorem C13_nelm_columns_removed : forall jvpn be f dim m w b x0 xf nC o n x,
  jvpn_ok jvpn -> ne_args dim m w b x0 xf -> ne_valid nC m ->
  nsupported be f o -> (length (ord_list o) <= dim)%nat -> shaped x dim n ->
  exists M Mc, HNE jvpn be f w b x0 xf nC m x o true = Some M /\ HNE jvpn be f w b x0 xf nC m x o false = Some Mc /\
    columns_removed m (removed nC) M Mc /\ mc Mc = (m - length (removed nC))%nat.
Proof. exact c24_removed. Qed.
Print Assumptions C13_nelm_columns_removed.

(** ** C15 *)
Theorem C15_nelm_compiled_equals_eager : forall jvpn f dim m w b x0 xf nC o full n x B M out,
  ne_args dim m w b x0 xf -> ne_valid nC m ->
  nsupported Cpp f o -> (length (ord_list o) <= dim)%nat -> shaped x dim n ->
  nelm_init ROps Cpp x0 xf nC m = Some B -> HNE jvpn Cpp f w b x0 xf nC m x o full = Some M ->
  blen out = (mr M * mc M)%nat ->
  exists bb, cpp_nelm_xla ROps RFun f B w b (bof (concat (md x))) (ord_list o) full (mr M) (mc M) out = Some bb /\
    buf_matrix bb (mr M) (mc M) = Some (md M).
Proof. exact c24_xla. Qed.
Print Assumptions C15_nelm_compiled_equals_eager.
