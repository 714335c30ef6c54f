(** Property C84: the n-dimensional families in binary64 arithmetic. *)
From Coq Require Import ZArith Reals Lia Lra List Arith Bool.
From Flocq Require Import Core BinarySingleNaN.
From Verif Require Import Base Numbers64 ModelBFPy ModelBFCpp ModelND SpecBasis SpecND SpecBits ProofBits ProofBits64 PropBits
  SpecNBits ProofNBits64.
Import ListNotations.
Open Scope R_scope.

(** Both implementations return the same bits and advertise the same number of functions. *)
Theorem C84_same_bits : forall E f dim x0 xf nC m n x d full,
  args_n f dim x0 xf nC m -> shaped x dim n -> (dim <= length d)%nat -> orders64 dim d ->
  exists Bp Bc M, mkn64 Py E f x0 xf nC m = Some Bp /\ mkn64 Cpp E f x0 xf nC m = Some Bc /\
    numbers Bp full = numbers Bc full /\ mc M = numbers Bc full /\
    Hn64 Py E f Bp x d full = Some M /\ Hn64 Cpp E f Bc x d full = Some M.
Proof.
  intros E f dim x0 xf nC m n x d full Ha Hx Hd Ho.
  apply (nagree F64 E f dim x0 xf nC m n x d full Ha Hx Hd). intros k Hk. apply small_ints64, Ho, Hk.
Qed.
Print Assumptions C84_same_bits.

(** the agreement does not depend on the arithmetic, only on two facts about integers *)
Theorem C84_any_arithmetic : forall (T : Type) (A : Ops T) (E : Fun T) f dim x0 xf nC m n x d full,
  args_n f dim x0 xf nC m -> shaped x dim n -> (dim <= length d)%nat ->
  (forall k i, (k < dim)%nat -> (i < nth k d 0)%nat ->
     onat A (2 + 2 * i) = oadd A (onat A 2) (omul A (onat A 2) (onat A i))) ->
  omul A (onat A 2) (o1 A) = onat A 2 ->
  exists Bp Bc M, nd_init A E Py f x0 xf nC m = Some Bp /\ nd_init A E Cpp f x0 xf nC m = Some Bc /\
    nd_H A E Py f Bp x d full = Some M /\ nd_H A E Cpp f Bc x d full = Some M.
Proof.
  intros T A E f dim x0 xf nC m n x d full Ha Hx Hd H1 H2.
  destruct (nagree A E f dim x0 xf nC m n x d full Ha Hx Hd) as (Bp & Bc & M & HM).
  - intros k Hk. split; [intros i Hi; apply (H1 k i Hk Hi)|exact H2].
  - exists Bp, Bc, M. tauto.
Qed.
Print Assumptions C84_any_arithmetic.

(** The columns belong to the multi-indices of C20, each once, and every entry is the product,
    rounded from the left, of the entries of the one-dimensional matrices of either implementation. *)
Theorem C84_columns : forall be E f dim x0 xf nC m full, args_n f dim x0 xf nC m ->
  exists B idx, mkn64 be E f x0 xf nC m = Some B /\
    NoDup idx /\ (forall v, In v idx <-> admissible dim m nC full v) /\ numbers B full = length idx /\
    forall n x d, shaped x dim n -> orders_ok be dim d -> orders64 dim d ->
    exists M, Hn64 be E f B x d full = Some M /\ shaped M n (length idx) /\
    forall i v j be', nth_error idx i = Some v -> (j < n)%nat ->
    exists F : nat -> f64,
      (forall k, (k < dim)%nat -> exists xk, ment x k j = Some xk /\
         uni64 be' E f (nth k x0 (f64_int 0)) (nth k xf (f64_int 0)) m xk (nth k d 0%nat) (nth k v 0%nat) (F k)) /\
      ment M j i = Some (rprod dim F).
Proof. exact columns64. Qed.
Print Assumptions C84_columns.

(** Points are evaluated independently: a point alone gives the bits of its row in any array. *)
Theorem C84_pointwise : forall be E f dim x0 xf nC m full n x d j, args_n f dim x0 xf nC m ->
  shaped x dim n -> orders_ok be dim d -> orders64 dim d -> (j < n)%nat ->
  exists B M M1 row, mkn64 be E f x0 xf nC m = Some B /\ Hn64 be E f B x d full = Some M /\
    Hn64 be E f B (Mat dim 1 (map (fun r => [nth j r (f64_int 0)]) (md x))) d full = Some M1 /\
    nth_error (md M) j = Some row /\ md M1 = [row].
Proof. exact pointwise64. Qed.
Print Assumptions C84_pointwise.

(** At the corner [x0] every product of Chebyshev or Legendre functions is exactly 1 or -1. *)
Theorem C84_corner_exact : forall be E f dim x0 xf nC m full, f = CP \/ f = LeP -> args_n f dim x0 xf nC m ->
  (Z.of_nat m <= 2 ^ 51)%Z ->
  (forall k, (k < dim)%nat -> usable_domain (nth k x0 (f64_int 0)) (nth k xf (f64_int 0))) ->
  exists B idx, mkn64 be E f x0 xf nC m = Some B /\
    NoDup idx /\ (forall v, In v idx <-> admissible dim m nC full v) /\ numbers B full = length idx /\
    exists M, Hn64 be E f B (Mat dim 1 (map (fun t => [t]) x0)) (repeat 0%nat dim) full = Some M /\
    shaped M 1 (length idx) /\
    forall i v, nth_error idx i = Some v -> entry64 M 0 i = Some ((-1) ^ list_sum v).
Proof. exact corner64. Qed.
Print Assumptions C84_corner_exact.

(** Legendre functions on [0, 3] x [0, 10] at (1, 1), first derivative in the first variable,
    without (0,0): the exact entries are 2/3, -2/3, 0, -8/15 and 0; even the signs of the zeros agree *)
Definition case_run (be : backend) :=
  match mkn64 be E0 LeP [f64_int 0; f64_int 0] [f64_int 3; f64_int 10] (Mat 2 1 [[0]; [0]]%Z) 3 with
  | Some B => bits (Hn64 be E0 LeP B (Mat 2 1 [[f64_int 1]; [f64_int 1]]) [1; 0]%nat false)
  | None => None
  end.
Example C84_case :
  args_n LeP 2 [f64_int 0; f64_int 0] [f64_int 3; f64_int 10] (Mat 2 1 [[0]; [0]]%Z) 3 /\
  orders64 2 [1; 0]%nat /\ case_run Py = case_run Cpp /\
  case_run Cpp = Some
    [[SpecFloat.S754_finite false 6004799503160661 (-53); SpecFloat.S754_finite true 6004799503160661 (-53);
      SpecFloat.S754_zero true; SpecFloat.S754_finite true 4803839602528529 (-53); SpecFloat.S754_zero false]].
Proof.
  split; [|split].
  - split; [right; left; reflexivity|]. repeat split; cbn; try lia. intros r [<-|[<-|[]]]; reflexivity.
  - intros [|[|k]] Hk; try reflexivity. lia.
  - vm_compute. split; reflexivity.
Qed.
