(** Properties C77 and C78: the one-dimensional families in binary64 arithmetic. *)
From Coq Require Import ZArith Reals Lia Lra List Arith Bool.
From Flocq Require Import Core BinarySingleNaN.
From Verif Require Import Base Numbers64 ModelBFPy ModelBFCpp SpecBasis SpecBits ProofBits ProofBits64.
Import ListNotations.
Open Scope R_scope.

(** ** C77: the two implementations return the same bits *)
Theorem C77_same_bits : forall E f x0 xf nC m xs d full,
  (1 <= m)%nat -> valid_nC nC m -> (Z.of_nat d < 2 ^ 51)%Z ->
  exists M, H64 Py E f x0 xf nC m xs d full = Some M /\ H64 Cpp E f x0 xf nC m xs d full = Some M.
Proof.
  intros E f x0 xf nC m xs d full Hm Hv Hd. eexists. split; apply H64_mat; assumption.
Qed.
Print Assumptions C77_same_bits.

(** the agreement does not depend on the arithmetic, only on two facts about integers *)
Theorem C77_any_arithmetic : forall (T : Type) (A : Ops T) (E : Fun T) f x0 xf nC m xs d full,
  (1 <= m)%nat -> valid_nC nC m ->
  (forall n, (n < d)%nat -> onat A (2 + 2 * n) = oadd A (onat A 2) (omul A (onat A 2) (onat A n))) ->
  omul A (onat A 2) (o1 A) = onat A 2 ->
  exists M, py_H A E f (fam_init A E f x0 xf nC m) xs d full = Some M /\
            cpp_H_mat A E f (fam_init A E f x0 xf nC m) xs d full = Some M.
Proof.
  intros T A E f x0 xf nC m xs d full Hm Hv H1 H2.
  assert (E1 : b_m (fam_init A E f x0 xf nC m) = m) by (destruct f; reflexivity).
  assert (E2 : b_nC (fam_init A E f x0 xf nC m) = nC) by (destruct f; reflexivity).
  apply gagree; rewrite ?E1, ?E2; [exact Hm|exact Hv|split; assumption].
Qed.
Print Assumptions C77_any_arithmetic.

(** removing columns leaves the bits of the others alone, in both implementations *)
Theorem C77_removed_bits : forall be E f x0 xf nC m xs d,
  (1 <= m)%nat -> valid_nC nC m -> (Z.of_nat d < 2 ^ 51)%Z ->
  exists M Mc, H64 be E f x0 xf nC m xs d true = Some M /\ H64 be E f x0 xf nC m xs d false = Some Mc /\
    columns_removed m nC M Mc.
Proof. exact removed64. Qed.
Print Assumptions C77_removed_bits.

Definition bits (M : option (mat f64)) : option (list (list SpecFloat.spec_float)) :=
  match M with Some M => Some (map (map B2SF) (md M)) | None => None end.
Definition E0 : Fun f64 := mkFun (fun x => x) (fun x => x) (fun x => x) (fun x => x) (f64_int 3) (fun _ => true).

(** Legendre functions at x = 1 on [0, 3]: second derivatives with function 1 removed.  The
    entries are rounded: the exact numbers are 0, 4/3, -20/9 and -20/27 *)
Example C77_case : valid_nC [1%Z] 5 /\
  bits (H64 Py E0 LeP (f64_int 0) (f64_int 3) [1%Z] 5 [f64_int 1] 2 false)
    = Some [[SpecFloat.S754_zero false;
             SpecFloat.S754_finite false 6004799503160661 (-52);
             SpecFloat.S754_finite true 5003999585967218 (-51);
             SpecFloat.S754_finite true 6671999447956288 (-53)]] /\
  bits (H64 Cpp E0 LeP (f64_int 0) (f64_int 3) [1%Z] 5 [f64_int 1] 2 false)
    = bits (H64 Py E0 LeP (f64_int 0) (f64_int 3) [1%Z] 5 [f64_int 1] 2 false).
Proof.
  split; [|split; vm_compute; reflexivity].
  split; [repeat constructor; cbn; intuition discriminate|].
  intros i [<-|[]]; split; reflexivity || (intro; discriminate).
Qed.

(** ** C78: the ends of the domain and the points in between, after rounding *)
(** At [x0] every Chebyshev and Legendre function is exactly 1 or -1: no rounding error at all. *)
Theorem C78_left_end_exact : forall be E f x0 xf nC m,
  f = CP \/ f = LeP -> usable_domain x0 xf -> (1 <= m)%nat -> (Z.of_nat m <= 2 ^ 51)%Z -> valid_nC nC m ->
  exists M, H64 be E f x0 xf nC m [x0] 0 true = Some M /\
  forall k, (k < m)%nat -> entry64 M 0 k = Some ((-1) ^ k).
Proof.
  intros be E f x0 xf nC m Hf Hd Hm Hb Hv.
  destruct (full_entry be E f x0 xf nC m [x0] Hm Hv Hf) as (M & E1 & HM).
  exists M. split; [exact E1|]. intros k Hk.
  assert (Hz : isint (gt F64 f (zof x0 xf x0) 0 k) (sgn k)).
  { apply left_col; [exact Hf|apply zof_left, Hd|lia]. }
  destruct Hz as [Fz Vz]. rewrite (HM 0%nat k x0 eq_refl Hk Fz), Vz. f_equal.
  clear. induction k as [|k IH]; [reflexivity|]. rewrite sgn_S, opp_IZR, IH. cbn [pow]. ring.
Qed.
Print Assumptions C78_left_end_exact.

(** Points of the domain are never mapped outside [-1, 1] (the second function is the mapped point). *)
Theorem C78_in_range : forall be E f x0 xf nC m xs,
  f = CP \/ f = LeP -> usable_domain x0 xf -> val x0 < val xf -> (2 <= m)%nat -> valid_nC nC m ->
  (forall x, In x xs -> fin x /\ val x0 <= val x <= val xf) ->
  exists M, H64 be E f x0 xf nC m xs 0 true = Some M /\
  forall j, (j < length xs)%nat -> exists v, entry64 M j 1 = Some v /\ -1 <= v <= 1.
Proof.
  intros be E f x0 xf nC m xs Hf Hd Hlt Hm Hv Hxs.
  destruct (full_entry be E f x0 xf nC m xs ltac:(lia) Hv Hf) as (M & E1 & HM).
  exists M. split; [exact E1|]. intros j Hj.
  destruct (nth_error xs j) as [x|] eqn:Ex; [|apply nth_error_None in Ex; lia].
  destruct (zof_ok x0 xf Hd Hlt x (Hxs x (nth_error_In _ _ Ex))) as (Fz & _ & Hz).
  exists (val (zof x0 xf x)). split; [|exact Hz].
  rewrite (HM j 1%nat x Ex ltac:(lia)); rewrite (col1 f _ Hf); [reflexivity|exact Fz].
Qed.
Print Assumptions C78_in_range.

(** Rounding does not change the order of two points. *)
Theorem C78_order_kept : forall be E f x0 xf nC m xs j1 j2 x y,
  f = CP \/ f = LeP -> usable_domain x0 xf -> val x0 < val xf -> (2 <= m)%nat -> valid_nC nC m ->
  (forall x, In x xs -> fin x /\ val x0 <= val x <= val xf) ->
  nth_error xs j1 = Some x -> nth_error xs j2 = Some y -> val x <= val y ->
  exists M u v, H64 be E f x0 xf nC m xs 0 true = Some M /\
    entry64 M j1 1 = Some u /\ entry64 M j2 1 = Some v /\ u <= v.
Proof.
  intros be E f x0 xf nC m xs j1 j2 x y Hf Hd Hlt Hm Hv Hxs H1 H2 Hle.
  destruct (full_entry be E f x0 xf nC m xs ltac:(lia) Hv Hf) as (M & E1 & HM).
  pose proof (Hxs x (nth_error_In _ _ H1)) as Ix. pose proof (Hxs y (nth_error_In _ _ H2)) as Iy.
  destruct (zof_ok x0 xf Hd Hlt x Ix) as (Fx & _ & _). destruct (zof_ok x0 xf Hd Hlt y Iy) as (Fy & _ & _).
  exists M, (val (zof x0 xf x)), (val (zof x0 xf y)). split; [exact E1|]. split; [|split].
  - rewrite (HM j1 1%nat x H1 ltac:(lia)); rewrite (col1 f _ Hf); [reflexivity|exact Fx].
  - rewrite (HM j2 1%nat y H2 ltac:(lia)); rewrite (col1 f _ Hf); [reflexivity|exact Fy].
  - apply zof_mono; assumption.
Qed.
Print Assumptions C78_order_kept.

(** The right end is mapped to 1 or to the second float below 1, nothing else. *)
Theorem C78_right_end : forall be E f x0 xf nC m,
  f = CP \/ f = LeP -> usable_domain x0 xf -> val x0 < val xf -> (2 <= m)%nat -> valid_nC nC m ->
  exists M, H64 be E f x0 xf nC m [xf] 0 true = Some M /\
    (entry64 M 0 1 = Some 1 \/ entry64 M 0 1 = Some (1 - bpow radix2 (-52))).
Proof.
  intros be E f x0 xf nC m Hf Hd Hlt Hm Hv.
  destruct (full_entry be E f x0 xf nC m [xf] ltac:(lia) Hv Hf) as (M & E1 & HM).
  exists M. split; [exact E1|]. destruct (zof_right x0 xf Hd Hlt) as (Fz & Hz).
  rewrite (HM 0%nat 1%nat xf eq_refl ltac:(lia)); rewrite (col1 f _ Hf); [|exact Fz].
  destruct Hz as [-> | ->]; [left|right]; reflexivity.
Qed.
Print Assumptions C78_right_end.

(** On [0, 49] it is the latter: the Chebyshev functions at [xf] are not 1. *)
Theorem C78_right_end_exact_refuted : exists x0 xf, usable_domain x0 xf /\ val x0 < val xf /\
  forall be E f, f = CP \/ f = LeP -> exists M, H64 be E f x0 xf [] 3 [xf] 0 true = Some M /\
    entry64 M 0 1 = Some (1 - bpow radix2 (-52)).
Proof.
  destruct (f64_int_ok 0 eq_refl) as [F0 V0]. destruct (f64_int_ok 49 eq_refl) as [F1 V1].
  assert (Hd : usable_domain (f64_int 0) (f64_int 49)).
  { split; [exact F0|]. split; [exact F1|]. rewrite V0, V1. replace (49 - 0) with 49 by ring.
    rewrite Rabs_pos_eq by lra. split.
    - apply Rle_trans with (bpow radix2 0); [apply bpow_le; lia|]. change (bpow radix2 0) with 1. lra.
    - apply Rle_trans with (bpow radix2 6); [|apply bpow_le; lia]. change (bpow radix2 6) with 64. lra. }
  assert (Hlt : val (f64_int 0) < val (f64_int 49)) by (rewrite V0, V1; lra).
  exists (f64_int 0), (f64_int 49). split; [exact Hd|]. split; [exact Hlt|].
  intros be E f Hf.
  destruct (full_entry be E f (f64_int 0) (f64_int 49) [] 3 [f64_int 49] ltac:(lia) (valid_nil 3) Hf) as (M & E1 & HM).
  exists M. split; [exact E1|]. destruct (zof_right _ _ Hd Hlt) as (Fz & _).
  rewrite (HM 0%nat 1%nat _ eq_refl ltac:(lia)); rewrite (col1 f _ Hf); [|exact Fz]. f_equal.
  set (z := zof _ _ _).
  assert (Ez : B2SF z = SpecFloat.S754_finite false 9007199254740990 (-53)) by (vm_compute; reflexivity).
  unfold val. rewrite <- SF2R_B2SF, Ez. unfold SF2R, F2R. cbn [Fnum Fexp SpecFloat.cond_Zopp cond_Zopp].
  replace (IZR 9007199254740990) with (bpow radix2 53 - 2) by (change (bpow radix2 53) with (IZR (2 ^ 53)); rewrite <- minus_IZR; reflexivity).
  rewrite Rmult_minus_distr_r, <- bpow_plus. change (53 + -53)%Z with 0%Z. change (bpow radix2 0) with 1.
  change (bpow radix2 (-52)) with (bpow radix2 (1 + -53)). rewrite bpow_plus, bpow1. reflexivity.
Qed.
Print Assumptions C78_right_end_exact_refuted.

(** the hypotheses hold of an ordinary domain, and the values there *)
Example C78_case : usable_domain (f64_int 0) (f64_int 3) /\
  bits (H64 Cpp E0 CP (f64_int 0) (f64_int 3) [] 4 [f64_int 0; f64_int 1; f64_int 3] 0 true) =
  Some [[SpecFloat.S754_finite false 4503599627370496 (-52); SpecFloat.S754_finite true 4503599627370496 (-52);
         SpecFloat.S754_finite false 4503599627370496 (-52); SpecFloat.S754_finite true 4503599627370496 (-52)];
        [SpecFloat.S754_finite false 4503599627370496 (-52); SpecFloat.S754_finite true 6004799503160662 (-54);
         SpecFloat.S754_finite true 7005599420354104 (-53); SpecFloat.S754_finite false 7672799365149734 (-53)];
        [SpecFloat.S754_finite false 4503599627370496 (-52); SpecFloat.S754_finite false 4503599627370496 (-52);
         SpecFloat.S754_finite false 4503599627370496 (-52); SpecFloat.S754_finite false 4503599627370496 (-52)]].
Proof.
  split; [|vm_compute; reflexivity].
  destruct (f64_int_ok 0 eq_refl) as [F0 V0]. destruct (f64_int_ok 3 eq_refl) as [F1 V1].
  split; [exact F0|]. split; [exact F1|]. rewrite V0, V1. replace (3 - 0) with 3 by ring.
  rewrite Rabs_pos_eq by lra. split.
  - apply Rle_trans with (bpow radix2 0); [apply bpow_le; lia|]. change (bpow radix2 0) with 1. lra.
  - apply Rle_trans with (bpow radix2 2); [|apply bpow_le; lia]. change (bpow radix2 2) with 4. lra.
Qed.
