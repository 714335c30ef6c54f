(** Property C111: rounding errors of the derivatives of the Chebyshev and Legendre functions in binary64. *)
From Coq Require Import ZArith Reals Lia Lra List Arith Bool.
From Coquelicot Require Import Coquelicot.
From Flocq Require Import Core BinarySingleNaN.
From Verif Require Import Base Numbers Numbers64 ModelBFPy ModelBFCpp SpecBasis SpecBits SpecErr SpecErrD ProofBits ProofBits64 ProofErr ProofErrD
  PropBasis PropBits ModelND SpecND SpecNBits ProofNErr ProofNErrD.
Import ListNotations.
Open Scope R_scope.

(** ** C111: the entries are finite and their errors grow at most by a factor k^2 (21 + 9 d) over the size of the entries *)
Theorem C111_forward_error : forall be E f x0 xf nC m xs d,
  f = CP \/ f = LeP -> usable_domain x0 xf -> val x0 < val xf -> (1 <= m)%nat -> (1 <= d)%nat ->
  moderate (val x0) (val xf) m d -> valid_nC nC m ->
  (forall x, In x xs -> fin x /\ val x0 <= val x <= val xf) ->
  exists M Mr, H64 be E f x0 xf nC m xs d true = Some M /\
    H1 be f (val x0) (val xf) nC m (map val xs) d true = Some Mr /\
    forall j k, (j < length xs)%nat -> (k < m)%nat ->
      exists v w, entry64 M j k = Some v /\ ment Mr j k = Some w /\
        Rabs w <= INR k ^ (2 * d) * slope (val x0) (val xf) ^ d /\
        Rabs (v - w) <= (21 + 9 * INR d) * INR k ^ (2 * d + 2) * slope (val x0) (val xf) ^ d * ulp_half.
Proof.
  intros be E f x0 xf nC m xs d Hf Hd Hlt Hm Hd1 (Hr1 & Hr2 & Hlo & Hhi) Hv Hxs.
  assert (Hroom : room m d) by (split; assumption).
  destruct (room_small m d Hm Hroom) as [_ Hd46].
  destruct (full_entryd be E f x0 xf nC m xs d Hm Hv Hf ltac:(lia)) as (M & E1 & HM).
  destruct (exact_entryd be f (val x0) (val xf) nC m (map val xs) d Hm Hv Hf ltac:(lra)) as (Mr & E2 & HMr).
  exists M, Mr. split; [exact E1|]. split; [exact E2|]. intros j k Hj Hk.
  destruct (nth_error xs j) as [x|] eqn:Ex; [|apply nth_error_None in Ex; lia].
  pose proof (Hxs x (nth_error_In _ _ Ex)) as Hx.
  destruct (entry_err x0 xf m d k x f Hf Hd Hlt Hx Hd1 Hroom Hk Hlo Hhi) as [Fv Ev].
  eexists; eexists. split; [apply entry64_ment; [apply (HM j k x Ex Hk)|exact Fv]|]. split; [|split].
  - apply HMr; [|exact Hk]. rewrite nth_error_map, Ex. reflexivity.
  - pose proof (sc_pos x0 xf Hlt) as Hp. rewrite Rabs_mult.
    change (2 / (val xf - val x0)) with (sc x0 xf). change (slope (val x0) (val xf)) with (sc x0 xf).
    rewrite (Rabs_pos_eq (sc x0 xf ^ d)) by (apply pow_le; lra).
    apply Rmult_le_compat_r; [apply pow_le; lra|].
    apply dbound; [exact Hf|]. apply zex_rng; [exact Hlt|apply Hx].
  - exact Ev.
Qed.
Print Assumptions C111_forward_error.

(** against the derivative of the function in the column of the exact matrix *)
Theorem C111_derivative : forall be E f x0 xf nC m xs d,
  f = CP \/ f = LeP -> usable_domain x0 xf -> val x0 < val xf -> (1 <= m)%nat -> (1 <= d)%nat ->
  moderate (val x0) (val xf) m d -> valid_nC nC m ->
  (forall x, In x xs -> fin x /\ val x0 <= val x <= val xf) ->
  exists M, H64 be E f x0 xf nC m xs d true = Some M /\ mr M = length xs /\ mc M = m /\
    forall k, (k < m)%nat -> exists y : R -> R,
      (forall t, entry_is be f (val x0) (val xf) nC m [t] 0 0 k (y t)) /\
      forall j x, nth_error xs j = Some x -> exists v, entry64 M j k = Some v /\
        Rabs (v - Derive_n y d (val x)) <= (21 + 9 * INR d) * INR k ^ (2 * d + 2) * slope (val x0) (val xf) ^ d * ulp_half.
Proof.
  intros be E f x0 xf nC m xs d Hf Hd Hlt Hm Hd1 Hmod Hv Hxs.
  destruct (C111_forward_error be E f x0 xf nC m xs d Hf Hd Hlt Hm Hd1 Hmod Hv Hxs) as (M & Mr & E1 & E2 & H).
  exists M. split; [exact E1|].
  destruct (room_small m d Hm (conj (proj1 Hmod) (proj1 (proj2 Hmod)))) as [_ Hd46].
  assert (Hsh : mr M = length xs /\ mc M = m).
  { rewrite H64_mat in E1 by (try assumption; lia). injection E1 as <-. cbn [gmat mr mc]. split; [reflexivity|apply seq_length]. }
  split; [apply Hsh|]. split; [apply Hsh|].
  intros k Hk.
  destruct (C07_polynomial_derivatives be f (val x0) (val xf) nC m) with (map val xs) d as (Mr' & E3 & _ & HD).
  { destruct Hf as [-> | ->]; discriminate. } { lra. } { exact Hm. }
  rewrite E2 in E3. injection E3 as <-. destruct (HD k Hk) as (y & Hy0 & Hy). exists y.
  split; [exact Hy0|].
  intros j x Hj. destruct (H j k) as (v & w & Ev & Ew & _ & Hvw); [apply nth_error_Some; rewrite Hj; discriminate|exact Hk|].
  exists v. split; [exact Ev|].
  destruct (Hy j (val x)) as (w' & Ew' & Hw'); [rewrite nth_error_map, Hj; reflexivity|].
  rewrite Ew in Ew'. injection Ew' as <-. rewrite (is_derive_n_unique _ _ _ _ Hw'). exact Hvw.
Qed.
Print Assumptions C111_derivative.

(** The fourth power of the degree is real: the first derivative of the Chebyshev function of degree 300 at the right end
    of [0, 49] is off by more than half of 300^4 * slope * 2^-53. *)
Theorem C111_growth_reached : exists x0 xf, usable_domain x0 xf /\ val x0 < val xf /\ moderate (val x0) (val xf) 301 1 /\
  forall be E, exists M v w, H64 be E CP x0 xf [] 301 [xf] 1 true = Some M /\ entry64 M 0 300 = Some v /\
    entry_is be CP (val x0) (val xf) [] 301 [val xf] 1 0 300 w /\
    / 2 * INR 300 ^ 4 * slope (val x0) (val xf) * ulp_half < Rabs (v - w).
Proof.
  destruct (f64_int_ok 0 eq_refl) as [F0 V0]. destruct (f64_int_ok 49 eq_refl) as [F1 V1].
  exists (f64_int 0), (f64_int 49).
  assert (Hmod : moderate (val (f64_int 0)) (val (f64_int 49)) 301 1).
  { rewrite V0, V1. unfold moderate, slope. replace (INR 301) with 301 by (rewrite INR_IZR_INZ; reflexivity).
    change (INR 1) with 1. cbn [Nat.mul Nat.add pow].
    assert (B48 : bpow radix2 48 = 281474976710656) by reflexivity.
    assert (B9 : 281474976710656 <= bpow radix2 900) by (rewrite <- B48; apply bpow_le; lia).
    assert (Bm : bpow radix2 (-900) <= / 281474976710656).
    { replace (/ 281474976710656) with (bpow radix2 (-48)) by reflexivity. apply bpow_le. lia. }
    rewrite B48. repeat split; lra. }
  split; [|split; [|split; [exact Hmod|]]].
  { split; [exact F0|]. split; [exact F1|]. rewrite V0, V1. replace (49 - 0) with 49 by ring.
    rewrite Rabs_pos_eq by lra. split.
    - apply Rle_trans with (bpow radix2 0); [apply bpow_le; lia|]. change (bpow radix2 0) with 1. lra.
    - apply Rle_trans with (bpow radix2 6); [|apply bpow_le; lia]. change (bpow radix2 6) with 64. lra. }
  { rewrite V0, V1; lra. }
  intros be E.
  destruct (C77_same_bits E CP (f64_int 0) (f64_int 49) [] 301 [f64_int 49] 1 true ltac:(lia) (valid_nil _) eq_refl) as (M & EP & EC).
  assert (Eb : match H64 Py E CP (f64_int 0) (f64_int 49) [] 301 [f64_int 49] 1 true with
               | Some M => option_map B2SF (ment M 0 300) | None => None end
             = Some (SpecFloat.S754_finite false 8078044612179752 (-41))) by (vm_compute; reflexivity).
  rewrite EP in Eb. destruct (ment M 0 300) as [v|] eqn:Ev; [|discriminate].
  injection Eb as Eb.
  assert (Fv : fin v) by (unfold fin; rewrite <- is_finite_SF_B2SF, Eb; reflexivity).
  destruct (exact_entryd be CP (val (f64_int 0)) (val (f64_int 49)) [] 301 [val (f64_int 49)] 1 ltac:(lia) (valid_nil _)
    (or_introl eq_refl) ltac:(rewrite V0, V1; lra)) as (Mr & Er & HMr).
  exists M, (val v), (90000 * (2 / 49)). split; [destruct be; assumption|]. split; [apply entry64_ment; assumption|]. split.
  - exists Mr. split; [exact Er|]. rewrite (HMr 0%nat 300%nat _ eq_refl ltac:(lia)). f_equal.
    rewrite V0, V1. replace (zex 0 49 49) with 1 by (unfold zex, SpecBasis.zmap; field).
    assert (H : forall k, gt ROps CP 1 1 k = INR k ^ 2 /\ gt ROps CP 1 1 (S k) = INR (S k) ^ 2).
    { induction k as [|k [IH1 IH2]].
      - rewrite gt_00, gt_01. cbn. lra.
      - split; [exact IH2|]. rewrite gtd_SS, (s1_split CP) by (left; reflexivity). rewrite s0_cp, IH1, IH2, (proj1 (pR_ends CP (S k) (or_introl eq_refl))).
        cbn [rk]. rewrite !S_INR. change (INR 0) with 0. ring. }
    rewrite (proj1 (H 300%nat)). replace (INR 300) with 300 by (rewrite INR_IZR_INZ; reflexivity). cbn [pow]. field.
  - assert (Hv : val v = 8078044612179752 * 4096 * ulp_half).
    { unfold val. rewrite <- SF2R_B2SF, Eb. unfold SF2R, F2R, ulp_half. cbn [Fnum Fexp SpecFloat.cond_Zopp cond_Zopp].
      change (-41)%Z with (12 + -53)%Z. rewrite bpow_plus. change (bpow radix2 12) with 4096. ring. }
    assert (Hu : ulp_half = / 9007199254740992) by reflexivity.
    rewrite Hv, Hu, V0, V1. unfold slope. replace (INR 300) with 300 by (rewrite INR_IZR_INZ; reflexivity).
    rewrite Rabs_left by lra. cbn [pow]. lra.
Qed.
Print Assumptions C111_growth_reached.

(** The same in several dimensions, for any orders [d] of differentiation in the single variables (zeros included). *)
Theorem C111_n_forward_error : forall be E f dim x0 xf nC m d full n x,
  f = CP \/ f = LeP -> args_n f dim x0 xf nC m -> length d = dim -> moderate_n dim x0 xf m d ->
  (forall k, (k < dim)%nat -> usable_domain (nth k x0 (f64_int 0)) (nth k xf (f64_int 0)) /\
     val (nth k x0 (f64_int 0)) < val (nth k xf (f64_int 0))) ->
  shaped x dim n ->
  (forall k j t, ment x k j = Some t -> fin t /\ val (nth k x0 (f64_int 0)) <= val t <= val (nth k xf (f64_int 0))) ->
  exists B Br M Mr idx, mkn64 be E f x0 xf nC m = Some B /\ mkn be f (map val x0) (map val xf) nC m = Some Br /\
    Hn64 be E f B x d full = Some M /\
    Hn be f Br (vmat x) d full = Some Mr /\
    NoDup idx /\ (forall v, In v idx <-> admissible dim m nC full v) /\
    shaped M n (length idx) /\ shaped Mr n (length idx) /\
    forall i v j, nth_error idx i = Some v -> (j < n)%nat -> exists a w,
      entry64 M j i = Some a /\ ment Mr j i = Some w /\
      Rabs w <= size_n dim x0 xf d v /\
      Rabs (a - w) <= 2 * (22 * INR dim + 9 * INR (list_sum d)) * INR (Nat.max 1 (list_sum v)) ^ 2 * size_n dim x0 xf d v * ulp_half.
Proof. exact nerrd. Qed.
Print Assumptions C111_n_forward_error.

(** second derivatives of Legendre functions on [0, 3] at x = 1: the exact values are 0, 0, 4/3 and -20/9 *)
Example C111_case : moderate (val (f64_int 0)) (val (f64_int 3)) 4 2 /\
  bits (H64 Cpp E0 LeP (f64_int 0) (f64_int 3) [] 4 [f64_int 1] 2 true) =
    Some [[SpecFloat.S754_zero false; SpecFloat.S754_zero false;
           SpecFloat.S754_finite false 6004799503160661 (-52); SpecFloat.S754_finite true 5003999585967218 (-51)]].
Proof.
  split; [|vm_compute; reflexivity].
  destruct (f64_int_ok 0 eq_refl) as [F0 V0]. destruct (f64_int_ok 3 eq_refl) as [F3 V3].
  rewrite V0, V3. unfold moderate, slope. replace (INR 4) with 4 by (rewrite INR_IZR_INZ; reflexivity).
  change (INR 2) with 2. cbn [Nat.mul Nat.add pow].
  assert (B48 : bpow radix2 48 = 281474976710656) by reflexivity.
  assert (B9 : 281474976710656 <= bpow radix2 900) by (rewrite <- B48; apply bpow_le; lia).
  assert (Bm : bpow radix2 (-900) <= / 281474976710656).
  { replace (/ 281474976710656) with (bpow radix2 (-48)) by reflexivity. apply bpow_le. lia. }
  rewrite B48. repeat split; lra.
Qed.

(** d^3 / dx dy^2 of Chebyshev functions on [0, 3] x [0, 10] at (1, 1), of total degree at most 3: only the function
    number (1, 2) has a nonzero entry, 2/3 * 4 * (1/5)^2 = 8/75 *)
Definition case_run111 (be : backend) :=
  match mkn64 be E0 CP [f64_int 0; f64_int 0] [f64_int 3; f64_int 10] (Mat 2 1 [[0]; [0]]%Z) 4 with
  | Some B => bits (Hn64 be E0 CP B (Mat 2 1 [[f64_int 1]; [f64_int 1]]) [1; 2]%nat false)
  | None => None
  end.
Example C111_n_case : moderate_n 2 [f64_int 0; f64_int 0] [f64_int 3; f64_int 10] 4 [1; 2]%nat /\
  case_run111 Py = case_run111 Cpp /\
  match case_run111 Py with
  | Some [l] => length l = 9%nat /\ nth 7 l SpecFloat.S754_nan = SpecFloat.S754_finite false 7686143364045648 (-56)
  | _ => False
  end.
Proof.
  split; [|vm_compute; repeat split; reflexivity].
  destruct (f64_int_ok 0 eq_refl) as [F0 V0]. destruct (f64_int_ok 3 eq_refl) as [F3 V3]. destruct (f64_int_ok 10 eq_refl) as [F10 V10].
  assert (B48 : bpow radix2 48 = 281474976710656) by reflexivity.
  assert (B52 : bpow radix2 52 = 4503599627370496) by reflexivity.
  assert (B9 : 281474976710656 <= bpow radix2 900) by (rewrite <- B48; apply bpow_le; lia).
  assert (Bm : bpow radix2 (-900) <= / 281474976710656).
  { replace (/ 281474976710656) with (bpow radix2 (-48)) by reflexivity. apply bpow_le. lia. }
  assert (E4 : INR 4 = 4) by (rewrite INR_IZR_INZ; reflexivity).
  assert (E3 : INR 3 = 3) by (rewrite INR_IZR_INZ; reflexivity).
  unfold moderate_n, moderate, slope_n, slope. cbn [list_sum fold_right Nat.add prodn nth]. rewrite V0, V3, V10, E4, E3, B52.
  change (INR 2) with 2.
  split; [lra|]. split.
  { intros [|[|k]] Hk; [| |lia]; cbn [nth]; rewrite ?V0, ?V3, ?V10, B48; change (INR 1) with 1; change (INR 2) with 2;
      cbn [Nat.mul Nat.add pow]; repeat split; lra. }
  cbn [Nat.mul Nat.add pow]. split.
  - rewrite !Rmax_right by lra. lra.
  - rewrite !Rmin_right by lra. lra.
Qed.
