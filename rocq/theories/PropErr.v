(** Property C85: rounding errors of the Chebyshev and Legendre matrices in binary64. *)
From Coq Require Import ZArith Reals Lia Lra List Arith Bool.
From Flocq Require Import Core BinarySingleNaN.
From Verif Require Import Base Numbers Numbers64 ModelBFPy ModelBFCpp SpecBasis SpecBits SpecErr ProofBits ProofBits64 ProofErr
  ModelND SpecND SpecNBits ProofNErr PropBasis PropBits.
Import ListNotations.
Open Scope R_scope.

Lemma sq_bound k : (10 * INR k + 35 * (INR k * (INR k - 1) / 2)) * ulp_half <= 18 * INR k ^ 2 * ulp_half.
Proof.
  unfold ulp_half. pose proof (bpow_ge_0 radix2 (-53)) as Hu.
  apply Rmult_le_compat_r; [exact Hu|]. destruct k as [|k]; [cbn; lra|].
  assert (1 <= INR (S k)) by (rewrite S_INR; pose proof (pos_INR k); lra). nra.
Qed.

(** ** C85: the entries are finite and their errors grow at most quadratically with the degree *)
Theorem C85_forward_error : forall be E f x0 xf nC m xs,
  f = CP \/ f = LeP -> usable_domain x0 xf -> val x0 < val xf -> (1 <= m)%nat -> (Z.of_nat m <= 2 ^ 22)%Z -> valid_nC nC m ->
  (forall x, In x xs -> fin x /\ val x0 <= val x <= val xf) ->
  exists M Mr, H64 be E f x0 xf nC m xs 0 true = Some M /\
    H1 be f (val x0) (val xf) nC m (map val xs) 0 true = Some Mr /\
    forall j k, (j < length xs)%nat -> (k < m)%nat ->
      exists v w, entry64 M j k = Some v /\ ment Mr j k = Some w /\
        Rabs (v - w) <= (10 * INR k + 35 * (INR k * (INR k - 1) / 2)) * ulp_half.
Proof.
  intros be E f x0 xf nC m xs Hf Hd Hlt Hm Hb Hv Hxs.
  destruct (full_entry be E f x0 xf nC m xs Hm Hv Hf) as (M & E1 & HM).
  destruct (exact_entry be f (val x0) (val xf) nC m (map val xs) Hm Hv Hf ltac:(lra)) as (Mr & E2 & HMr).
  exists M, Mr. split; [exact E1|]. split; [exact E2|]. intros j k Hj Hk.
  destruct (nth_error xs j) as [x|] eqn:Ex; [|apply nth_error_None in Ex; lia].
  pose proof (Hxs x (nth_error_In _ _ Ex)) as Hx.
  destruct (zof_ok x0 xf Hd Hlt x Hx) as (Fz & _ & Hz).
  destruct (col_err f (zof x0 xf x) (zex (val x0) (val xf) (val x)) (10 * u) k Hf Fz Hz) as [Fk Ek].
  - apply zex_rng; [exact Hlt|apply Hx].
  - apply zof_err; assumption.
  - lra.
  - lia.
  - exists (val (gt F64 f (zof x0 xf x) 0 k)), (gt ROps f (zex (val x0) (val xf) (val x)) 0 k).
    split; [apply (HM j k x Ex Hk Fk)|]. split.
    + apply HMr; [|exact Hk]. rewrite nth_error_map, Ex. reflexivity.
    + unfold ulp_half. fold u. apply Rle_trans with (1 := Ek). apply Req_le. ring.
Qed.
Print Assumptions C85_forward_error.

(** the Chebyshev functions against the cosine *)
Theorem C85_chebyshev_cos : forall be E x0 xf nC m xs j x theta,
  usable_domain x0 xf -> val x0 < val xf -> (1 <= m)%nat -> (Z.of_nat m <= 2 ^ 22)%Z -> valid_nC nC m ->
  (forall x, In x xs -> fin x /\ val x0 <= val x <= val xf) ->
  nth_error xs j = Some x -> SpecBasis.zmap CP (val x0) (val xf) (val x) = cos theta ->
  exists M, H64 be E CP x0 xf nC m xs 0 true = Some M /\
    forall k, (k < m)%nat -> exists v, entry64 M j k = Some v /\
      Rabs (v - cos (INR k * theta)) <= 18 * (INR k) ^ 2 * ulp_half.
Proof.
  intros be E x0 xf nC m xs j x theta Hd Hlt Hm Hb Hv Hxs Hj Ht.
  destruct (C85_forward_error be E CP x0 xf nC m xs (or_introl eq_refl) Hd Hlt Hm Hb Hv Hxs) as (M & Mr & E1 & E2 & H).
  exists M. split; [exact E1|]. intros k Hk.
  destruct (H j k) as (v & w & Ev & Ew & Hvw); [apply nth_error_Some; rewrite Hj; discriminate|exact Hk|].
  exists v. split; [exact Ev|].
  destruct (C01_chebyshev_columns be (val x0) (val xf) nC m (map val xs) j k (val x) theta) as (Mr' & E3 & Ew'); try assumption.
  { lra. } { rewrite nth_error_map, Hj. reflexivity. }
  rewrite E2 in E3. injection E3 as <-. rewrite Ew in Ew'. injection Ew' as <-.
  apply Rle_trans with (1 := Hvw). apply sq_bound.
Qed.
Print Assumptions C85_chebyshev_cos.

(** the values stay below 1 + 18 k^2 2^-53 in absolute value: no overflow, whatever the degree *)
Theorem C85_bounded : forall be E f x0 xf nC m xs,
  f = CP \/ f = LeP -> usable_domain x0 xf -> val x0 < val xf -> (1 <= m)%nat -> (Z.of_nat m <= 2 ^ 22)%Z -> valid_nC nC m ->
  (forall x, In x xs -> fin x /\ val x0 <= val x <= val xf) ->
  exists M, H64 be E f x0 xf nC m xs 0 true = Some M /\
    forall j k, (j < length xs)%nat -> (k < m)%nat ->
      exists v, entry64 M j k = Some v /\ Rabs v <= 1 + 18 * INR k ^ 2 * ulp_half.
Proof.
  intros be E f x0 xf nC m xs Hf Hd Hlt Hm Hb Hv Hxs.
  destruct (C85_forward_error be E f x0 xf nC m xs Hf Hd Hlt Hm Hb Hv Hxs) as (M & Mr & E1 & E2 & H).
  exists M. split; [exact E1|]. intros j k Hj Hk.
  destruct (H j k Hj Hk) as (v & w & Ev & Ew & Hvw).
  exists v. split; [exact Ev|].
  destruct (nth_error xs j) as [x|] eqn:Ex; [|apply nth_error_None in Ex; lia].
  pose proof (Hxs x (nth_error_In _ _ Ex)) as Hx.
  destruct (exact_entry be f (val x0) (val xf) nC m (map val xs) Hm Hv Hf ltac:(lra)) as (Mr' & E3 & HMr).
  rewrite E2 in E3. injection E3 as <-.
  rewrite (HMr j k (val x)) in Ew; [|rewrite nth_error_map, Ex; reflexivity|exact Hk].
  set (w' := gt ROps f _ 0 k) in Ew. assert (Hw : Rabs w' <= 1) by apply (pR_bound f _ k Hf (zex_rng (val x0) (val xf) (val x) Hlt (proj2 Hx))).
  assert (Ww : w = w') by congruence. rewrite <- Ww in Hw. clear w' Ww Ew.
  pose proof (sq_bound k) as Hq. pose proof (Rabs_triang_inv v w) as Ht. lra.
Qed.
Print Assumptions C85_bounded.

(** The quadratic growth is real: the Chebyshev function of degree 300 at the right end of [0, 49] is off by
    exactly 2 * 300^2 * 2^-53. *)
Theorem C85_quadratic_growth_reached : exists x0 xf, usable_domain x0 xf /\ val x0 < val xf /\
  forall be E, exists M v, H64 be E CP x0 xf [] 301 [xf] 0 true = Some M /\ entry64 M 0 300 = Some v /\
    entry_is be CP (val x0) (val xf) [] 301 [val xf] 0 0 300 1 /\
    Rabs (v - 1) = 2 * INR 300 ^ 2 * ulp_half.
Proof.
  destruct (f64_int_ok 0 eq_refl) as [F0 V0]. destruct (f64_int_ok 49 eq_refl) as [F1 V1].
  exists (f64_int 0), (f64_int 49). split; [|split].
  { split; [exact F0|]. split; [exact F1|]. rewrite V0, V1. replace (49 - 0) with 49 by ring.
    rewrite Rabs_pos_eq by lra. split.
    - apply Rle_trans with (bpow radix2 0); [apply bpow_le; lia|]. change (bpow radix2 0) with 1. lra.
    - apply Rle_trans with (bpow radix2 6); [|apply bpow_le; lia]. change (bpow radix2 6) with 64. lra. }
  { rewrite V0, V1; lra. }
  intros be E.
  destruct (C77_same_bits E CP (f64_int 0) (f64_int 49) [] 301 [f64_int 49] 0 true ltac:(lia) (valid_nil _) eq_refl) as (M & EP & EC).
  assert (Eb : match H64 Py E CP (f64_int 0) (f64_int 49) [] 301 [f64_int 49] 0 true with
               | Some M => option_map B2SF (ment M 0 300) | None => None end
             = Some (SpecFloat.S754_finite false 9007199254560992 (-53))) by (vm_compute; reflexivity).
  rewrite EP in Eb. destruct (ment M 0 300) as [v|] eqn:Ev; [|discriminate].
  injection Eb as Eb.
  assert (Fv : fin v) by (unfold fin; rewrite <- is_finite_SF_B2SF, Eb; reflexivity).
  exists M, (val v). split; [destruct be; assumption|]. split; [apply entry64_ment; assumption|]. split.
  - replace 1 with (cos (INR 300 * 0)) at 1 by (rewrite Rmult_0_r; apply cos_0).
    apply C01_chebyshev_columns with (val (f64_int 49)); [rewrite V0, V1; lra|lia|reflexivity|].
    rewrite V0, V1, cos_0. unfold SpecBasis.zmap. field.
  - assert (Hv : val v = 1 - 180000 * ulp_half).
    { unfold val. rewrite <- SF2R_B2SF, Eb. unfold SF2R, F2R, ulp_half. cbn [Fnum Fexp SpecFloat.cond_Zopp cond_Zopp].
      replace (IZR 9007199254560992) with (bpow radix2 53 - 180000)
        by (change (bpow radix2 53) with (IZR (2 ^ 53)); rewrite <- minus_IZR; reflexivity).
      rewrite Rmult_minus_distr_r, <- bpow_plus. reflexivity. }
    rewrite Hv. replace (1 - 180000 * ulp_half - 1) with (- (180000 * ulp_half)) by ring.
    unfold ulp_half. pose proof (bpow_ge_0 radix2 (-53)). rewrite Rabs_Ropp, Rabs_pos_eq by lra.
    replace (INR 300) with 300 by (rewrite INR_IZR_INZ; reflexivity). ring.
Qed.
Print Assumptions C85_quadratic_growth_reached.

(** in several dimensions: [s] is the total degree of the column, at most m - 1 *)
Theorem C85_n_forward_error : forall be E f dim x0 xf nC m full n x,
  f = CP \/ f = LeP -> args_n f dim x0 xf nC m -> (Z.of_nat m <= 2 ^ 22)%Z -> (Z.of_nat dim <= 2 ^ 50)%Z ->
  (forall k, (k < dim)%nat -> usable_domain (nth k x0 (f64_int 0)) (nth k xf (f64_int 0)) /\
     val (nth k x0 (f64_int 0)) < val (nth k xf (f64_int 0))) ->
  shaped x dim n ->
  (forall k j t, ment x k j = Some t -> fin t /\ val (nth k x0 (f64_int 0)) <= val t <= val (nth k xf (f64_int 0))) ->
  exists B Br M Mr idx, mkn64 be E f x0 xf nC m = Some B /\ mkn be f (map val x0) (map val xf) nC m = Some Br /\
    Hn64 be E f B x (repeat 0%nat dim) full = Some M /\
    Hn be f Br (vmat x) (repeat 0%nat dim) full = Some Mr /\
    NoDup idx /\ (forall v, In v idx <-> admissible dim m nC full v) /\
    shaped M n (length idx) /\ shaped Mr n (length idx) /\
    forall i v j, nth_error idx i = Some v -> (j < n)%nat -> exists a w,
      entry64 M j i = Some a /\ ment Mr j i = Some w /\
      Rabs (a - w) <= 2 * (INR dim + 18 * INR (list_sum v) ^ 2) * ulp_half.
Proof. exact nerr. Qed.
Print Assumptions C85_n_forward_error.

(** Legendre functions on [0, 3] at x = 1: the exact value for k = 3 is 11/27 and the computed one is
    7339199392751920 * 2^-54, off by less than 2^-54 *)
Example C85_case : usable_domain (f64_int 0) (f64_int 3) /\ val (f64_int 0) < val (f64_int 1) < val (f64_int 3) /\
  bits (H64 Py E0 LeP (f64_int 0) (f64_int 3) [] 4 [f64_int 1] 0 true) =
    Some [[SpecFloat.S754_finite false 4503599627370496 (-52); SpecFloat.S754_finite true 6004799503160662 (-54);
           SpecFloat.S754_finite true 6004799503160661 (-54); SpecFloat.S754_finite false 7339199392751920 (-54)]] /\
  entry_is Py LeP (val (f64_int 0)) (val (f64_int 3)) [] 4 [val (f64_int 1)] 0 0 3 (11 / 27).
Proof.
  destruct (f64_int_ok 0 eq_refl) as [F0 V0]. destruct (f64_int_ok 1 eq_refl) as [F1 V1].
  destruct (f64_int_ok 3 eq_refl) as [F3 V3].
  split; [apply C78_case|]. split; [rewrite V0, V1, V3; lra|]. split; [vm_compute; reflexivity|].
  destruct (exact_entry Py LeP (val (f64_int 0)) (val (f64_int 3)) [] 4 [val (f64_int 1)] ltac:(lia) (valid_nil _)
    (or_intror eq_refl) ltac:(rewrite V0, V3; lra)) as (M & E1 & HM).
  exists M. split; [exact E1|]. rewrite (HM 0%nat 3%nat _ eq_refl ltac:(lia)). f_equal.
  replace (zex (val (f64_int 0)) (val (f64_int 3)) (val (f64_int 1))) with (- (1 / 3)).
  2:{ rewrite V0, V1, V3. unfold zex, SpecBasis.zmap. lra. }
  rewrite !pR_SS, (pR_1 LeP) by (right; reflexivity). rewrite pR_0, !s0_lep. cbn [INR]. lra.
Qed.

(** Chebyshev functions on [0, 3] x [0, 10] at (1, 1), without (0,0): the exact entries are
    -1/3, -7/9, -4/5, 4/15 and 7/25 *)
Definition case_run85 (be : backend) :=
  match mkn64 be E0 CP [f64_int 0; f64_int 0] [f64_int 3; f64_int 10] (Mat 2 1 [[0]; [0]]%Z) 3 with
  | Some B => bits (Hn64 be E0 CP B (Mat 2 1 [[f64_int 1]; [f64_int 1]]) [0; 0]%nat false)
  | None => None
  end.
Example C85_n_case : args_n CP 2 [f64_int 0; f64_int 0] [f64_int 3; f64_int 10] (Mat 2 1 [[0]; [0]]%Z) 3 /\
  case_run85 Py = case_run85 Cpp /\ case_run85 Py = Some
    [[SpecFloat.S754_finite true 6004799503160662 (-54); SpecFloat.S754_finite true 7005599420354104 (-53);
      SpecFloat.S754_finite true 7205759403792794 (-53); SpecFloat.S754_finite false 4803839602528530 (-54);
      SpecFloat.S754_finite false 5044031582654960 (-54)]].
Proof.
  split; [|vm_compute; split; reflexivity].
  split; [left; reflexivity|]. repeat split; cbn; try lia. intros r [<-|[<-|[]]]; reflexivity.
Qed.
