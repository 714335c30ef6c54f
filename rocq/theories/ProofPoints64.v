(** Collocation points in binary64. *)
From Coq Require Import ZArith Reals Lia Lra List Arith Bool.
From Flocq Require Import Core BinarySingleNaN Relative Plus_error.
From Verif Require Import Base Numbers64 ModelBFPy ModelBFCpp ModelELM ModelUtfc SpecBits SpecPoints64 ProofBits ProofBits64.
Import ListNotations.
Open Scope R_scope.

(** ** one operation *)
Lemma add_ok x y : fin x -> fin y -> Rabs (rnd (val x + val y)) < bpow radix2 1024 ->
  fin (oadd F64 x y) /\ val (oadd F64 x y) = rnd (val x + val y).
Proof.
  intros Fx Fy H. pose proof (Bplus_correct 53 1024 _ _ mode_NE x y Fx Fy) as C.
  unfold val in *. rewrite Rlt_bool_true in C by exact H. destruct C as (C1 & C2 & _). split; [exact C2|exact C1].
Qed.
Lemma sub_ok x y : fin x -> fin y -> Rabs (rnd (val x - val y)) < bpow radix2 1024 ->
  fin (osub F64 x y) /\ val (osub F64 x y) = rnd (val x - val y).
Proof.
  intros Fx Fy H. pose proof (Bminus_correct 53 1024 _ _ mode_NE x y Fx Fy) as C.
  unfold val in *. rewrite Rlt_bool_true in C by exact H. destruct C as (C1 & C2 & _). split; [exact C2|exact C1].
Qed.
Lemma mul_ok x y : fin x -> fin y -> Rabs (rnd (val x * val y)) < bpow radix2 1024 ->
  fin (omul F64 x y) /\ val (omul F64 x y) = rnd (val x * val y).
Proof.
  intros Fx Fy H. pose proof (Bmult_correct 53 1024 _ _ mode_NE x y) as C.
  unfold val, fin in *. rewrite Rlt_bool_true in C by exact H. destruct C as (C1 & C2 & _).
  rewrite Fx, Fy in C2. split; [exact C2|exact C1].
Qed.
Lemma div_ok x y : fin x -> val y <> 0 -> Rabs (rnd (val x / val y)) < bpow radix2 1024 ->
  fin (odiv F64 x y) /\ val (odiv F64 x y) = rnd (val x / val y).
Proof.
  intros Fx Hy H. pose proof (Bdiv_correct 53 1024 _ _ mode_NE x y Hy) as C.
  unfold val, fin in *. rewrite Rlt_bool_true in C by exact H. destruct C as (C1 & C2 & _).
  rewrite Fx in C2. split; [exact C2|exact C1].
Qed.

(** relative error of one rounding away from underflow *)
Lemma rel_err x : bpow radix2 (-1022) <= Rabs x -> Rabs (rnd x - x) <= bpow radix2 (-53) * Rabs x.
Proof.
  intros H.
  pose proof (relative_error_N_FLT radix2 (-1074) 53 ltac:(reflexivity) (fun z => negb (Z.even z)) x) as R.
  change (-1074 + 53 - 1)%Z with (-1022)%Z in R. specialize (R H).
  change (- (53) + 1)%Z with (-53 + 1)%Z in R.
  replace (/ 2 * bpow radix2 (-53 + 1)) with (bpow radix2 (-53)) in R.
  2:{ rewrite bpow_plus, bpow1. field. }
  exact R.
Qed.
(** sums never underflow *)
Lemma rel_add x y : Rabs (rnd (val x + val y) - (val x + val y)) <= bpow radix2 (-53) * Rabs (val x + val y).
Proof.
  destruct (Rle_or_lt (bpow radix2 (-1022)) (Rabs (val x + val y))) as [H|H]; [apply rel_err, H|].
  rewrite rnd_gen.
  - rewrite Rminus_diag_eq, Rabs_R0 by reflexivity. apply Rmult_le_pos; [apply bpow_ge_0|apply Rabs_pos].
  - apply (FLT_format_plus_small radix2 (-1074) 53); [apply gen_val|apply gen_val|].
    apply Rle_trans with (bpow radix2 (-1022)); [lra|apply bpow_le; lia].
Qed.

(** ** floats near 1 *)
Lemma grid v : generic_format radix2 fexp64 v -> / 2 <= Rabs v -> exists k, v = IZR k * bpow radix2 (-53).
Proof.
  intros G H. apply (ex_shift radix2 fexp64 v (-53) G).
  unfold cexp. rewrite fexp64_FLT. unfold FLT_exp.
  assert (0 <= mag radix2 v)%Z; [|lia]. apply mag_ge_bpow. exact H.
Qed.

Lemma b53 : IZR (2 ^ 53) * bpow radix2 (-53) = 1.
Proof. change (IZR (2 ^ 53)) with (bpow radix2 53). rewrite <- bpow_plus. reflexivity. Qed.
Lemma b53_pos : 0 < bpow radix2 (-53). Proof. apply bpow_gt_0. Qed.
Lemma b53_small : bpow radix2 (-53) <= / 1024.
Proof. change (/ 1024) with (bpow radix2 (-10)). apply bpow_le. lia. Qed.

Lemma near_unit v s : (s = 1 \/ s = -1)%Z -> generic_format radix2 fexp64 v ->
  Rabs (v - IZR s) < bpow radix2 (-53) -> v = IZR s.
Proof.
  intros Hs G H. pose proof b53_pos as P. pose proof b53_small as Q.
  destruct (grid v G) as (k & ->).
  { apply Rabs_lt_inv in H. destruct Hs as [-> | ->]; unfold Rabs; destruct (Rcase_abs v); lra. }
  assert (Ek : IZR k * bpow radix2 (-53) - IZR s = IZR (k - s * 2 ^ 53) * bpow radix2 (-53)).
  { rewrite minus_IZR, mult_IZR, Rmult_minus_distr_r, Rmult_assoc, b53. ring. }
  rewrite Ek, Rabs_mult, (Rabs_pos_eq (bpow _ _)) in H by lra.
  assert (Rabs (IZR (k - s * 2 ^ 53)) < 1) by (apply Rmult_lt_reg_r with (1 := P); lra).
  rewrite <- abs_IZR in H0. apply (lt_IZR _ 1) in H0.
  replace k with (s * 2 ^ 53)%Z by lia. rewrite mult_IZR, Rmult_assoc, b53. ring.
Qed.

Lemma unit_range v : generic_format radix2 fexp64 v -> Rabs v <= 1 + 3 / 4 * bpow radix2 (-53) -> -1 <= v <= 1.
Proof.
  intros G H. pose proof b53_pos as P.
  destruct (Rle_or_lt (/ 2) (Rabs v)) as [Hv|Hv].
  - destruct (grid v G Hv) as (k & Ek).
    assert (Rabs v <= 1); [|apply Rabs_le_inv in H0; lra].
    rewrite Ek, Rabs_mult, (Rabs_pos_eq (bpow _ _)), <- abs_IZR in * by lra.
    rewrite <- b53 at 1. rewrite <- b53 in H at 1.
    apply Rmult_le_compat_r; [lra|]. apply IZR_le. apply Z.lt_succ_r. apply lt_IZR. rewrite succ_IZR.
    apply Rmult_lt_reg_r with (1 := P). lra.
  - apply Rabs_lt_inv in Hv. lra.
Qed.

(** ** the cosine at the two ends *)
Lemma PI_bounds : 3 < PI <= 35 / 10.
Proof.
  split; [pose proof PI2_3_2; lra|].
  pose proof (proj2 (PI_ineq 1)) as H. unfold tg_alt, PI_tg in H. cbn in H. lra.
Qed.

Lemma sin_abs a : Rabs (sin a) <= Rabs a.
Proof.
  assert (H : forall a, 0 <= a -> Rabs (sin a) <= a).
  { intros b Hb. destruct (Req_dec b 0) as [->|Hn]; [rewrite sin_0, Rabs_R0; lra|].
    destruct (Rle_or_lt 1 b) as [H1|H1].
    - apply Rle_trans with 1; [|lra]. apply Rabs_le. apply SIN_bound.
    - rewrite Rabs_pos_eq.
      + apply Rlt_le, sin_lt_x. lra.
      + apply Rlt_le, sin_gt_0; pose proof PI_bounds; lra. }
  destruct (Rle_or_lt 0 a) as [Ha|Ha].
  - rewrite (Rabs_pos_eq a) by lra. apply H, Ha.
  - rewrite (Rabs_left a) by lra. rewrite <- (Rabs_Ropp (sin a)), <- sin_neg. apply H. lra.
Qed.

Lemma cos_near_PI t h : Rabs (t - PI) <= h -> -1 <= cos t <= -1 + h * h / 2.
Proof.
  intros H. split; [apply COS_bound|].
  replace t with ((t - PI) + PI) by ring. rewrite neg_cos.
  replace (t - PI) with (2 * ((t - PI) / 2)) by field. rewrite cos_2a_sin.
  set (a := (t - PI) / 2).
  assert (Ha : Rabs (sin a) <= h / 2).
  { apply Rle_trans with (1 := sin_abs a). unfold a, Rdiv. rewrite Rabs_mult, (Rabs_pos_eq (/ 2)) by lra. lra. }
  assert (sin a * sin a <= h / 2 * (h / 2)).
  { rewrite <- (Rabs_pos_eq (sin a * sin a)) by apply Rle_0_sqr. rewrite Rabs_mult.
    apply Rmult_le_compat; try apply Rabs_pos; exact Ha. }
  lra.
Qed.

(** ** the angles *)
Section Nodes.
Variable E : Fun f64.
Hypothesis HE : accurate E.
Variable n : nat.
Hypothesis Hn1 : (1 <= n)%nat.
Hypothesis Hn2 : (Z.of_nat n < 2 ^ 51)%Z.

Let nz : 1 <= IZR (Z.of_nat n). Proof. apply (IZR_le 1). lia. Qed.
Let nn := onat F64 n.
Let isn : isint nn (Z.of_nat n). Proof. apply isint_nat. lia. Qed.

Definition node (x0 : f64) (k : nat) : f64 :=
  oadd F64 (omul F64 (o0 F64) x0) (omul F64 (onat F64 k) (odiv F64 (osub F64 nn (omul F64 (o0 F64) x0)) nn)).
Definition angle (x0 : f64) (k : nat) : f64 :=
  odiv F64 (omul F64 (fpi E) (osub F64 nn (node x0 k))) nn.

Lemma node_ok x0 k : fin x0 -> (k <= n)%nat -> isint (node x0 k) (Z.of_nat k).
Proof.
  intros F0 Hk.
  assert (H0 : isint (omul F64 (o0 F64) x0) 0).
  { destruct (mul_ok (o0 F64) x0 eq_refl F0) as [F V].
    - change (val (o0 F64)) with 0. rewrite Rmult_0_l, rnd_0, Rabs_R0. apply bpow_gt_0.
    - split; [exact F|]. rewrite V. change (val (o0 F64)) with 0. rewrite Rmult_0_l. apply rnd_0. }
  assert (H1 : isint (odiv F64 (osub F64 nn (omul F64 (o0 F64) x0)) nn) 1).
  { apply (isint_div _ _ (Z.of_nat n - 0) (Z.of_nat n)); [|exact isn|lia|lia|lia].
    apply isint_sub; [exact isn|exact H0|lia]. }
  unfold node. replace (Z.of_nat k) with (0 + Z.of_nat k * 1)%Z by lia.
  apply isint_add; [exact H0| |lia]. apply isint_mul; [apply isint_nat; lia|exact H1|lia].
Qed.

Let P := val (fpi E).
Let P_pi : Rabs (P - PI) <= bpow radix2 (-51). Proof. apply HE. Qed.
Lemma P_bounds : 2 <= P <= 4.
Proof.
  pose proof P_pi as H. apply Rabs_le_inv in H. pose proof PI_bounds.
  assert (bpow radix2 (-51) <= bpow radix2 (-2)) by (apply bpow_le; lia).
  change (bpow radix2 (-2)) with (/ 4) in *. lra.
Qed.

Lemma angle_val x0 k : fin x0 -> (k <= n)%nat -> fin (angle x0 k) /\ 0 <= val (angle x0 k) <= 4 /\
  val (angle x0 k) = rnd (rnd (P * IZR (Z.of_nat (n - k))) / IZR (Z.of_nat n)).
Proof.
  intros F0 Hk. pose proof P_bounds as HP.
  assert (Hq : isint (osub F64 nn (node x0 k)) (Z.of_nat (n - k))).
  { replace (Z.of_nat (n - k)) with (Z.of_nat n - Z.of_nat k)%Z by lia.
    apply isint_sub; [exact isn|apply node_ok; assumption|lia]. }
  destruct Hq as [Fq Vq]. destruct isn as [Fn Vn]. destruct HE as (Fp & _ & _).
  assert (Q0 : 0 <= IZR (Z.of_nat (n - k))) by (apply (IZR_le 0); lia).
  assert (Q1 : IZR (Z.of_nat (n - k)) <= IZR (Z.of_nat n)) by (apply IZR_le; lia).
  assert (B1 : 0 <= rnd (P * IZR (Z.of_nat (n - k))) <= IZR (4 * Z.of_nat n)).
  { apply rnd_range; [apply (gen_int 0); reflexivity|apply gen_int; lia|].
    split; [apply Rmult_le_pos; lra|]. rewrite mult_IZR. apply Rmult_le_compat; lra. }
  destruct (mul_ok (fpi E) (osub F64 nn (node x0 k)) Fp Fq) as [F1 V1].
  { rewrite Vq. fold P. rewrite Rabs_pos_eq by lra.
    apply Rle_lt_trans with (1 := proj2 B1). apply Rle_lt_trans with (IZR (2 ^ 53)); [apply IZR_le; lia|].
    change (IZR (2 ^ 53)) with (bpow radix2 53). apply bpow_lt. reflexivity. }
  rewrite Vq in V1. fold P in V1.
  assert (B2 : 0 <= rnd (rnd (P * IZR (Z.of_nat (n - k))) / IZR (Z.of_nat n)) <= 4).
  { apply rnd_range; [apply (gen_int 0); reflexivity|apply (gen_int 4); reflexivity|].
    split; [apply Rmult_le_pos; [lra|]; apply Rlt_le, Rinv_0_lt_compat; lra|].
    apply Rmult_le_reg_r with (IZR (Z.of_nat n)); [lra|]. unfold Rdiv. rewrite Rmult_assoc, Rinv_l by lra.
    rewrite <- mult_IZR, Rmult_1_r. apply B1. }
  destruct (div_ok (omul F64 (fpi E) (osub F64 nn (node x0 k))) nn F1) as [F2 V2].
  { rewrite Vn. lra. }
  { rewrite V1, Vn, Rabs_pos_eq by lra. apply Rle_lt_trans with (1 := proj2 B2).
    change 4 with (bpow radix2 2). apply bpow_lt. reflexivity. }
  unfold angle. split; [exact F2|]. rewrite V2, V1, Vn. split; [exact B2|reflexivity].
Qed.

Definition cosn (x0 : f64) (k : nat) : f64 := fcos E (angle x0 k).

Lemma cosn_ok x0 k : fin x0 -> (k <= n)%nat -> fin (cosn x0 k) /\ -1 <= val (cosn x0 k) <= 1 /\
  Rabs (val (cosn x0 k) - cos (val (angle x0 k))) <= 3 / 4 * bpow radix2 (-53).
Proof.
  intros F0 Hk. destruct (angle_val x0 k F0 Hk) as (Fa & Ba & _).
  destruct HE as (_ & _ & Hc). destruct (Hc (angle x0 k) Fa) as [Fz Vz]; [rewrite Rabs_pos_eq; lra|].
  split; [exact Fz|]. split; [|exact Vz]. apply unit_range; [apply gen_val|]. fold (cosn x0 k) in Vz.
  pose proof (COS_bound (val (angle x0 k))) as Cb. apply Rabs_le_inv in Vz. apply Rabs_le. lra.
Qed.

Lemma cosn_last x0 : fin x0 -> val (cosn x0 n) = 1.
Proof.
  intros F0. destruct (angle_val x0 n F0 (Nat.le_refl n)) as (Fa & Ba & Va).
  replace (n - n)%nat with 0%nat in Va by lia.
  change (IZR (Z.of_nat 0)) with 0 in Va. rewrite Rmult_0_r, rnd_0 in Va.
  unfold Rdiv in Va. rewrite Rmult_0_l, rnd_0 in Va.
  destruct (cosn_ok x0 n F0 (Nat.le_refl n)) as (_ & _ & Vz). rewrite Va, cos_0 in Vz.
  apply (near_unit _ 1); [left; reflexivity|apply gen_val|]. pose proof b53_pos. change (IZR 1) with 1. lra.
Qed.

Lemma bp_le e f : (e <= f)%Z -> bpow radix2 e <= bpow radix2 f. Proof. apply bpow_le. Qed.

Lemma angle_first x0 : fin x0 -> Rabs (val (angle x0 0) - PI) <= bpow radix2 (-48).
Proof.
  intros F0. destruct (angle_val x0 0 F0 ltac:(lia)) as (Fa & Ba & Va).
  rewrite Nat.sub_0_r in Va. pose proof P_bounds as HP.
  set (N := IZR (Z.of_nat n)) in *. pose proof nz as HN. fold N in HN.
  pose proof b53_pos as U. pose proof b53_small as U2. set (u := bpow radix2 (-53)) in *.
  assert (B51 : bpow radix2 (-51) = 4 * u).
  { unfold u. change (-51)%Z with (2 + -53)%Z. rewrite bpow_plus. reflexivity. }
  assert (B48 : bpow radix2 (-48) = 32 * u).
  { unfold u. change (-48)%Z with (5 + -53)%Z. rewrite bpow_plus. reflexivity. }
  assert (PN : 2 <= P * N).
  { apply Rle_trans with (2 * 1); [lra|]. apply Rmult_le_compat; lra. }
  assert (R1 : Rabs (rnd (P * N) - P * N) <= u * (P * N)).
  { rewrite <- (Rabs_pos_eq (P * N)) at 3 by lra. apply rel_err. rewrite Rabs_pos_eq by lra.
    apply Rle_trans with (bpow radix2 1); [apply bpow_le; lia|rewrite bpow1; lra]. }
  set (V := rnd (P * N)) in *.
  assert (R2 : Rabs (V / N - P) <= u * P).
  { replace (V / N - P) with ((V - P * N) * / N) by (field; lra). rewrite Rabs_mult, (Rabs_pos_eq (/ N)).
    - apply Rle_trans with (u * (P * N) * / N); [apply Rmult_le_compat_r; [|exact R1]|apply Req_le; field; lra].
      apply Rlt_le, Rinv_0_lt_compat; lra.
    - apply Rlt_le, Rinv_0_lt_compat; lra. }
  assert (R2' : Rabs (V / N - P) <= u * 4).
  { apply Rle_trans with (1 := R2). apply Rmult_le_compat_l; lra. }
  apply Rabs_le_inv in R2'.
  assert (R3 : Rabs (rnd (V / N) - V / N) <= u * Rabs (V / N)).
  { apply rel_err. apply Rle_trans with (bpow radix2 0); [apply bpow_le; lia|].
    change (bpow radix2 0) with 1. rewrite Rabs_pos_eq; lra. }
  rewrite (Rabs_pos_eq (V / N)) in R3 by lra.
  assert (R3' : Rabs (rnd (V / N) - V / N) <= u * 5).
  { apply Rle_trans with (1 := R3). apply Rmult_le_compat_l; lra. }
  apply Rabs_le_inv in R3'. pose proof P_pi as R4. rewrite B51 in R4. apply Rabs_le_inv in R4.
  rewrite Va, B48. apply Rabs_le. lra.
Qed.

Lemma cosn_first x0 : fin x0 -> val (cosn x0 0) = -1.
Proof.
  intros F0. destruct (cosn_ok x0 0 F0 ltac:(lia)) as (_ & _ & Vz).
  pose proof (cos_near_PI _ _ (angle_first x0 F0)) as Hc.
  assert (Hh : bpow radix2 (-48) * bpow radix2 (-48) / 2 <= / 8 * bpow radix2 (-53)).
  { replace (bpow radix2 (-48) * bpow radix2 (-48) / 2) with (bpow radix2 (-97)).
    - change (/ 8) with (bpow radix2 (-3)). rewrite <- bpow_plus. apply bpow_le. lia.
    - rewrite <- bpow_plus. change (-48 + -48)%Z with (1 + -97)%Z. rewrite bpow_plus, bpow1. field. }
  apply (near_unit _ (-1)); [right; reflexivity|apply gen_val|]. pose proof b53_pos.
  apply Rabs_le_inv in Vz. change (IZR (-1)) with (-1). apply Rabs_lt. lra.
Qed.

(** ** the points *)
Section Dom.
Variables x0 xf : f64.
Hypothesis Hd : ordinary_domain x0 xf.

Let F0 : fin x0. Proof. apply Hd. Qed.
Lemma dom_lt : val x0 < val xf.
Proof. destruct Hd as (_ & _ & _ & _ & H & _). pose proof (bpow_gt_0 radix2 (-1021)). lra. Qed.
Lemma dom_ordw : ordw x0 xf.
Proof.
  pose proof dom_lt as Hlt. destruct Hd as (A & B & _ & _ & H). split; [exact A|]. split; [exact B|].
  rewrite Rabs_pos_eq by lra. exact H.
Qed.

Definition shift (k : nat) : f64 := osub F64 (cosn x0 k) (oopp F64 (o1 F64)).
Definition dist (k : nat) : f64 := odiv F64 (shift k) (coef x0 xf).
Definition pt (k : nat) : f64 := oadd F64 (dist k) x0.
Let c := val (coef x0 xf).
Let c_pos : 0 < c. Proof. apply coef_pos; [apply dom_ordw|apply dom_lt]. Qed.

Lemma shift_ok k : (k <= n)%nat -> fin (shift k) /\ val (shift k) = rnd (val (cosn x0 k) + 1) /\ 0 <= val (shift k) <= 2.
Proof.
  intros Hk. destruct (cosn_ok x0 k F0 Hk) as (Fz & Bz & _).
  destruct (isint_opp _ _ isint_one) as [Fo Vo]. change (IZR (- (1))) with (-1) in Vo.
  assert (B : 0 <= rnd (val (cosn x0 k) + 1) <= 2).
  { apply rnd_range; [apply (gen_int 0); reflexivity|apply (gen_int 2); reflexivity|]. lra. }
  destruct (sub_ok (cosn x0 k) (oopp F64 (o1 F64)) Fz Fo) as [F V].
  { rewrite Vo. replace (val (cosn x0 k) - -1) with (val (cosn x0 k) + 1) by ring.
    rewrite Rabs_pos_eq by lra. apply Rle_lt_trans with (bpow radix2 1); [rewrite bpow1; lra|apply bpow_lt; reflexivity]. }
  rewrite Vo in V. replace (val (cosn x0 k) - -1) with (val (cosn x0 k) + 1) in V by ring.
  unfold shift. split; [exact F|]. rewrite V. split; [reflexivity|exact B].
Qed.
Lemma shift_first : val (shift 0) = 0.
Proof.
  destruct (shift_ok 0 ltac:(lia)) as (_ & V & _). rewrite V, cosn_first by exact F0.
  replace (-1 + 1) with 0 by ring. apply rnd_0.
Qed.
Lemma shift_last : val (shift n) = 2.
Proof.
  destruct (shift_ok n ltac:(lia)) as (_ & V & _). rewrite V, cosn_last by exact F0.
  replace (1 + 1) with 2 by ring. apply (rnd_int 2). reflexivity.
Qed.

Lemma far : 0 < rnd (2 / c) <= bpow radix2 1022.
Proof.
  destruct (coef_ok x0 xf dom_ordw) as (_ & _ & Bc). fold c in Bc.
  pose proof (abs_rnd_bounds (-1021) 1022 _ ltac:(lia) ltac:(lia) (quot_bounds c Bc)) as H.
  assert (0 <= rnd (2 / c)).
  { rewrite <- rnd_0. apply rnd_le. apply Rlt_le, Rdiv_lt_0_compat; [lra|exact c_pos]. }
  rewrite Rabs_pos_eq in H by assumption. pose proof (bpow_gt_0 radix2 (-1021)). lra.
Qed.

Lemma dist_bounds k : (k <= n)%nat -> fin (dist k) /\ val (dist k) = rnd (val (shift k) / c) /\ 0 <= val (dist k) <= rnd (2 / c).
Proof.
  intros Hk. destruct (shift_ok k Hk) as (Fs & _ & Bs). pose proof far as Hf. pose proof c_pos as Hc.
  assert (B : 0 <= rnd (val (shift k) / c) <= rnd (2 / c)).
  { split.
    - rewrite <- rnd_0. apply rnd_le. apply Rmult_le_pos; [lra|]. apply Rlt_le, Rinv_0_lt_compat, Hc.
    - apply rnd_le. apply Rmult_le_compat_r; [|lra]. apply Rlt_le, Rinv_0_lt_compat, Hc. }
  destruct (div_ok (shift k) (coef x0 xf) Fs) as [F V].
  - fold c. lra.
  - fold c. rewrite Rabs_pos_eq by lra. apply Rle_lt_trans with (bpow radix2 1022); [lra|apply bpow_lt; reflexivity].
  - unfold dist. split; [exact F|]. fold c in V. rewrite V. split; [reflexivity|exact B].
Qed.

Lemma pt_ok k : (k <= n)%nat -> fin (pt k) /\ val (pt k) = rnd (val (dist k) + val x0).
Proof.
  intros Hk. destruct (dist_bounds k Hk) as (Fd & _ & Bd). pose proof far as Hf.
  destruct Hd as (_ & _ & B0 & _). apply Rabs_le_inv in B0.
  destruct (add_ok (dist k) x0 Fd F0) as [F V].
  - apply Rle_lt_trans with (bpow radix2 1023); [|apply bpow_lt; reflexivity].
    apply abs_round_le_generic; [apply (fexp_correct 53 1024 _)|apply valid_rnd_N|apply gen_bpow; lia|].
    change 1023%Z with (1 + 1022)%Z. rewrite bpow_plus, bpow1. apply Rabs_le. lra.
  - split; [exact F|exact V].
Qed.

Lemma pt_first : val (pt 0) = val x0.
Proof.
  destruct (pt_ok 0 ltac:(lia)) as [_ V]. destruct (dist_bounds 0 ltac:(lia)) as (_ & Vd & _).
  rewrite V, Vd, shift_first. unfold Rdiv. rewrite Rmult_0_l, rnd_0, Rplus_0_l. apply rnd_gen, gen_val.
Qed.

Lemma pt_range k : (k <= n)%nat -> val x0 <= val (pt k) <= val (pt n).
Proof.
  intros Hk. destruct (pt_ok k Hk) as [_ V]. destruct (pt_ok n ltac:(lia)) as [_ Vn].
  destruct (dist_bounds k Hk) as (_ & _ & B). destruct (dist_bounds n ltac:(lia)) as (_ & Vdn & _).
  rewrite shift_last in Vdn. rewrite V, Vn, Vdn. split.
  - rewrite <- (rnd_gen (val x0)) at 1 by apply gen_val. apply rnd_le. lra.
  - apply rnd_le. lra.
Qed.

Lemma pt_last : Rabs (val (pt n) - val xf) <= bpow radix2 (-51) * (val xf - val x0) + bpow radix2 (-53) * Rabs (val xf).
Proof.
  destruct (pt_ok n ltac:(lia)) as [_ Vn]. destruct (dist_bounds n ltac:(lia)) as (_ & Vdn & _).
  rewrite shift_last in Vdn. pose proof (rel_add (dist n) x0) as R4. rewrite <- Vn in R4.
  destruct (width_ok x0 xf dom_ordw) as (_ & Vw & Bw). destruct (coef_ok x0 xf dom_ordw) as (_ & Vc & Bc).
  pose proof (width_pos x0 xf dom_ordw dom_lt) as Pw. pose proof c_pos as Pc. pose proof dom_lt as Hlt.
  fold c in Vc, Bc. set (w := val (width x0 xf)) in *. set (W := val xf - val x0) in *.
  set (D := val (dist n)) in *.
  assert (HW : bpow radix2 (-1021) <= W) by apply Hd.
  pose proof b53_pos as U. pose proof b53_small as U2.
  assert (L : bpow radix2 (-1022) <= bpow radix2 (-1021)) by (apply bpow_le; lia).
  assert (W0 : 0 < W) by (pose proof (bpow_gt_0 radix2 (-1021)); lra).
  assert (R1 : Rabs (w - W) <= bpow radix2 (-53) * W).
  { rewrite Vw. rewrite <- (Rabs_pos_eq W) at 3 by lra. apply rel_err. rewrite Rabs_pos_eq; lra. }
  assert (R2 : Rabs (c - 2 / w) <= bpow radix2 (-53) * (2 / w)).
  { rewrite Vc. rewrite <- (Rabs_pos_eq (2 / w)) at 3 by (apply Rlt_le, Rdiv_lt_0_compat; lra). apply rel_err.
    apply Rle_trans with (1 := L). apply quot_bounds, Bw. }
  assert (R3 : Rabs (D - 2 / c) <= bpow radix2 (-53) * (2 / c)).
  { rewrite Vdn. rewrite <- (Rabs_pos_eq (2 / c)) at 3 by (apply Rlt_le, Rdiv_lt_0_compat; lra). apply rel_err.
    apply Rle_trans with (1 := L). apply quot_bounds, Bc. }
  assert (B51 : bpow radix2 (-51) = 4 * bpow radix2 (-53)).
  { change (-51)%Z with (2 + -53)%Z. rewrite bpow_plus. reflexivity. }
  rewrite B51. set (u := bpow radix2 (-53)) in *.
  (* c w is 2 up to 2 u *)
  assert (K : Rabs (c * w - 2) <= 2 * u).
  { replace (c * w - 2) with ((c - 2 / w) * w) by (field; lra). rewrite Rabs_mult, (Rabs_pos_eq w) by lra.
    apply Rle_trans with (u * (2 / w) * w); [apply Rmult_le_compat_r; lra|apply Req_le; field; lra]. }
  apply Rabs_le_inv in K.
  (* hence 2 / c is w up to a little over u *)
  set (q := 2 / c) in *. assert (Hq : q * c = 2) by (unfold q; field; lra).
  assert (Pq : 0 < q) by (apply Rdiv_lt_0_compat; lra).
  assert (K2 : Rabs (q - w) <= 2 * u * q / 2).
  { replace (q - w) with ((2 - c * w) * q / 2) by (replace ((2 - c * w) * q / 2) with (q - w * (q * c) / 2) by field; rewrite Hq; field).
    unfold Rdiv. rewrite !Rabs_mult, (Rabs_pos_eq q), (Rabs_pos_eq (/ 2)) by lra.
    apply Rmult_le_compat_r; [lra|]. apply Rmult_le_compat_r; [lra|]. apply Rabs_le. lra. }
  assert (K2' : Rabs (q - w) <= u * q) by lra.
  apply Rabs_le_inv in R1, R3, K2'.
  assert (u * W <= / 1024 * W) by (apply Rmult_le_compat_r; lra).
  assert (u * q <= / 1024 * q) by (apply Rmult_le_compat_r; lra).
  assert (uq : u * q <= u * (1004 / 1000 * W)).
  { apply Rmult_le_compat_l; lra. }
  assert (DW : Rabs (D - W) <= 33 / 10 * u * W).
  { apply Rabs_le. nra. }
  apply Rabs_le_inv in R4.
  assert (S : Rabs (D + val x0) <= Rabs (val xf) + 33 / 10 * u * W).
  { replace (D + val x0) with (val xf + (D - W)) by (unfold W; ring).
    apply Rle_trans with (1 := Rabs_triang _ _). lra. }
  assert (S2 : u * Rabs (D + val x0) <= u * Rabs (val xf) + u * (33 / 10 * u * W)).
  { rewrite <- Rmult_plus_distr_l. apply Rmult_le_compat_l; lra. }
  assert (u * (33 / 10 * u * W) <= / 1024 * (33 / 10 * u * W)).
  { apply Rmult_le_compat_r; [|lra]. apply Rmult_le_pos; [|lra]. lra. }
  apply Rabs_le_inv in DW.
  replace (val (pt n) - val xf) with ((val (pt n) - (D + val x0)) + (D - W)) by (unfold W; ring).
  assert (0 <= u * W) by (apply Rmult_le_pos; lra).
  apply Rabs_le. nra.
Qed.
End Dom.
End Nodes.

Lemma linspace_S {T} (A : Ops T) a b n : (1 <= n)%nat ->
  linspace A a b (S n) = map (fun k => oadd A a (omul A (onat A k) (odiv A (osub A b a) (onat A n)))) (seq 0 (S n)).
Proof. intros H. destruct n as [|n]; [lia|reflexivity]. Qed.

Lemma utfc64_points be E f n nC deg x0 xf u : f = CP \/ f = LeP -> (1 <= n)%nat ->
  utfc64 be E f (S n) nC deg x0 xf = Some u -> u_x u = map (pt E n x0 xf) (seq 0 (S n)).
Proof.
  intros Hf Hn H. unfold utfc64, utfc_init in H.
  destruct (utfc_nC nC) as [l|]; [|discriminate]. cbn [bind] in H.
  destruct (deg <? length l)%nat; [discriminate|]. destruct (existsb _ l); [discriminate|].
  assert (G : forall g, g = CP \/ g = LeP ->
    utfc_points F64 E (UB g) (S n) (oopp F64 (o1 F64)) (o1 F64) (b_c (fam_init F64 E g x0 xf l (deg + 1))) x0 =
    Some (map (cosn E n x0) (seq 0 (S n)), map (pt E n x0 xf) (seq 0 (S n)))).
  { intros g Hg. unfold utfc_points.
    assert (Ez : forall (T' : Type) (X : T') (Y : nat -> T'), match S n with O => X | S O => X | S k => Y k end = Y n)
      by (intros; destruct n; [lia|reflexivity]).
    destruct n as [|n']; [lia|].
    assert (E0 : map (fun I => fcos E (odiv F64 (omul F64 (fpi E) (osub F64 (onat F64 (S n')) I)) (onat F64 (S n'))))
       (linspace F64 (omul F64 (o0 F64) x0) (onat F64 (S n')) (S (S n'))) = map (cosn E (S n') x0) (seq 0 (S (S n')))).
    { rewrite linspace_S by lia. rewrite map_map. reflexivity. }
    destruct Hg as [-> | ->]; cbn [bind]; rewrite E0; cbn [bind]; rewrite map_map; reflexivity. }
  destruct Hf as [-> | ->]; cbn [bind] in H; rewrite G in H by tauto; cbn [bind] in H; injection H as <-; reflexivity.
Qed.

Lemma pt_last_same E n x0 xf : accurate E -> (1 <= n)%nat -> (Z.of_nat n < 2 ^ 51)%Z -> ordinary_domain x0 xf ->
  val (pt E n x0 xf n) = val (oadd F64 (odiv F64 (f64_int 2) (coef x0 xf)) x0).
Proof.
  intros HE H1 H2 Hd. destruct (pt_ok E HE n H1 H2 x0 xf Hd n (Nat.le_refl n)) as [Fp Vp].
  destruct (dist_bounds E HE n H1 H2 x0 xf Hd n (Nat.le_refl n)) as (Fd & Vd & _).
  rewrite (shift_last E HE n H1 H2 x0 xf Hd) in Vd.
  pose proof (far n H1 x0 xf Hd) as Hf. pose proof (coef_pos x0 xf (dom_ordw x0 xf Hd) (dom_lt x0 xf Hd)) as Hc.
  destruct (f64_int_ok 2 eq_refl) as [F2 V2].
  destruct (div_ok (f64_int 2) (coef x0 xf) F2) as [Fq Vq].
  - lra.
  - rewrite V2, Rabs_pos_eq by lra. apply Rle_lt_trans with (bpow radix2 1022); [lra|apply bpow_lt; reflexivity].
  - rewrite V2 in Vq. destruct (add_ok (odiv F64 (f64_int 2) (coef x0 xf)) x0 Fq (proj1 Hd)) as [Fs Vs].
    + rewrite Vq, <- Vd. rewrite <- Vp.
      apply (abs_B2R_lt_emax 53 1024).
    + rewrite Vs, Vp, Vq, Vd. reflexivity.
Qed.

(** ** a correctly rounded library exists *)
Definition of_real (r : R) : f64 :=
  binary_normalize 53 1024 _ _ mode_NE (Ztrunc (scaled_mantissa radix2 fexp64 (rnd r))) (cexp radix2 fexp64 (rnd r)) false.
Lemma of_real_ok r : Rabs r <= 4 -> fin (of_real r) /\ val (of_real r) = rnd r.
Proof.
  intros Hr. unfold of_real.
  pose proof (binary_normalize_correct 53 1024 _ _ mode_NE (Ztrunc (scaled_mantissa radix2 fexp64 (rnd r)))
    (cexp radix2 fexp64 (rnd r)) false) as H. cbv zeta in H.
  assert (G : generic_format radix2 fexp64 (rnd r)).
  { apply generic_format_round; [apply (fexp_correct 53 1024 _)|apply valid_rnd_N]. }
  rewrite <- G in H. rewrite (rnd_gen _ G) in H. rewrite Rlt_bool_true in H.
  - destruct H as (H1 & H2 & _). split; [exact H2|exact H1].
  - apply small_lt, le_big, Hr.
Qed.

Definition exact_lib : Fun f64 :=
  mkFun (fun x => of_real (sin (val x))) (fun x => of_real (cos (val x))) (fun x => x) (fun x => x) (of_real PI) (fun _ => true).

Lemma half_ulp r e : (-1074 <= e)%Z -> Rabs r <= bpow radix2 (e + 53) -> Rabs (rnd r - r) <= / 2 * bpow radix2 e.
Proof.
  intros He Hr. destruct (Req_dec r 0) as [->|Hn].
  - rewrite rnd_0, Rminus_diag_eq, Rabs_R0 by reflexivity. apply Rmult_le_pos; [lra|apply bpow_ge_0].
  - destruct (Rle_lt_or_eq_dec _ _ Hr) as [Hlt|Heq].
    + apply Rle_trans with (/ 2 * ulp radix2 fexp64 r); [apply error_le_half_ulp, (fexp_correct 53 1024 _)|].
      apply Rmult_le_compat_l; [lra|]. rewrite ulp_neq_0 by exact Hn. apply bpow_le.
      unfold cexp. rewrite fexp64_FLT. unfold FLT_exp.
      assert (mag radix2 r <= e + 53)%Z by (apply mag_le_bpow; [exact Hn|exact Hlt]). lia.
    + destruct (Z.le_gt_cases (e + 53) 1023) as [Hl|Hl].
      * rewrite rnd_gen.
        -- rewrite Rminus_diag_eq, Rabs_R0 by reflexivity. apply Rmult_le_pos; [lra|apply bpow_ge_0].
        -- apply generic_format_abs_inv. rewrite Heq. apply gen_bpow. lia.
      * rewrite rnd_gen.
        -- rewrite Rminus_diag_eq, Rabs_R0 by reflexivity. apply Rmult_le_pos; [lra|apply bpow_ge_0].
        -- apply generic_format_abs_inv. rewrite Heq. apply generic_format_bpow. rewrite fexp64_FLT. unfold FLT_exp. lia.
Qed.

Lemma exact_lib_accurate : accurate exact_lib.
Proof.
  pose proof PI_bounds as HP. split; [|split].
  - apply of_real_ok. rewrite Rabs_pos_eq; lra.
  - cbn [fpi exact_lib]. destruct (of_real_ok PI) as [_ ->]; [rewrite Rabs_pos_eq; lra|].
    apply Rle_trans with (/ 2 * bpow radix2 (-51)).
    + apply half_ulp; [lia|]. change (bpow radix2 (-51 + 53)) with 4. rewrite Rabs_pos_eq; lra.
    + pose proof (bpow_gt_0 radix2 (-51)). lra.
  - intros x Fx Hx. cbn [fcos exact_lib]. pose proof (COS_bound (val x)) as Hc.
    destruct (of_real_ok (cos (val x))) as [F V]; [apply Rabs_le; lra|]. split; [exact F|]. rewrite V.
    apply Rle_trans with (/ 2 * bpow radix2 (-53)).
    + apply half_ulp; [lia|]. change (bpow radix2 (-53 + 53)) with 1. apply Rabs_le. lra.
    + pose proof b53_pos. lra.
Qed.
