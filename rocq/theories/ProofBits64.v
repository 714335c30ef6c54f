(** Exact operations of binary64 on small integers, and the map of the domain onto [-1, 1]. *)
From Coq Require Import ZArith Reals Lia Lra List Arith Bool.
From Flocq Require Import Core BinarySingleNaN Relative.
From Verif Require Import Base Numbers64 ModelBFPy ModelBFCpp SpecBasis SpecBits ProofH ProofBits.
Import ListNotations.
Open Scope R_scope.

Notation fexp64 := (SpecFloat.fexp 53 1024).
Notation rnd := (round radix2 fexp64 (round_mode mode_NE)).

(** ** integers *)
Definition isint (x : f64) (p : Z) : Prop := fin x /\ val x = IZR p.

Lemma fexp64_FLT e : fexp64 e = FLT_exp (-1074) 53 e.
Proof. reflexivity. Qed.

Lemma rnd_int p : (Z.abs p < 2 ^ 53)%Z -> rnd (IZR p) = IZR p.
Proof.
  intros Hp. apply round_generic; [apply valid_rnd_N|].
  replace (IZR p) with (F2R (Float radix2 p 0)) by (unfold F2R; cbn; ring).
  apply (generic_format_FLT radix2 (-1074) 53). exists (Float radix2 p 0); [reflexivity|exact Hp|].
  cbn. lia.
Qed.

Lemma int_small p : (Z.abs p < 2 ^ 53)%Z -> Rabs (rnd (IZR p)) < bpow radix2 1024.
Proof.
  intros Hp. rewrite rnd_int by exact Hp. rewrite <- abs_IZR.
  apply Rlt_trans with (bpow radix2 53); [|apply bpow_lt; reflexivity].
  change (bpow radix2 53) with (IZR (2 ^ 53)). apply IZR_lt. exact Hp.
Qed.

Lemma f64_int_ok p : (Z.abs p < 2 ^ 53)%Z -> isint (f64_int p) p.
Proof.
  intros Hp. unfold f64_int.
  pose proof (binary_normalize_correct 53 1024 _ _ mode_NE p 0 false) as H. cbv zeta in H.
  replace (F2R (Float radix2 p 0)) with (IZR p) in H by (unfold F2R; cbn; ring).
  rewrite Rlt_bool_true in H by (apply int_small, Hp). destruct H as (H1 & H2 & _).
  split; [exact H2|]. unfold val. rewrite H1. apply rnd_int, Hp.
Qed.

Lemma isint_add x y p q : isint x p -> isint y q -> (Z.abs (p + q) < 2 ^ 53)%Z ->
  isint (oadd F64 x y) (p + q).
Proof.
  intros [Fx Vx] [Fy Vy] H. cbn [F64 oadd].
  pose proof (Bplus_correct 53 1024 _ _ mode_NE x y Fx Fy) as C.
  unfold val in *. rewrite Vx, Vy, <- plus_IZR in C.
  rewrite Rlt_bool_true in C by (apply int_small, H). destruct C as (C1 & C2 & _).
  split; [exact C2|]. unfold val. rewrite C1. apply rnd_int, H.
Qed.
Lemma isint_sub x y p q : isint x p -> isint y q -> (Z.abs (p - q) < 2 ^ 53)%Z ->
  isint (osub F64 x y) (p - q).
Proof.
  intros [Fx Vx] [Fy Vy] H. cbn [F64 osub].
  pose proof (Bminus_correct 53 1024 _ _ mode_NE x y Fx Fy) as C.
  unfold val in *. rewrite Vx, Vy, <- minus_IZR in C.
  rewrite Rlt_bool_true in C by (apply int_small, H). destruct C as (C1 & C2 & _).
  split; [exact C2|]. unfold val. rewrite C1. apply rnd_int, H.
Qed.
Lemma isint_mul x y p q : isint x p -> isint y q -> (Z.abs (p * q) < 2 ^ 53)%Z ->
  isint (omul F64 x y) (p * q).
Proof.
  intros [Fx Vx] [Fy Vy] H. cbn [F64 omul].
  pose proof (Bmult_correct 53 1024 _ _ mode_NE x y) as C.
  unfold val, fin in *. rewrite Vx, Vy, <- mult_IZR in C.
  rewrite Rlt_bool_true in C by (apply int_small, H). destruct C as (C1 & C2 & _).
  rewrite Fx, Fy in C2.
  split; [exact C2|]. unfold val. rewrite C1. apply rnd_int, H.
Qed.
Lemma isint_div x y p q r : isint x p -> isint y q -> q <> 0%Z -> p = (r * q)%Z -> (Z.abs r < 2 ^ 53)%Z ->
  isint (odiv F64 x y) r.
Proof.
  intros [Fx Vx] [Fy Vy] Hq -> H. cbn [F64 odiv].
  assert (Hy : val y <> 0) by (rewrite Vy; apply IZR_neq, Hq).
  pose proof (Bdiv_correct 53 1024 _ _ mode_NE x y Hy) as C.
  unfold val, fin in *. rewrite Vx, Vy, mult_IZR in C.
  replace (IZR r * IZR q / IZR q) with (IZR r) in C by (field; apply IZR_neq, Hq).
  rewrite Rlt_bool_true in C by (apply int_small, H). destruct C as (C1 & C2 & _).
  rewrite Fx in C2.
  split; [exact C2|]. unfold val. rewrite C1. apply rnd_int, H.
Qed.
Lemma isint_opp x p : isint x p -> isint (oopp F64 x) (- p).
Proof.
  intros [Fx Vx]. split.
  - unfold fin in *. cbn [F64 oopp]. rewrite is_finite_Bopp. exact Fx.
  - unfold val in *. cbn [F64 oopp]. rewrite B2R_Bopp, Vx, opp_IZR. reflexivity.
Qed.

Lemma isint_strict x p : isint x p -> p <> 0%Z -> is_finite_strict x = true.
Proof.
  intros [Fx Vx] Hp. apply is_finite_strict_B2R. unfold val in Vx. rewrite Vx. apply IZR_neq, Hp.
Qed.
Lemma isint_inj x y p : isint x p -> isint y p -> p <> 0%Z -> x = y.
Proof.
  intros Hx Hy Hp. apply B2R_inj; try (eapply isint_strict; eassumption).
  destruct Hx as [_ Hx], Hy as [_ Hy]. unfold val in *. congruence.
Qed.
Lemma isint_one : isint (o1 F64) 1.
Proof. apply (f64_int_ok 1). reflexivity. Qed.
Lemma isint_nat n : (Z.of_nat n < 2 ^ 53)%Z -> isint (onat F64 n) (Z.of_nat n).
Proof. intros H. apply f64_int_ok. lia. Qed.

Lemma small_ints64 d : (Z.of_nat d < 2 ^ 51)%Z -> small_ints F64 d.
Proof.
  intros Hd. split.
  - intros n Hn. apply (isint_inj _ _ (Z.of_nat (2 + 2 * n))); [apply isint_nat; lia| |lia].
    replace (Z.of_nat (2 + 2 * n)) with (2 + 2 * Z.of_nat n)%Z by lia.
    apply isint_add; [apply isint_nat; reflexivity| |lia].
    apply isint_mul; [apply isint_nat; reflexivity|apply isint_nat; lia|lia].
  - apply (isint_inj _ _ 2%Z); [|apply isint_nat; reflexivity|lia].
    apply (isint_mul _ _ 2 1); [apply isint_nat; reflexivity|apply isint_one|reflexivity].
Qed.

Lemma agree64 E f B xs d full : (1 <= b_m B)%nat -> valid_nC (b_nC B) (b_m B) -> (Z.of_nat d < 2 ^ 51)%Z ->
  exists M, py_H F64 E f B xs d full = Some M /\ cpp_H_mat F64 E f B xs d full = Some M.
Proof. intros Hm Hv Hd. apply gagree; [exact Hm|exact Hv|apply small_ints64, Hd]. Qed.

(** ** the map onto [-1, 1] *)
Definition width (x0 xf : f64) : f64 := osub F64 xf x0.
Definition coef (x0 xf : f64) : f64 := odiv F64 (osub F64 (o1 F64) (oopp F64 (o1 F64))) (width x0 xf).
Definition zof (x0 xf x : f64) : f64 :=
  oadd F64 (omul F64 (osub F64 x x0) (coef x0 xf)) (oopp F64 (o1 F64)).

Lemma gen_bpow e : (-1074 <= e <= 1023)%Z -> generic_format radix2 fexp64 (bpow radix2 e).
Proof.
  intros He. apply generic_format_bpow. rewrite fexp64_FLT. unfold FLT_exp. lia.
Qed.
Lemma rnd_le x y : x <= y -> rnd x <= rnd y.
Proof. intros H. apply round_le; [apply (fexp_correct 53 1024 _)|apply valid_rnd_N|exact H]. Qed.
Lemma rnd_gen x : generic_format radix2 fexp64 x -> rnd x = x.
Proof. intros H. apply round_generic; [apply valid_rnd_N|exact H]. Qed.
Lemma rnd_0 : rnd 0 = 0.
Proof. apply (rnd_int 0). reflexivity. Qed.
Lemma gen_val x : generic_format radix2 fexp64 (val x).
Proof. apply generic_format_B2R. Qed.

Lemma abs_rnd_bounds lo hi x : (-1074 <= lo)%Z -> (hi <= 1023)%Z ->
  bpow radix2 lo <= Rabs x <= bpow radix2 hi -> bpow radix2 lo <= Rabs (rnd x) <= bpow radix2 hi.
Proof.
  intros Hlo Hhi [H1 H2].
  assert (lo <= hi)%Z by (apply (le_bpow radix2); lra).
  split.
  - apply abs_round_ge_generic; [apply (fexp_correct 53 1024 _)|apply valid_rnd_N|apply gen_bpow; lia|exact H1].
  - apply abs_round_le_generic; [apply (fexp_correct 53 1024 _)|apply valid_rnd_N|apply gen_bpow; lia|exact H2].
Qed.

Definition ordw (x0 xf : f64) : Prop :=
  fin x0 /\ fin xf /\ bpow radix2 (-1021) <= Rabs (val xf - val x0) <= bpow radix2 1022.

Lemma width_ok x0 xf : ordw x0 xf -> fin (width x0 xf) /\ val (width x0 xf) = rnd (val xf - val x0)
  /\ bpow radix2 (-1021) <= Rabs (val (width x0 xf)) <= bpow radix2 1022.
Proof.
  intros (F0 & Ff & Hw).
  pose proof (Bminus_correct 53 1024 _ _ mode_NE xf x0 Ff F0) as C.
  pose proof (abs_rnd_bounds (-1021) 1022 _ ltac:(lia) ltac:(lia) Hw) as Hb. unfold val in *.
  rewrite Rlt_bool_true in C.
  2:{ apply Rle_lt_trans with (bpow radix2 1022); [apply Hb|apply bpow_lt; reflexivity]. }
  destruct C as (C1 & C2 & _). unfold width. cbn [F64 osub].
  split; [exact C2|]. rewrite C1. split; [reflexivity|exact Hb].
Qed.

Lemma bpow1 : bpow radix2 1 = 2. Proof. reflexivity. Qed.
Lemma two64 : isint (osub F64 (o1 F64) (oopp F64 (o1 F64))) 2.
Proof. apply (isint_sub _ _ 1 (-1)); [apply isint_one|apply (isint_opp _ 1), isint_one|reflexivity]. Qed.

Lemma quot_bounds w : bpow radix2 (-1021) <= Rabs w <= bpow radix2 1022 ->
  bpow radix2 (-1021) <= Rabs (2 / w) <= bpow radix2 1022.
Proof.
  intros [H1 H2]. pose proof (bpow_gt_0 radix2 (-1021)) as P1.
  assert (Hw : 0 < Rabs w) by lra.
  unfold Rdiv. rewrite Rabs_mult, Rabs_inv, (Rabs_pos_eq 2) by lra. rewrite <- bpow1. split.
  - apply Rle_trans with (bpow radix2 1 * / bpow radix2 1022).
    + rewrite <- bpow_opp, <- bpow_plus. apply bpow_le. lia.
    + apply Rmult_le_compat_l; [apply bpow_ge_0|]. apply Rinv_le_contravar; [exact Hw|exact H2].
  - apply Rle_trans with (bpow radix2 1 * / bpow radix2 (-1021)).
    + apply Rmult_le_compat_l; [apply bpow_ge_0|]. apply Rinv_le_contravar; [exact P1|exact H1].
    + rewrite <- bpow_opp, <- bpow_plus. apply bpow_le. lia.
Qed.

Lemma coef_ok x0 xf : ordw x0 xf -> fin (coef x0 xf) /\
  val (coef x0 xf) = rnd (2 / val (width x0 xf)) /\
  bpow radix2 (-1021) <= Rabs (val (coef x0 xf)) <= bpow radix2 1022.
Proof.
  intros H. destruct (width_ok x0 xf H) as (Fw & Vw & Bw).
  pose proof (quot_bounds _ Bw) as Bq.
  pose proof (abs_rnd_bounds (-1021) 1022 _ ltac:(lia) ltac:(lia) Bq) as Hb.
  assert (Hn : val (width x0 xf) <> 0).
  { intros E. rewrite E, Rabs_R0 in Bw. pose proof (bpow_gt_0 radix2 (-1021)). lra. }
  destruct two64 as [F2 V2].
  pose proof (Bdiv_correct 53 1024 _ _ mode_NE (osub F64 (o1 F64) (oopp F64 (o1 F64))) (width x0 xf) Hn) as C.
  unfold val in *. rewrite V2 in C. rewrite Rlt_bool_true in C.
  2:{ apply Rle_lt_trans with (bpow radix2 1022); [apply Hb|apply bpow_lt; reflexivity]. }
  destruct C as (C1 & C2 & _). unfold fin in *. rewrite F2 in C2.
  unfold coef. cbn [F64 odiv]. split; [exact C2|]. cbn [F64 osub oopp o1] in *. rewrite C1. split; [reflexivity|exact Hb].
Qed.

(** left end *)
Lemma zof_left x0 xf : ordw x0 xf -> isint (zof x0 xf x0) (-1).
Proof.
  intros H. destruct (coef_ok x0 xf H) as (Fc & _ & _). destruct H as (F0 & _ & _).
  assert (H0 : isint (osub F64 x0 x0) 0).
  { pose proof (Bminus_correct 53 1024 _ _ mode_NE x0 x0 F0 F0) as C.
    replace (B2R x0 - B2R x0) with (IZR 0) in C by (cbn; ring).
    rewrite Rlt_bool_true in C by (apply int_small; reflexivity).
    destruct C as (C1 & C2 & _). split; [exact C2|]. unfold val. cbn [F64 osub]. rewrite C1. apply rnd_int. reflexivity. }
  assert (H1 : isint (omul F64 (osub F64 x0 x0) (coef x0 xf)) 0).
  { destruct H0 as [Fd Vd].
    pose proof (Bmult_correct 53 1024 _ _ mode_NE (osub F64 x0 x0) (coef x0 xf)) as C.
    unfold val, fin in *. rewrite Vd in C.
    replace (0 * B2R (coef x0 xf)) with (IZR 0) in C by (cbn; ring).
    rewrite Rlt_bool_true in C by (apply int_small; reflexivity).
    destruct C as (C1 & C2 & _). rewrite Fd, Fc in C2. split; [exact C2|]. unfold val. cbn [F64 omul]. rewrite C1. apply rnd_int. reflexivity. }
  unfold zof. apply (isint_add _ _ 0 (-1)); [exact H1|apply (isint_opp _ 1), isint_one|reflexivity].
Qed.

(** range and monotonicity *)
Lemma rnd_tie : rnd (2 + bpow radix2 (-52)) = 2.
Proof.
  pose proof (binary_normalize_correct 53 1024 _ _ mode_NE (2 ^ 53 + 1) (-52) false) as H. cbv zeta in H.
  replace (F2R (Float radix2 (2 ^ 53 + 1) (-52))) with (2 + bpow radix2 (-52)) in H.
  2:{ unfold F2R. cbn [Fnum Fexp]. rewrite plus_IZR.
      change (IZR (2 ^ 53)) with (bpow radix2 53). rewrite Rmult_plus_distr_r, <- bpow_plus.
      change (53 + -52)%Z with 1%Z. rewrite bpow1. ring. }
  rewrite Rlt_bool_true in H.
  - destruct H as (H & _ & _). rewrite <- H.
    set (b := binary_normalize _ _ _ _ _ _ _ _).
    assert (E : B2SF b = B2SF (f64_int 2)) by (vm_compute; reflexivity).
    apply B2SF_inj in E. rewrite E. apply (f64_int_ok 2). reflexivity.
  - apply Rle_lt_trans with (bpow radix2 2); [|apply bpow_lt; reflexivity].
    apply abs_round_le_generic; [apply (fexp_correct 53 1024 _)|apply valid_rnd_N|apply gen_bpow; lia|].
    rewrite Rabs_pos_eq by (pose proof (bpow_ge_0 radix2 (-52)); lra).
    change (bpow radix2 2) with 4. assert (bpow radix2 (-52) <= bpow radix2 0) by (apply bpow_le; lia).
    change (bpow radix2 0) with 1 in *. lra.
Qed.

Lemma prod_bounds x0 xf : ordw x0 xf ->
  2 - bpow radix2 (-52) <= val (width x0 xf) * val (coef x0 xf) <= 2 + bpow radix2 (-52).
Proof.
  intros H. destruct (width_ok x0 xf H) as (Fw & _ & Bw). destruct (coef_ok x0 xf H) as (Fc & Vc & Bc).
  set (w := val (width x0 xf)) in *.
  pose proof (quot_bounds _ Bw) as Bq.
  assert (Hn : w <> 0). { intros E. rewrite E, Rabs_R0 in Bw. pose proof (bpow_gt_0 radix2 (-1021)). lra. }
  pose proof (relative_error_N_FLT radix2 (-1074) 53 ltac:(reflexivity) (fun z => negb (Z.even z)) (2 / w)) as R.
  change (bpow radix2 (-1074 + 53 - 1)) with (bpow radix2 (-1022)) in R.
  assert (Hlo : bpow radix2 (-1022) <= Rabs (2 / w)).
  { apply Rle_trans with (bpow radix2 (-1021)); [apply bpow_le; lia|apply Bq]. }
  specialize (R Hlo).
  change (round radix2 (FLT_exp (-1074) 53) (Znearest (fun z => negb (Z.even z))) (2 / w)) with (rnd (2 / w)) in R.
  rewrite <- Vc in R. set (c := val (coef x0 xf)) in *.
  assert (E : Rabs (w * c - 2) <= bpow radix2 (-52)).
  { replace (w * c - 2) with (w * (c - 2 / w)) by (field; exact Hn). rewrite Rabs_mult.
    apply Rle_trans with (Rabs w * (/ 2 * bpow radix2 (-53 + 1) * Rabs (2 / w))).
    - apply Rmult_le_compat_l; [apply Rabs_pos|exact R].
    - unfold Rdiv. rewrite Rabs_mult, Rabs_inv, (Rabs_pos_eq 2) by lra.
      apply Req_le. change (-53 + 1)%Z with (-52)%Z. field. apply Rabs_no_R0, Hn. }
  apply Rabs_le_inv in E. lra.
Qed.

Definition inside (x0 xf x : f64) : Prop := fin x /\ val x0 <= val x <= val xf.

Lemma rnd_range a b x : generic_format radix2 fexp64 a -> generic_format radix2 fexp64 b ->
  a <= x <= b -> a <= rnd x <= b.
Proof.
  intros Ha Hb [H1 H2]. split.
  - rewrite <- (rnd_gen a Ha). apply rnd_le, H1.
  - rewrite <- (rnd_gen b Hb). apply rnd_le, H2.
Qed.
Lemma gen_int p : (Z.abs p < 2 ^ 53)%Z -> generic_format radix2 fexp64 (IZR p).
Proof.
  intros H. rewrite <- (rnd_int p H). apply generic_format_round; [apply (fexp_correct 53 1024 _)|apply valid_rnd_N].
Qed.
Lemma small_lt x : Rabs x <= bpow radix2 1022 -> Rabs (rnd x) < bpow radix2 1024.
Proof.
  intros H. apply Rle_lt_trans with (bpow radix2 1022); [|apply bpow_lt; reflexivity].
  apply abs_round_le_generic; [apply (fexp_correct 53 1024 _)|apply valid_rnd_N|apply gen_bpow; lia|exact H].
Qed.
Lemma le_big x : Rabs x <= 4 -> Rabs x <= bpow radix2 1022.
Proof. intros H. apply Rle_trans with (1 := H). change 4 with (bpow radix2 2). apply bpow_le. lia. Qed.

Section Range.
Variables (x0 xf : f64).
Hypothesis Hw : ordw x0 xf.
Hypothesis Hlt : val x0 < val xf.

Lemma width_pos : 0 < val (width x0 xf).
Proof.
  destruct (width_ok x0 xf Hw) as (_ & Vw & Bw).
  assert (0 <= val (width x0 xf)) by (rewrite Vw, <- rnd_0; apply rnd_le; lra).
  assert (0 < Rabs (val (width x0 xf))) by (pose proof (bpow_gt_0 radix2 (-1021)); lra).
  rewrite Rabs_pos_eq in H0 by assumption. exact H0.
Qed.
Lemma coef_pos : 0 < val (coef x0 xf).
Proof.
  destruct (coef_ok x0 xf Hw) as (_ & Vc & Bc). pose proof width_pos as Hp.
  assert (0 <= val (coef x0 xf)).
  { rewrite Vc, <- rnd_0. apply rnd_le. apply Rlt_le, Rdiv_lt_0_compat; [lra|exact Hp]. }
  assert (0 < Rabs (val (coef x0 xf))) by (pose proof (bpow_gt_0 radix2 (-1021)); lra).
  rewrite Rabs_pos_eq in H0 by assumption. exact H0.
Qed.

Lemma dist_ok x : inside x0 xf x -> fin (osub F64 x x0) /\ val (osub F64 x x0) = rnd (val x - val x0)
  /\ 0 <= val (osub F64 x x0) <= val (width x0 xf).
Proof.
  intros (Fx & Hx1 & Hx2). destruct Hw as (F0 & Ff & Hb).
  assert (Hs : Rabs (val x - val x0) <= bpow radix2 1022).
  { rewrite Rabs_pos_eq by lra. rewrite Rabs_pos_eq in Hb by lra. lra. }
  pose proof (Bminus_correct 53 1024 _ _ mode_NE x x0 Fx F0) as C.
  rewrite Rlt_bool_true in C by (apply small_lt, Hs).
  destruct C as (C1 & C2 & _). destruct (width_ok x0 xf Hw) as (_ & Vw & _).
  unfold val in *. cbn [F64 osub]. split; [exact C2|]. rewrite C1. split; [reflexivity|].
  rewrite Vw. split; [rewrite <- rnd_0|]; apply rnd_le; lra.
Qed.

Definition prodf (x : f64) : f64 := omul F64 (osub F64 x x0) (coef x0 xf).
Lemma prod_ok x : inside x0 xf x -> fin (prodf x) /\
  val (prodf x) = rnd (val (osub F64 x x0) * val (coef x0 xf)) /\ 0 <= val (prodf x) <= 2.
Proof.
  intros H. destruct (dist_ok x H) as (Fd & _ & Hd). destruct (coef_ok x0 xf Hw) as (Fc & _ & _).
  pose proof coef_pos as Pc. pose proof (prod_bounds x0 xf Hw) as Pb.
  set (D := val (osub F64 x x0)) in *. set (c := val (coef x0 xf)) in *.
  assert (HDc : 0 <= D * c <= 2 + bpow radix2 (-52)).
  { split; [apply Rmult_le_pos; lra|]. apply Rle_trans with (val (width x0 xf) * c); [|lra].
    apply Rmult_le_compat_r; lra. }
  assert (Hr : 0 <= rnd (D * c) <= 2).
  { split; [rewrite <- rnd_0; apply rnd_le; lra|]. rewrite <- rnd_tie. apply rnd_le, HDc. }
  pose proof (Bmult_correct 53 1024 _ _ mode_NE (osub F64 x x0) (coef x0 xf)) as C.
  fold (val (osub F64 x x0)) in C. fold (val (coef x0 xf)) in C. fold D c in C.
  rewrite Rlt_bool_true in C.
  2:{ rewrite Rabs_pos_eq by lra. apply Rle_lt_trans with (bpow radix2 1); [rewrite bpow1; lra|].
      apply bpow_lt. reflexivity. }
  destruct C as (C1 & C2 & _). unfold fin in *. rewrite Fd, Fc in C2.
  unfold prodf. cbn [F64 omul]. split; [exact C2|]. unfold val at 1 2 3. rewrite C1. split; [reflexivity|exact Hr].
Qed.

Lemma zof_ok x : inside x0 xf x -> fin (zof x0 xf x) /\ val (zof x0 xf x) = rnd (val (prodf x) - 1) /\
  -1 <= val (zof x0 xf x) <= 1.
Proof.
  intros H. destruct (prod_ok x H) as (Fp & _ & Hp).
  destruct (isint_opp _ _ isint_one) as [Fo Vo].
  pose proof (Bplus_correct 53 1024 _ _ mode_NE (prodf x) (oopp F64 (o1 F64)) Fp Fo) as C.
  fold (val (prodf x)) in C. fold (val (oopp F64 (o1 F64))) in C. rewrite Vo in C.
  change (IZR (- (1))) with (-1) in C.
  replace (val (prodf x) + -1) with (val (prodf x) - 1) in C by ring.
  rewrite Rlt_bool_true in C.
  2:{ apply small_lt, le_big. apply Rabs_le; split; lra. }
  destruct C as (C1 & C2 & _). unfold zof. fold (prodf x). cbn [F64 oadd].
  split; [exact C2|]. unfold val at 1 3 4. rewrite C1. split; [reflexivity|].
  apply (rnd_range (IZR (-1)) (IZR 1)); [apply gen_int; reflexivity|apply gen_int; reflexivity|split; lra].
Qed.

Lemma zof_mono x y : inside x0 xf x -> inside x0 xf y -> val x <= val y ->
  val (zof x0 xf x) <= val (zof x0 xf y).
Proof.
  intros Hx Hy Hle.
  destruct (zof_ok x Hx) as (_ & Vx & _). destruct (zof_ok y Hy) as (_ & Vy & _).
  destruct (prod_ok x Hx) as (_ & Px & _). destruct (prod_ok y Hy) as (_ & Py & _).
  destruct (dist_ok x Hx) as (_ & Dx & _). destruct (dist_ok y Hy) as (_ & Dy & _).
  rewrite Vx, Vy. apply rnd_le. apply Rplus_le_compat_r. rewrite Px, Py. apply rnd_le.
  apply Rmult_le_compat_r; [apply Rlt_le, coef_pos|]. rewrite Dx, Dy. apply rnd_le. lra.
Qed.

(** right end: one unit in the last place below 1, or exactly 1 *)
Lemma gen_below2 : generic_format radix2 fexp64 (2 - bpow radix2 (-52)).
Proof.
  replace (2 - bpow radix2 (-52)) with (F2R (Float radix2 (2 ^ 53 - 1) (-52))).
  2:{ unfold F2R. cbn [Fnum Fexp]. rewrite minus_IZR. change (IZR (2 ^ 53)) with (bpow radix2 53).
      rewrite Rmult_minus_distr_r, <- bpow_plus. change (53 + -52)%Z with 1%Z. rewrite bpow1. ring. }
  apply (generic_format_FLT radix2 (-1074) 53). exists (Float radix2 (2 ^ 53 - 1) (-52)); [reflexivity|reflexivity|].
  cbn. lia.
Qed.
Lemma gen_below1 : generic_format radix2 fexp64 (1 - bpow radix2 (-52)).
Proof.
  replace (1 - bpow radix2 (-52)) with (F2R (Float radix2 (2 ^ 52 - 1) (-52))).
  2:{ unfold F2R. cbn [Fnum Fexp]. rewrite minus_IZR. change (IZR (2 ^ 52)) with (bpow radix2 52).
      rewrite Rmult_minus_distr_r, <- bpow_plus. change (52 + -52)%Z with 0%Z. change (bpow radix2 0) with 1. ring. }
  apply (generic_format_FLT radix2 (-1074) 53). exists (Float radix2 (2 ^ 52 - 1) (-52)); [reflexivity|reflexivity|].
  cbn. lia.
Qed.
(** no float lies strictly between [2 - 2^-52] and [2] *)
Lemma no_between y : generic_format radix2 fexp64 y -> 2 - bpow radix2 (-52) <= y <= 2 ->
  y = 2 - bpow radix2 (-52) \/ y = 2.
Proof.
  intros Hy [H1 H2].
  destruct (Req_dec y 2) as [E|E]; [right; exact E|left].
  assert (Hp : 0 < bpow radix2 (-52)) by apply bpow_gt_0.
  assert (Hh : bpow radix2 (-52) <= bpow radix2 0) by (apply bpow_le; lia). change (bpow radix2 0) with 1 in Hh.
  assert (Hm : mag radix2 y = 1%Z :> Z).
  { apply mag_unique_pos. change (bpow radix2 (1 - 1)) with 1. change (bpow radix2 1) with 2. lra. }
  apply Rle_antisym; [|exact H1].
  unfold generic_format, F2R, cexp in Hy. rewrite Hm in Hy. cbn [Fnum Fexp] in Hy.
  change (fexp64 1) with (-52)%Z in Hy. set (n := Ztrunc _) in Hy.
  assert (Hn : (n < 2 ^ 53)%Z).
  { apply lt_IZR. change (IZR (2 ^ 53)) with (bpow radix2 53).
    apply Rmult_lt_reg_r with (bpow radix2 (-52)); [exact Hp|]. rewrite <- Hy, <- bpow_plus.
    change (53 + -52)%Z with 1%Z. rewrite bpow1. lra. }
  rewrite Hy. apply Rle_trans with (IZR (2 ^ 53 - 1) * bpow radix2 (-52)).
  - apply Rmult_le_compat_r; [lra|]. apply IZR_le. lia.
  - rewrite minus_IZR. change (IZR (2 ^ 53)) with (bpow radix2 53).
    rewrite Rmult_minus_distr_r, <- bpow_plus. change (53 + -52)%Z with 1%Z. rewrite bpow1. lra.
Qed.

Lemma zof_right : fin (zof x0 xf xf) /\ (val (zof x0 xf xf) = 1 \/ val (zof x0 xf xf) = 1 - bpow radix2 (-52)).
Proof.
  assert (Hin : inside x0 xf xf). { split; [apply Hw|lra]. }
  destruct (zof_ok xf Hin) as (Fz & Vz & _). split; [exact Fz|].
  destruct (prod_ok xf Hin) as (_ & Vp & Hp). fold (width x0 xf) in Vp.
  pose proof (prod_bounds x0 xf Hw) as Pb.
  assert (Hg : generic_format radix2 fexp64 (val (prodf xf))) by apply gen_val.
  assert (Hlo : 2 - bpow radix2 (-52) <= val (prodf xf)).
  { rewrite Vp, <- (rnd_gen _ gen_below2). apply rnd_le, Pb. }
  destruct (no_between _ Hg (conj Hlo (proj2 Hp))) as [E|E]; rewrite Vz, E.
  - right. replace (2 - bpow radix2 (-52) - 1) with (1 - bpow radix2 (-52)) by ring. apply rnd_gen, gen_below1.
  - left. replace (2 - 1) with (IZR 1) by (cbn; ring). apply rnd_int. reflexivity.
Qed.
End Range.

(** ** values of the columns *)
Definition sgn (k : nat) : Z := if Nat.even k then 1%Z else (-1)%Z.
Lemma sgn_S k : sgn (S k) = (- sgn k)%Z.
Proof. unfold sgn. rewrite Nat.even_succ, <- Nat.negb_even. destruct (Nat.even k); reflexivity. Qed.
Lemma sgn_abs k : Z.abs (sgn k) = 1%Z. Proof. unfold sgn. destruct (Nat.even k); reflexivity. Qed.

Lemma left_col f z k : f = CP \/ f = LeP -> isint z (-1) -> (Z.of_nat k < 2 ^ 51)%Z ->
  isint (gt F64 f z 0 k) (sgn k).
Proof.
  intros Hf Hz Hk.
  assert (H : isint (gt F64 f z 0 k) (sgn k) /\ ((Z.of_nat (S k) < 2 ^ 51)%Z -> isint (gt F64 f z 0 (S k)) (sgn (S k)))).
  { induction k as [|k IH].
    - split; [apply isint_one|]. intros _. change (isint (fv F64 f z) (-1)). destruct Hf as [-> | ->]; exact Hz.
    - destruct IH as [H0 H1]; [lia|]. specialize (H1 Hk). split; [exact H1|]. intros Hk2.
      replace (S (S k)) with (S k + 1)%nat by lia. rewrite gt_step0 by lia.
      replace (S k - 1)%nat with k by lia. replace (S k + 1)%nat with (S (S k)) by lia.
      rewrite sgn_S in *. pose proof (sgn_abs k) as Ha. rewrite sgn_S.
      set (s := sgn k) in *. assert (Hs : s = 1%Z \/ s = (-1)%Z) by lia.
      destruct Hf as [-> | ->]; cbn [s0].
      + replace (- - s)%Z with (2 * -1 * - s - s)%Z by lia.
        apply isint_sub; [|exact H0|lia].
        apply isint_mul; [apply isint_mul; [apply (isint_nat 2); reflexivity|exact Hz|reflexivity]|exact H1|lia].
      + set (n := S k) in *.
        assert (Hn : isint (onat F64 n) (Z.of_nat n)) by (apply isint_nat; lia).
        assert (Hn1 : isint (oadd F64 (onat F64 n) (o1 F64)) (Z.of_nat n + 1))
          by (apply isint_add; [exact Hn|apply isint_one|lia]).
        assert (H2n : isint (oadd F64 (omul F64 (onat F64 2) (onat F64 n)) (o1 F64)) (2 * Z.of_nat n + 1)).
        { apply isint_add; [|apply isint_one|lia]. apply isint_mul; [apply (isint_nat 2); reflexivity|exact Hn|lia]. }
        apply (isint_div _ _ ((2 * Z.of_nat n + 1) * -1 * - s - Z.of_nat n * s) (Z.of_nat n + 1)).
        * apply isint_sub; [| |destruct Hs as [-> | ->]; lia].
          -- apply isint_mul; [apply isint_mul; [exact H2n|exact Hz|lia]|exact H1|destruct Hs as [-> | ->]; lia].
          -- apply isint_mul; [exact Hn|exact H0|destruct Hs as [-> | ->]; lia].
        * exact Hn1.
        * lia.
        * destruct Hs as [-> | ->]; lia.
        * lia. }
  apply H.
Qed.

Lemma mul_one x : fin x -> fin (omul F64 x (o1 F64)) /\ val (omul F64 x (o1 F64)) = val x.
Proof.
  intros Fx. destruct isint_one as [F1 V1].
  pose proof (Bmult_correct 53 1024 _ _ mode_NE x (o1 F64)) as C.
  fold (val x) in C. fold (val (o1 F64)) in C. rewrite V1 in C.
  replace (val x * 1) with (val x) in C by ring.
  rewrite (rnd_gen _ (gen_val x)) in C.
  rewrite Rlt_bool_true in C by (apply abs_B2R_lt_emax).
  destruct C as (C1 & C2 & _). unfold fin in *. rewrite Fx, F1 in C2. cbn [F64 omul]. split; [exact C2|exact C1].
Qed.

(** ** reading the matrices *)
Lemma fam_m E f x0 xf nC m : b_m (fam_init F64 E f x0 xf nC m) = m.
Proof. destruct f; reflexivity. Qed.
Lemma fam_nC E f x0 xf nC m : b_nC (fam_init F64 E f x0 xf nC m) = nC.
Proof. destruct f; reflexivity. Qed.

Lemma H64_mat be E f x0 xf nC m xs d full : (1 <= m)%nat -> valid_nC nC m -> (Z.of_nat d < 2 ^ 51)%Z ->
  H64 be E f x0 xf nC m xs d full =
    Some (gmat F64 E (fam_init F64 E f x0 xf nC m) f (if full then seq 0 m else keptc nC m) xs d).
Proof.
  intros Hm Hv Hd. pose proof (fam_m E f x0 xf nC m) as E1. pose proof (fam_nC E f x0 xf nC m) as E2.
  unfold H64. set (B := fam_init _ _ _ _ _ _ _) in *. rewrite <- E1 in Hm. rewrite <- E1, <- E2 in Hv.
  destruct be.
  - rewrite gpy_H by (try assumption; apply small_ints64, Hd). rewrite E1, E2. reflexivity.
  - rewrite gcpp_H by assumption. rewrite E1, E2. reflexivity.
Qed.

Lemma gmat_ent E B f keep xs d j i : ment (gmat F64 E B f keep xs d) j i =
  match nth_error xs j with
  | Some x => match nth_error keep i with
              | Some k => Some (omul F64 (gcol F64 E f k d (zmap F64 B x)) (opow F64 (b_c B) d))
              | None => None end
  | None => None end.
Proof.
  unfold ment, gmat. cbn [md]. rewrite nth_error_map.
  destruct (nth_error xs j) as [x|]; cbn [option_map]; [|reflexivity].
  rewrite nth_error_map. destruct (nth_error keep i); reflexivity.
Qed.
Lemma nth_error_seq n k : nth_error (seq 0 n) k = if (k <? n)%nat then Some k else None.
Proof.
  destruct (Nat.ltb_spec k n) as [H|H].
  - rewrite (nth_error_nth' _ 0%nat) by (rewrite seq_length; exact H). rewrite seq_nth by exact H. reflexivity.
  - apply nth_error_None. rewrite seq_length. exact H.
Qed.

Lemma removed64 be E f x0 xf nC m xs d : (1 <= m)%nat -> valid_nC nC m -> (Z.of_nat d < 2 ^ 51)%Z ->
  exists M Mc, H64 be E f x0 xf nC m xs d true = Some M /\ H64 be E f x0 xf nC m xs d false = Some Mc /\
    columns_removed m nC M Mc.
Proof.
  intros Hm Hv Hd. eexists; eexists. split; [apply H64_mat; assumption|]. split; [apply H64_mat; assumption|].
  exists (keptc nC m). split; [apply keptc_sorted|]. split; [apply keptc_in|]. split.
  - repeat split; cbn [gmat mr mc md]; [apply map_length|].
    intros row Hr. apply in_map_iff in Hr as (x & <- & _). apply map_length.
  - intros j i. rewrite gmat_ent. destruct (nth_error (keptc nC m) i) as [k|] eqn:Ek.
    + rewrite gmat_ent, nth_error_seq. apply nth_error_In, keptc_in in Ek as [Hk _].
      destruct (Nat.ltb_spec k m); [reflexivity|lia].
    + destruct (nth_error xs j); reflexivity.
Qed.

Lemma entry64_ment M j k v : ment M j k = Some v -> fin v -> entry64 M j k = Some (val v).
Proof.
  unfold ment, entry64. destruct (nth_error (md M) j) as [row|]; [|discriminate].
  intros -> Fv. rewrite Fv. reflexivity.
Qed.

Lemma full_entry be E f x0 xf nC m xs : (1 <= m)%nat -> valid_nC nC m -> f = CP \/ f = LeP ->
  exists M, H64 be E f x0 xf nC m xs 0 true = Some M /\
  forall j k x, nth_error xs j = Some x -> (k < m)%nat -> fin (gt F64 f (zof x0 xf x) 0 k) ->
    entry64 M j k = Some (val (gt F64 f (zof x0 xf x) 0 k)).
Proof.
  intros Hm Hv Hf. eexists. split; [apply H64_mat; [exact Hm|exact Hv|reflexivity]|].
  intros j k x Hj Hk Fk.
  assert (E1 : ment (gmat F64 E (fam_init F64 E f x0 xf nC m) f (seq 0 m) xs 0) j k =
    Some (omul F64 (gt F64 f (zof x0 xf x) 0 k) (o1 F64))).
  { rewrite gmat_ent, Hj, nth_error_seq. destruct (Nat.ltb_spec k m); [|lia].
    destruct Hf as [-> | ->]; reflexivity. }
  destruct (mul_one _ Fk) as [F1 V1].
  rewrite (entry64_ment _ _ _ _ E1 F1), V1. reflexivity.
Qed.

Lemma valid_nil m : valid_nC [] m.
Proof. split; [constructor|]. intros i []. Qed.

Lemma col1 f z : f = CP \/ f = LeP -> gt F64 f z 0 1 = z.
Proof. intros [-> | ->]; reflexivity. Qed.
