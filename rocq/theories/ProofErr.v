(** Forward error of the Chebyshev and Legendre recurrences in binary64. *)
From Coq Require Import ZArith Reals Lia Lra List Arith Bool.
From Flocq Require Import Core BinarySingleNaN Relative Plus_error Mult_error.
From Verif Require Import Base Numbers Numbers64 ModelBFPy ModelBFCpp SpecBasis SpecBits ProofH ProofBits ProofBits64.
Import ListNotations.
Open Scope R_scope.

(** ** two-term recurrences that do not increase an energy *)
Section Energy.
Variable z : R.
Hypothesis Hz : -1 <= z <= 1.
Definition en (x y : R) : R := x * x - 2 * z * x * y + y * y.
Definition nrm (x y : R) : R := sqrt (en x y).
Lemma en_sq x y : en x y = (x - z * y) * (x - z * y) + (1 - z * z) * (y * y).
Proof. unfold en. ring. Qed.
Lemma z2 : 0 <= 1 - z * z. Proof. nra. Qed.
Lemma en_pos x y : 0 <= en x y.
Proof. rewrite en_sq. pose proof z2. pose proof (Rle_0_sqr (x - z * y)). pose proof (Rle_0_sqr y). unfold Rsqr in *. nra. Qed.
Lemma nrm_pos x y : 0 <= nrm x y. Proof. apply sqrt_pos. Qed.
Lemma nrm_sq x y : nrm x y * nrm x y = en x y. Proof. apply sqrt_sqrt, en_pos. Qed.
Lemma nrm_ge x y : Rabs (x - z * y) <= nrm x y.
Proof.
  unfold nrm. rewrite <- sqrt_Rsqr_abs. apply sqrt_le_1_alt. rewrite en_sq. unfold Rsqr.
  pose proof z2. pose proof (Rle_0_sqr y). unfold Rsqr in *. nra.
Qed.
Lemma nrm_tri x y d : nrm (x + d) y <= nrm x y + Rabs d.
Proof.
  pose proof (nrm_pos x y) as Hp. pose proof (Rabs_pos d) as Hd.
  apply Rsqr_incr_0_var; [|lra]. unfold Rsqr. rewrite nrm_sq.
  assert (E : (nrm x y + Rabs d) * (nrm x y + Rabs d) = en x y + 2 * (nrm x y * Rabs d) + d * d).
  { rewrite <- (nrm_sq x y). replace (d * d) with (Rabs d * Rabs d); [ring|].
    rewrite <- Rabs_mult. apply Rabs_pos_eq. apply (Rle_0_sqr d). }
  rewrite E. unfold en.
  assert (H : (x - z * y) * d <= nrm x y * Rabs d).
  { apply Rle_trans with (Rabs ((x - z * y) * d)); [apply Rle_abs|]. rewrite Rabs_mult.
    apply Rmult_le_compat_r; [exact Hd|apply nrm_ge]. }
  lra.
Qed.

(** errors: each step does not increase the energy and adds at most [D] *)
Lemma propagate (step : nat -> R -> R -> R) (e : nat -> R) (eta D : R) n :
  (forall k x y, nrm (step k x y) x <= nrm x y) ->
  e 0%nat = 0 -> Rabs (e 1%nat) <= eta ->
  (forall k, (k < n)%nat -> Rabs (e (S (S k)) - step (S k) (e (S k)) (e k)) <= D) ->
  forall k, (k <= S n)%nat -> Rabs (e k) <= INR k * eta + D * (INR k * (INR k - 1) / 2).
Proof.
  intros Hst E0 E1 HD.
  assert (Hn : forall k, (k <= n)%nat -> nrm (e (S k)) (e k) <= eta + INR k * D).
  { induction k as [|k IH]; intros Hk.
    - rewrite E0. cbn [INR]. rewrite Rmult_0_l, Rplus_0_r. apply Rle_trans with (2 := E1).
      unfold nrm, en. replace (e 1%nat * e 1%nat - 2 * z * e 1%nat * 0 + 0 * 0) with (Rsqr (e 1%nat)) by (unfold Rsqr; ring).
      rewrite sqrt_Rsqr_abs. apply Rle_refl.
    - specialize (IH ltac:(lia)). specialize (HD k ltac:(lia)).
      replace (e (S (S k))) with (step (S k) (e (S k)) (e k) + (e (S (S k)) - step (S k) (e (S k)) (e k))) by ring.
      apply Rle_trans with (1 := nrm_tri _ _ _). pose proof (Hst (S k) (e (S k)) (e k)) as Hs.
      rewrite S_INR. lra. }
  induction k as [|k IH]; intros Hk.
  - rewrite E0, Rabs_R0. cbn [INR]. lra.
  - specialize (IH ltac:(lia)). specialize (Hn k ltac:(lia)).
    pose proof (nrm_ge (e (S k)) (e k)) as Hg.
    assert (H1 : Rabs (e (S k)) <= Rabs (e k) + nrm (e (S k)) (e k)).
    { replace (e (S k)) with (z * e k + (e (S k) - z * e k)) at 1 by ring.
      apply Rle_trans with (1 := Rabs_triang _ _). apply Rplus_le_compat; [|exact Hg].
      rewrite Rabs_mult. rewrite <- (Rmult_1_l (Rabs (e k))) at 2. apply Rmult_le_compat_r; [apply Rabs_pos|].
      apply Rabs_le. exact Hz. }
    rewrite S_INR. lra.
Qed.

(** without forcing, the energy bounds the values inside (-1, 1) *)
Lemma decreasing (step : nat -> R -> R -> R) (p : nat -> R) :
  (forall k x y, nrm (step k x y) x <= nrm x y) -> p 0%nat = 1 -> p 1%nat = z ->
  (forall k, p (S (S k)) = step (S k) (p (S k)) (p k)) -> -1 < z < 1 -> forall k, Rabs (p k) <= 1.
Proof.
  intros Hst P0 P1 HS Hzz.
  assert (Hn : forall k, nrm (p (S k)) (p k) <= nrm (p 1%nat) (p 0%nat)).
  { induction k as [|k IH]; [apply Rle_refl|]. rewrite HS. apply Rle_trans with (1 := Hst _ _ _). exact IH. }
  intros k. specialize (Hn k).
  assert (He : en (p (S k)) (p k) <= en (p 1%nat) (p 0%nat)).
  { rewrite <- !nrm_sq. apply Rmult_le_compat; try apply nrm_pos; exact Hn. }
  rewrite en_sq in He. rewrite P0, P1 in He. unfold en in He.
  pose proof (Rle_0_sqr (p (S k) - z * p k)) as Hs. unfold Rsqr in Hs.
  assert (H1 : (1 - z * z) * (p k * p k) <= (1 - z * z) * 1) by lra.
  apply Rmult_le_reg_l in H1; [|nra].
  apply Rsqr_incr_0_var; [|lra]. unfold Rsqr. rewrite <- Rabs_mult, Rabs_pos_eq by apply (Rle_0_sqr (p k)). lra.
Qed.

Lemma cp_energy x y : nrm (2 * z * x - y) x <= nrm x y.
Proof. apply Req_le. unfold nrm. f_equal. unfold en. ring. Qed.
Lemma lep_energy K x y : 0 <= K -> nrm (((2 * K + 1) * z * x - K * y) / (K + 1)) x <= nrm x y.
Proof.
  intros HK. unfold nrm. apply sqrt_le_1_alt.
  set (w := ((2 * K + 1) * z * x - K * y) / (K + 1)).
  assert (Ew : (K + 1) * (w - z * x) = K * (z * x - y)) by (unfold w; field; lra).
  assert (E2 : en w x = (w - z * x) * (w - z * x) + (1 - z * z) * (x * x)) by apply en_sq.
  assert (E3 : en x y = (z * x - y) * (z * x - y) + (1 - z * z) * (x * x)) by (unfold en; ring).
  rewrite E2, E3. apply Rplus_le_compat_r.
  assert (E4 : w - z * x = K / (K + 1) * (z * x - y)).
  { apply Rmult_eq_reg_l with (K + 1); [|lra]. rewrite Ew. field. lra. }
  rewrite E4. set (r := K / (K + 1)). set (t := z * x - y).
  assert (Hr : 0 <= r <= 1).
  { unfold r. split; [apply Rmult_le_pos; [exact HK|apply Rlt_le, Rinv_0_lt_compat; lra]|].
    apply Rmult_le_reg_r with (K + 1); [lra|]. unfold Rdiv. rewrite Rmult_assoc, Rinv_l by lra. lra. }
  replace (r * t * (r * t)) with (r * r * (t * t)) by ring. rewrite <- (Rmult_1_l (t * t)) at 2.
  apply Rmult_le_compat_r; [apply (Rle_0_sqr t)|]. nra.
Qed.
End Energy.

(** ** the exact functions *)
Notation pR f z k := (gt ROps f z 0 k).
Lemma pR_0 f z : pR f z 0%nat = 1. Proof. reflexivity. Qed.
Lemma pR_1 f z : f = CP \/ f = LeP -> pR f z 1%nat = z. Proof. intros [-> | ->]; reflexivity. Qed.
Lemma pR_SS f z k : pR f z (S (S k)) = s0 ROps f z (S k) (pR f z (S k)) (pR f z k). Proof. reflexivity. Qed.
Lemma s0_cp z k a b : s0 ROps CP z k a b = 2 * z * a - b.
Proof. cbn [s0 ROps omul osub onat]. change (INR 2) with 2. reflexivity. Qed.
Lemma s0_lep z k a b : s0 ROps LeP z k a b = ((2 * INR k + 1) * z * a - INR k * b) / (INR k + 1).
Proof. cbn [s0 ROps omul osub oadd odiv onat o1]. change (INR 2) with 2. reflexivity. Qed.

Lemma s0_energy f z k x y : f = CP \/ f = LeP -> -1 <= z <= 1 -> nrm z (s0 ROps f z k x y) x <= nrm z x y.
Proof.
  intros [-> | ->] Hz; [rewrite s0_cp; apply cp_energy|rewrite s0_lep; apply lep_energy]; try exact Hz. apply pos_INR.
Qed.
Lemma s0_lin f z k x y x' y' : f = CP \/ f = LeP ->
  s0 ROps f z k (x - x') (y - y') = s0 ROps f z k x y - s0 ROps f z k x' y'.
Proof.
  intros [-> | ->]; [rewrite !s0_cp; ring|]. rewrite !s0_lep. field. pose proof (pos_INR k). lra.
Qed.
Lemma s0_dz f z z' k x y : f = CP \/ f = LeP -> Rabs x <= 1 ->
  Rabs (s0 ROps f z k x y - s0 ROps f z' k x y) <= 2 * Rabs (z - z').
Proof.
  intros Hf Hx. pose proof (Rabs_pos (z - z')) as Hp.
  assert (H : exists r, 0 <= r <= 2 /\ s0 ROps f z k x y - s0 ROps f z' k x y = r * (z - z') * x).
  { destruct Hf as [-> | ->].
    - exists 2. split; [lra|]. rewrite !s0_cp. ring.
    - exists ((2 * INR k + 1) / (INR k + 1)). pose proof (pos_INR k) as Hk. split.
      + split; [apply Rmult_le_pos; [lra|apply Rlt_le, Rinv_0_lt_compat; lra]|].
        apply Rmult_le_reg_r with (INR k + 1); [lra|]. unfold Rdiv. rewrite Rmult_assoc, Rinv_l by lra. lra.
      + rewrite !s0_lep. field. lra. }
  destruct H as (r & Hr & ->). rewrite !Rabs_mult, (Rabs_pos_eq r) by lra.
  apply Rle_trans with (2 * Rabs (z - z') * 1); [|lra].
  apply Rmult_le_compat; try apply Rabs_pos; [apply Rmult_le_pos; lra| |exact Hx].
  apply Rmult_le_compat_r; lra.
Qed.

Lemma pR_ends f k : f = CP \/ f = LeP -> pR f 1 k = 1 /\ pR f (-1) k = (-1) ^ k.
Proof.
  intros Hf.
  assert (H : (pR f 1 k = 1 /\ pR f (-1) k = (-1) ^ k) /\ (pR f 1 (S k) = 1 /\ pR f (-1) (S k) = (-1) ^ (S k))).
  { induction k as [|k [IH1 IH2]].
    - rewrite !pR_0, !pR_1 by exact Hf. cbn. lra.
    - split; [exact IH2|]. rewrite !pR_SS. destruct IH1 as [-> ->], IH2 as [-> ->].
      destruct Hf as [-> | ->]; rewrite ?s0_cp, ?s0_lep; cbn [pow]; (split; [|]); try ring; field; pose proof (pos_INR (S k)); lra. }
  apply H.
Qed.
Lemma pow_m1_abs k : Rabs ((-1) ^ k) = 1.
Proof. rewrite <- RPow_abs, Rabs_left by lra. replace (- -1) with 1 by ring. apply pow1. Qed.

Lemma pR_bound f z k : f = CP \/ f = LeP -> -1 <= z <= 1 -> Rabs (pR f z k) <= 1.
Proof.
  intros Hf Hz. destruct (Req_dec z 1) as [->|H1].
  - rewrite (proj1 (pR_ends f k Hf)), Rabs_R1. lra.
  - destruct (Req_dec z (-1)) as [->|H2].
    + rewrite (proj2 (pR_ends f k Hf)), pow_m1_abs. lra.
    + apply (decreasing z Hz (s0 ROps f z) (fun k => pR f z k)); [|reflexivity|apply pR_1, Hf| |lra].
      * intros. apply s0_energy; assumption.
      * intros. apply pR_SS.
Qed.

(** ** one operation *)
Definition u : R := bpow radix2 (-53).
Lemma u_pos : 0 < u. Proof. apply bpow_gt_0. Qed.
Lemma u_small : u <= 1 / 1000000.
Proof.
  unfold u. apply Rle_trans with (bpow radix2 (-20)); [apply bpow_le; lia|].
  change (bpow radix2 (-20)) with (/ IZR (2 ^ 20)). cbn. lra.
Qed.
Lemma half_ulp : / 2 * bpow radix2 (-53 + 1) = u.
Proof. change (-53 + 1)%Z with (1 + -53)%Z. rewrite bpow_plus, bpow1. unfold u. field. Qed.
Lemma rnd_err x B : Rabs x <= B -> 1 <= B -> Rabs (rnd x - x) <= u * B.
Proof.
  intros Hx HB. pose proof u_pos as Hu.
  destruct (error_N_FLT radix2 (-1074) 53 ltac:(reflexivity) (fun z => negb (Z.even z)) x) as (eps & eta & He & Ht & H0 & Hr).
  change (rnd x = x * (1 + eps) + eta) in Hr. rewrite Hr. change (Rabs eps <= / 2 * bpow radix2 (-53 + 1)) in He. rewrite half_ulp in He.
  replace (x * (1 + eps) + eta - x) with (x * eps + eta) by ring.
  destruct (Rmult_integral _ _ H0) as [-> | ->].
  - rewrite Rmult_0_r, Rplus_0_l. apply Rle_trans with (1 := Ht). apply Rle_trans with (u * 1); [|apply Rmult_le_compat_l; lra].
    rewrite Rmult_1_r. unfold u. apply Rle_trans with (bpow radix2 (-1074)); [pose proof (bpow_ge_0 radix2 (-1074)); lra|].
    apply bpow_le. lia.
  - rewrite Rplus_0_r, Rabs_mult, Rmult_comm. apply Rmult_le_compat; try apply Rabs_pos; assumption.
Qed.
Lemma big_ok x : Rabs x <= IZR (2 ^ 60) -> Rabs x <= bpow radix2 1022.
Proof. intros H. apply Rle_trans with (1 := H). change (IZR (2 ^ 60)) with (bpow radix2 60). apply bpow_le. lia. Qed.

Section Op.
Variables (x y : f64).
Hypothesis (Fx : fin x) (Fy : fin y).
Lemma mul_ok : Rabs (val x * val y) <= IZR (2 ^ 60) -> fin (omul F64 x y) /\ val (omul F64 x y) = rnd (val x * val y).
Proof.
  intros H. pose proof (Bmult_correct 53 1024 _ _ mode_NE x y) as C. unfold val, fin in *. cbn [F64 omul].
  rewrite Rlt_bool_true in C by (apply small_lt, big_ok, H). destruct C as (C1 & C2 & _). rewrite Fx, Fy in C2. split; assumption.
Qed.
Lemma sub_ok : Rabs (val x - val y) <= IZR (2 ^ 60) -> fin (osub F64 x y) /\ val (osub F64 x y) = rnd (val x - val y).
Proof.
  intros H. pose proof (Bminus_correct 53 1024 _ _ mode_NE x y Fx Fy) as C. unfold val, fin in *. cbn [F64 osub].
  rewrite Rlt_bool_true in C by (apply small_lt, big_ok, H). destruct C as (C1 & C2 & _). split; assumption.
Qed.
Lemma div_ok : val y <> 0 -> Rabs (val x / val y) <= IZR (2 ^ 60) -> fin (odiv F64 x y) /\ val (odiv F64 x y) = rnd (val x / val y).
Proof.
  intros Hy H. pose proof (Bdiv_correct 53 1024 _ _ mode_NE x y Hy) as C. unfold val, fin in *. cbn [F64 odiv].
  rewrite Rlt_bool_true in C by (apply small_lt, big_ok, H). destruct C as (C1 & C2 & _). rewrite Fx in C2. split; assumption.
Qed.
End Op.

Lemma rng_mul a b p q : - p <= a <= p -> - q <= b <= q -> - (p * q) <= a * b <= p * q.
Proof.
  intros Ha Hb. apply Rabs_le_inv. rewrite Rabs_mult. apply Rmult_le_compat; try apply Rabs_pos; apply Rabs_le; assumption.
Qed.
Ltac mono := apply Rabs_le; split; lra.
(** a rounded value and its error, from a range of the exact one *)
Lemma rnd_rng x B : - B <= x <= B -> 1 <= B -> - (u * B) <= rnd x - x <= u * B.
Proof. intros H HB. apply Rabs_le_inv, rnd_err; [apply Rabs_le, H|exact HB]. Qed.
Definition C60 : R := IZR (2 ^ 60).
Lemma c60 : 1000000000000 <= C60. Proof. unfold C60. apply IZR_le. lia. Qed.

(** one step of the recurrence: error at most 15 u *)
Lemma cp_step z a b k : fin z -> fin a -> fin b -> -1 <= val z <= 1 -> - (4/3) <= val a <= 4/3 -> - (4/3) <= val b <= 4/3 ->
  fin (s0 F64 CP z k a b) /\ Rabs (val (s0 F64 CP z k a b) - s0 ROps CP (val z) k (val a) (val b)) <= 15 * u.
Proof.
  intros Fz Fa Fb Hz Ha Hb. pose proof u_pos as Hu. pose proof u_small as Hs. pose proof c60 as H6. unfold C60 in H6.
  rewrite s0_cp. cbn [s0].
  destruct (isint_nat 2 eq_refl) as [F2 V2]. change (IZR (Z.of_nat 2)) with 2 in V2.
  destruct (mul_ok (onat F64 2) z F2 Fz) as [F1 V1]; [rewrite V2; mono|]. rewrite V2 in V1.
  assert (E1 : rnd (2 * val z) = 2 * val z).
  { apply rnd_gen. rewrite Rmult_comm. change 2 with (bpow radix2 1).
    apply (mult_bpow_pos_exact_FLT radix2 (-1074) 53); [apply gen_val|lia]. }
  rewrite E1 in V1. clear E1.
  pose proof (rng_mul (2 * val z) (val a) 2 (4/3) ltac:(lra) Ha) as R2.
  destruct (mul_ok _ a F1 Fa) as [F3 V3]; [rewrite V1; mono|]. rewrite V1 in V3.
  pose proof (rnd_rng (2 * val z * val a) (8/3) ltac:(lra) ltac:(lra)) as E3. rewrite <- V3 in E3.
  set (p := omul F64 (omul F64 (onat F64 2) z) a) in *.
  destruct (sub_ok p b F3 Fb) as [F4 V4]; [mono|]. split; [exact F4|].
  pose proof (rnd_rng (val p - val b) 5 ltac:(lra) ltac:(lra)) as E4. rewrite <- V4 in E4. mono.
Qed.

Lemma lep_step z a b k : (1 <= k)%nat -> (Z.of_nat k <= 2 ^ 23)%Z ->
  fin z -> fin a -> fin b -> -1 <= val z <= 1 -> - (4/3) <= val a <= 4/3 -> - (4/3) <= val b <= 4/3 ->
  fin (s0 F64 LeP z k a b) /\ Rabs (val (s0 F64 LeP z k a b) - s0 ROps LeP (val z) k (val a) (val b)) <= 15 * u.
Proof.
  intros Hk1 Hk2 Fz Fa Fb Hz Ha Hb. pose proof u_pos as Hu. pose proof u_small as Hs. pose proof c60 as H6. unfold C60 in H6.
  rewrite s0_lep. cbn [s0].
  destruct (isint_nat 2 eq_refl) as [F2 V2]. change (IZR (Z.of_nat 2)) with 2 in V2.
  destruct (isint_nat k ltac:(lia)) as [Fk Vk]. rewrite <- INR_IZR_INZ in Vk.
  assert (HK : 1 <= INR k <= 8388608).
  { split; [apply (le_INR 1); exact Hk1|]. rewrite INR_IZR_INZ. apply IZR_le. exact Hk2. }
  assert (Hn : isint (oadd F64 (omul F64 (onat F64 2) (onat F64 k)) (o1 F64)) (2 * Z.of_nat k + 1)).
  { apply isint_add; [apply (isint_mul _ _ 2); [apply isint_nat; reflexivity|apply isint_nat; lia|lia]|apply isint_one|lia]. }
  assert (Hn1 : isint (oadd F64 (onat F64 k) (o1 F64)) (Z.of_nat k + 1)).
  { apply isint_add; [apply isint_nat; lia|apply isint_one|lia]. }
  destruct Hn as [Fn Vn]. rewrite plus_IZR, mult_IZR, <- INR_IZR_INZ in Vn.
  destruct Hn1 as [Fn1 Vn1]. rewrite plus_IZR, <- INR_IZR_INZ in Vn1.
  set (K := INR k) in *. set (n := oadd F64 _ (o1 F64)) in Fn, Vn |- *. set (n1 := oadd F64 (onat F64 k) _) in *.
  pose proof (rng_mul (val n) (val z) (2 * K + 1) 1 ltac:(lra) Hz) as R1.
  destruct (mul_ok n z Fn Fz) as [F1 V1]; [mono|].
  pose proof (rnd_rng (val n * val z) (2 * K + 1) ltac:(lra) ltac:(lra)) as E1. rewrite <- V1 in E1.
  set (p1 := omul F64 n z) in *.
  assert (Hp1 : - ((2 * K + 1) * (101/100)) <= val p1 <= (2 * K + 1) * (101/100)).
  { assert (u * (2 * K + 1) <= 1 / 1000000 * (2 * K + 1)) by (apply Rmult_le_compat_r; lra). lra. }
  pose proof (rng_mul _ _ _ _ Hp1 Ha) as R2.
  destruct (mul_ok p1 a F1 Fa) as [F3 V3]; [mono|].
  pose proof (rnd_rng (val p1 * val a) ((2 * K + 1) * (101/100) * (4/3)) ltac:(lra) ltac:(lra)) as E3. rewrite <- V3 in E3.
  set (p2 := omul F64 p1 a) in *.
  pose proof (rng_mul K (val b) K (4/3) ltac:(lra) Hb) as R4.
  destruct (mul_ok (onat F64 k) b Fk Fb) as [F4 V4]; [rewrite Vk; mono|]. rewrite Vk in V4.
  pose proof (rnd_rng (K * val b) (K * (4/3)) ltac:(lra) ltac:(lra)) as E4. rewrite <- V4 in E4.
  set (q := omul F64 (onat F64 k) b) in *.
  assert (HuK : u * K <= 1 / 1000000 * K) by (apply Rmult_le_compat_r; lra).
  assert (R5 : - ((K + 1) * (405/100)) <= val p2 - val q <= (K + 1) * (405/100)) by lra.
  destruct (sub_ok p2 q F3 F4) as [F5 V5]; [mono|].
  pose proof (rnd_rng (val p2 - val q) ((K + 1) * (405/100)) ltac:(lra) ltac:(lra)) as E5. rewrite <- V5 in E5.
  set (s := osub F64 p2 q) in *.
  (* error of the numerator *)
  assert (Ha1 : - (u * (2 * K + 1) * (4/3)) <= (val p1 - val n * val z) * val a <= u * (2 * K + 1) * (4/3)).
  { apply (rng_mul _ _ (u * (2 * K + 1)) (4/3)); lra. }
  set (S := (2 * K + 1) * val z * val a - K * val b).
  assert (HS : - ((K + 1) * (108/10 * u)) <= val s - S <= (K + 1) * (108/10 * u)).
  { replace (val s - S) with ((val s - (val p2 - val q)) + (val p2 - val p1 * val a) - (val q - K * val b)
      + (val p1 - val n * val z) * val a) by (unfold S; rewrite Vn; ring).
    assert (0 <= u * K) by (apply Rmult_le_pos; lra). lra. }
  assert (Hs' : - ((K + 1) * (41/10)) <= val s <= (K + 1) * (41/10)) by lra.
  assert (Hdiv : forall t c, - ((K + 1) * c) <= t <= (K + 1) * c -> - c <= t / (K + 1) <= c).
  { intros t c [H1 H2]. split; (apply Rmult_le_reg_r with (K + 1); [lra|]); unfold Rdiv; rewrite Rmult_assoc, Rinv_l by lra; lra. }
  pose proof (Hdiv _ _ Hs') as R6. pose proof (Hdiv _ _ HS) as R7.
  destruct (div_ok s n1 F5) as [F6 V6]; [rewrite Vn1; lra|rewrite Vn1; mono|].
  split; [exact F6|]. rewrite Vn1 in V6.
  pose proof (rnd_rng (val s / (K + 1)) (41/10) R6 ltac:(lra)) as E6. rewrite <- V6 in E6.
  apply Rabs_le.
  replace (val (odiv F64 s n1) - S / (K + 1)) with ((val (odiv F64 s n1) - val s / (K + 1)) + (val s - S) / (K + 1)) by (field; lra).
  lra.
Qed.

Lemma s0_step f z a b k : f = CP \/ f = LeP -> (1 <= k)%nat -> (Z.of_nat k <= 2 ^ 23)%Z ->
  fin z -> fin a -> fin b -> -1 <= val z <= 1 -> - (4/3) <= val a <= 4/3 -> - (4/3) <= val b <= 4/3 ->
  fin (s0 F64 f z k a b) /\ Rabs (val (s0 F64 f z k a b) - s0 ROps f (val z) k (val a) (val b)) <= 15 * u.
Proof. intros [-> | ->] H1 H2; [apply cp_step|apply lep_step; assumption]. Qed.

(** ** the columns: [zh] is the mapped point, [z] the exact one *)
Lemma col_err f zh z eta k : f = CP \/ f = LeP -> fin zh -> -1 <= val zh <= 1 -> -1 <= z <= 1 ->
  Rabs (val zh - z) <= eta -> eta <= 10 * u -> (Z.of_nat k <= 2 ^ 22)%Z ->
  fin (gt F64 f zh 0 k) /\
  Rabs (val (gt F64 f zh 0 k) - pR f z k) <= INR k * eta + (15 * u + 2 * eta) * (INR k * (INR k - 1) / 2).
Proof.
  intros Hf Fz Hzh Hz Heta Hsm Hk.
  pose proof u_pos as Hu. pose proof (Rabs_pos (val zh - z)) as He0.
  set (e := fun k => val (gt F64 f zh 0 k) - pR f z k).
  set (bd := fun k => INR k * eta + (15 * u + 2 * eta) * (INR k * (INR k - 1) / 2)).
  assert (Hbd : forall j, (j <= k)%nat -> bd j <= 1/3).
  { intros j Hj. unfold bd. pose proof (pos_INR j) as Hp.
    assert (Hj2 : INR j <= 4194304) by (rewrite INR_IZR_INZ; apply IZR_le; lia).
    assert (Hq : INR j * (INR j - 1) / 2 <= 4194304 * 4194304 / 2) by nra.
    assert (Hu53 : u * 9007199254740992 = 1).
    { unfold u. change 9007199254740992 with (bpow radix2 53). rewrite <- bpow_plus. reflexivity. }
    assert (H1 : INR j * eta <= 4194304 * (10 * u)) by (apply Rmult_le_compat; lra).
    assert (H2 : (15 * u + 2 * eta) * (INR j * (INR j - 1) / 2) <= 35 * u * (4194304 * 4194304 / 2)).
    { destruct (Rle_lt_dec 0 (INR j * (INR j - 1) / 2)) as [Hn|Hn].
      - apply Rmult_le_compat; lra.
      - apply Rle_trans with 0; [nra|]. apply Rmult_le_pos; lra. }
    lra. }
  assert (Hall : forall n, (n <= k)%nat -> forall j, (j <= n)%nat -> fin (gt F64 f zh 0 j) /\ Rabs (e j) <= bd j).
  { induction n as [|n IH]; intros Hn j Hj.
    - replace j with 0%nat by lia. change (gt F64 f zh 0 0) with (o1 F64). destruct isint_one as [F1 V1]. split; [exact F1|].
      unfold e, bd. change (gt F64 f zh 0 0) with (o1 F64). rewrite V1, pR_0. cbn [INR].
      replace (IZR 1 - 1) with 0 by ring. rewrite Rabs_R0. lra.
    - destruct (Nat.eq_dec j (S n)) as [->|]; [|apply IH; lia]. specialize (IH ltac:(lia)).
      destruct n as [|n].
      + rewrite (col1 f zh Hf). split; [exact Fz|]. unfold e, bd. rewrite (col1 f zh Hf), (pR_1 f z Hf). cbn [INR]. lra.
      + assert (Hrng : forall j, (j <= S n)%nat -> - (4/3) <= val (gt F64 f zh 0 j) <= 4/3).
        { intros i Hi. destruct (IH i Hi) as [_ Hei]. specialize (Hbd i ltac:(lia)).
          pose proof (pR_bound f z i Hf Hz) as Hpi. unfold e in Hei. apply Rabs_le_inv in Hei. apply Rabs_le_inv in Hpi. lra. }
        assert (Hst : forall i, (i < S n)%nat -> fin (gt F64 f zh 0 (S (S i))) /\
           Rabs (e (S (S i)) - s0 ROps f (val zh) (S i) (e (S i)) (e i)) <= 15 * u + 2 * eta).
        { intros i Hi.
          destruct (s0_step f zh (gt F64 f zh 0 (S i)) (gt F64 f zh 0 i) (S i) Hf ltac:(lia) ltac:(lia) Fz
             (proj1 (IH (S i) ltac:(lia))) (proj1 (IH i ltac:(lia))) Hzh (Hrng (S i) ltac:(lia)) (Hrng i ltac:(lia))) as [Fs Es].
          change (s0 F64 f zh (S i) (gt F64 f zh 0 (S i)) (gt F64 f zh 0 i)) with (gt F64 f zh 0 (S (S i))) in Fs, Es.
          split; [exact Fs|]. unfold e. rewrite (s0_lin f _ _ _ _ _ _ Hf), pR_SS.
          pose proof (s0_dz f (val zh) z (S i) (pR f z (S i)) (pR f z i) Hf (pR_bound f z (S i) Hf Hz)) as Hd.
          set (A1 := s0 ROps f (val zh) (S i) (val (gt F64 f zh 0 (S i))) (val (gt F64 f zh 0 i))) in *.
          set (A2 := s0 ROps f (val zh) (S i) (pR f z (S i)) (pR f z i)) in *.
          set (A3 := s0 ROps f z (S i) (pR f z (S i)) (pR f z i)) in *.
          replace (val (gt F64 f zh 0 (S (S i))) - A3 - (A1 - A2)) with ((val (gt F64 f zh 0 (S (S i))) - A1) + (A2 - A3)) by ring.
          apply Rle_trans with (1 := Rabs_triang _ _). lra. }
        split; [apply Hst; lia|].
        unfold bd. apply (propagate (val zh) Hzh (fun k x y => s0 ROps f (val zh) k x y) e eta (15 * u + 2 * eta) (S n)); [| | | |lia].
        * intros. apply s0_energy; assumption.
        * unfold e. change (gt F64 f zh 0 0) with (o1 F64). rewrite (proj2 isint_one), pR_0. ring.
        * unfold e. rewrite (col1 f zh Hf), (pR_1 f z Hf). exact Heta.
        * intros i Hi. apply Hst, Hi. }
  apply (Hall k (le_n k) k (le_n k)).
Qed.

(** ** the mapped points *)
Definition zex (x0 xf x : R) : R := SpecBasis.zmap CP x0 xf x.
Lemma zex_rng x0 xf x : x0 < xf -> x0 <= x <= xf -> -1 <= zex x0 xf x <= 1.
Proof.
  intros Hlt Hx. unfold zex, SpecBasis.zmap.
  assert (0 <= (x - x0) / (xf - x0) <= 1); [|lra]. split.
  - apply Rmult_le_pos; [lra|]. apply Rlt_le, Rinv_0_lt_compat. lra.
  - apply Rmult_le_reg_r with (xf - x0); [lra|]. unfold Rdiv. rewrite Rmult_assoc, Rinv_l by lra. lra.
Qed.
Lemma sub_rel x y : exists e, Rabs e <= u /\ rnd (val x - val y) = (val x - val y) * (1 + e).
Proof.
  destruct (FLT_plus_error_N_ex radix2 (-1074) 53 (fun z => negb (Z.even z)) (val x) (- val y)) as (e & He & Hr).
  - apply gen_val.
  - apply generic_format_opp, gen_val.
  - exists e. split; [|exact Hr]. apply Rle_trans with (1 := He). change (u_ro radix2 53) with (/ 2 * bpow radix2 (-53 + 1)).
    rewrite half_ulp. pose proof u_pos. apply Rmult_le_reg_r with (1 + u); [lra|]. unfold Rdiv. rewrite Rmult_assoc, Rinv_l by lra. nra.
Qed.

Lemma four e1 e2 e3 e4 : Rabs e1 <= u -> Rabs e2 <= u -> Rabs e3 <= u -> Rabs e4 <= u ->
  Rabs ((1 + e1) * (1 + e3) * (1 + e4) / (1 + e2) - 1) <= 41/10 * u.
Proof.
  intros H1 H2 H3 H4. pose proof u_pos as Hu. pose proof u_small as Hs.
  apply Rabs_le_inv in H1. apply Rabs_le_inv in H2. apply Rabs_le_inv in H3. apply Rabs_le_inv in H4.
  assert (Hp : 0 < 1 + e2) by lra.
  replace ((1 + e1) * (1 + e3) * (1 + e4) / (1 + e2) - 1) with ((e1 + e3 + e4 - e2 + e1 * e3 + e1 * e4 + e3 * e4 + e1 * e3 * e4) / (1 + e2)) by (field; lra).
  unfold Rdiv. rewrite Rabs_mult, Rabs_inv, (Rabs_pos_eq (1 + e2)) by lra.
  apply Rmult_le_reg_r with (1 + e2); [exact Hp|]. rewrite Rmult_assoc, Rinv_l, Rmult_1_r by lra.
  pose proof (rng_mul e1 e3 u u H1 H3). pose proof (rng_mul e1 e4 u u H1 H4) as P2. pose proof (rng_mul e3 e4 u u H3 H4) as P3.
  pose proof (rng_mul (e1 * e3) e4 (u * u) u H H4) as P4.
  assert (Q1 : u * u <= 1 / 1000000 * u) by (apply Rmult_le_compat_r; lra).
  assert (Q2 : u * u * u <= 1 / 1000000 * u) by (apply Rmult_le_compat_r; nra).
  assert (Q3 : 41/10 * u * (1 - u) <= 41/10 * u * (1 + e2)) by (apply Rmult_le_compat_l; lra).
  apply Rabs_le. split; lra.
Qed.

Section Map.
Variables (x0 xf x : f64).
Hypothesis (Hw : usable_domain x0 xf) (Hlt : val x0 < val xf) (Hx : inside x0 xf x).
Lemma zof_err : Rabs (val (zof x0 xf x) - zex (val x0) (val xf) (val x)) <= 10 * u.
Proof.
  destruct (zof_ok x0 xf Hw Hlt x Hx) as (_ & Vz & _). rewrite Vz.
  destruct (prod_ok x0 xf Hw Hlt x Hx) as (_ & Vp & Hp).
  destruct (dist_ok x0 xf Hw Hlt x Hx) as (_ & Vd & _).
  destruct (coef_ok x0 xf Hw) as (_ & Vc & _). destruct (width_ok x0 xf Hw) as (_ & Vw & Bw).
  destruct (sub_rel x x0) as (e1 & He1 & R1). destruct (sub_rel xf x0) as (e2 & He2 & R2).
  rewrite R1 in Vd. rewrite R2 in Vw.
  pose proof (quot_bounds _ Bw) as Bq.
  destruct (relative_error_N_FLT_ex radix2 (-1074) 53 ltac:(reflexivity) (fun z => negb (Z.even z)) (2 / val (width x0 xf))) as (e3 & He3 & R3).
  { apply Rle_trans with (2 := proj1 Bq). apply bpow_le. lia. }
  change (Rabs e3 <= / 2 * bpow radix2 (-53 + 1)) in He3. rewrite half_ulp in He3.
  change (rnd (2 / val (width x0 xf)) = 2 / val (width x0 xf) * (1 + e3)) in R3. rewrite R3 in Vc.
  destruct (error_N_FLT radix2 (-1074) 53 ltac:(reflexivity) (fun z => negb (Z.even z)) (val (osub F64 x x0) * val (coef x0 xf)))
    as (e4 & eta & He4 & Ht & _ & R4).
  change (Rabs e4 <= / 2 * bpow radix2 (-53 + 1)) in He4. rewrite half_ulp in He4.
  change (rnd (val (osub F64 x x0) * val (coef x0 xf)) = val (osub F64 x x0) * val (coef x0 xf) * (1 + e4) + eta) in R4. rewrite R4 in Vp.
  assert (Heta : Rabs eta <= 1/10 * u).
  { apply Rle_trans with (1 := Ht). apply Rle_trans with (/ 2 * bpow radix2 (-60)); [apply Rmult_le_compat_l; [lra|apply bpow_le; lia]|].
    unfold u. change (-60)%Z with (-7 + -53)%Z. rewrite bpow_plus. change (bpow radix2 (-7)) with (/ 128).
    pose proof (bpow_gt_0 radix2 (-53)). lra. }
  pose proof u_pos as Hu. pose proof u_small as Hs.
  pose proof (rnd_rng (val (prodf x0 xf x) - 1) 1 ltac:(lra) ltac:(lra)) as E5.
  pose proof (four e1 e2 e3 e4 He1 He2 He3 He4) as H4.
  set (r := (1 + e1) * (1 + e3) * (1 + e4) / (1 + e2)) in *.
  set (q := (val x - val x0) / (val xf - val x0)).
  assert (Hq : 0 <= q <= 1).
  { pose proof (zex_rng (val x0) (val xf) (val x) Hlt (proj2 Hx)) as Hz. unfold zex, SpecBasis.zmap in Hz. fold q in Hz. lra. }
  assert (Ep : val (prodf x0 xf x) = 2 * q * r + eta).
  { rewrite Vp, Vd, Vc, Vw. unfold q, r. apply Rabs_le_inv in He2. field. repeat split; try lra. }
  unfold zex, SpecBasis.zmap. fold q.
  assert (Hr : - (41/10 * u) <= q * (r - 1) <= 41/10 * u).
  { replace (41/10 * u) with (1 * (41/10 * u)) by ring. apply rng_mul; [lra|]. apply Rabs_le_inv, H4. }
  apply Rabs_le_inv in Heta. rewrite Ep in E5 |- *. apply Rabs_le. lra.
Qed.
End Map.

(** ** exact entries *)
Lemma exact_entry be f x0 xf nC m xs : (1 <= m)%nat -> valid_nC nC m -> f = CP \/ f = LeP -> x0 <> xf ->
  exists M, H1 be f x0 xf nC m xs 0 true = Some M /\
  forall j k x, nth_error xs j = Some x -> (k < m)%nat -> ment M j k = Some (pR f (zex x0 xf x) k).
Proof.
  intros Hm Hv Hf Hne. set (B := fam_init ROps RFun f x0 xf nC m).
  assert (Em : b_m B = m) by (unfold B; destruct f; reflexivity).
  assert (En : b_nC B = nC) by (unfold B; destruct f; reflexivity).
  exists (gmat ROps RFun B f (seq 0 m) xs 0). split.
  - unfold H1. fold B. destruct be.
    + rewrite gpy_H; rewrite ?Em, ?En; [reflexivity|assumption|assumption|]. split; [intros; lia|]. cbn [ROps omul onat o1]. ring.
    + rewrite gcpp_H; rewrite ?Em, ?En; [reflexivity|assumption|assumption].
  - intros j k x Hj Hk. unfold ment, gmat. cbn [md]. rewrite nth_error_map, Hj. cbn [option_map].
    rewrite nth_error_map, nth_error_seq. destruct (Nat.ltb_spec k m); [|lia]. cbn [option_map opow]. f_equal.
    cbn [ROps omul o1]. rewrite Rmult_1_r.
    assert (Ez : zmap ROps B x = zex x0 xf x).
    { unfold B, zmap, zex, SpecBasis.zmap. destruct Hf as [-> | ->]; cbn; field; lra. }
    rewrite Ez. destruct Hf as [-> | ->]; reflexivity.
Qed.
