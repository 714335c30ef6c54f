(** Forward error of the derivative columns of the Chebyshev and Legendre families in binary64. *)
From Coq Require Import ZArith Reals Lia Lra List Arith Bool.
From Flocq Require Import Core BinarySingleNaN Relative Plus_error Mult_error.
From Verif Require Import Base Numbers Numbers64 ModelBFPy ModelBFCpp SpecBasis SpecBits ProofH ProofBits ProofBits64 ProofErr.
Import ListNotations.
Open Scope R_scope.

(** ** powers *)
Lemma bernoulli x n : 0 <= x -> x ^ S n + INR (S n) * x ^ n <= (x + 1) ^ S n.
Proof.
  intros Hx. induction n as [|n IH].
  - cbn. lra.
  - assert (H0 : 0 <= x ^ n) by (apply pow_le, Hx).
    assert (H1 : 0 <= INR (S n)) by apply pos_INR.
    replace ((x + 1) ^ S (S n)) with ((x + 1) * (x + 1) ^ S n) by (cbn [pow]; ring).
    apply Rle_trans with ((x + 1) * (x ^ S n + INR (S n) * x ^ n)); [|apply Rmult_le_compat_l; [lra|exact IH]].
    rewrite (S_INR (S n)). set (N := INR (S n)) in *. cbn [pow].
    assert (0 <= N * x ^ n) by (apply Rmult_le_pos; assumption). nra.
Qed.
Lemma pow_step x n : 0 <= x -> x ^ S n + (x + 1) ^ n <= (x + 1) ^ S n.
Proof.
  intros Hx. cbn [pow]. assert (H : x ^ n <= (x + 1) ^ n) by (apply pow_incr; lra). nra.
Qed.

(** ** recurrences with a forcing term: [N] bounds the energy and [V] the values *)
Lemma propagateG z (step : nat -> R -> R -> R) (e N V : nat -> R) n : -1 <= z <= 1 ->
  (forall k x y, nrm z (step k x y) x <= nrm z x y) ->
  Rabs (e 0%nat) <= V 0%nat -> nrm z (e 1%nat) (e 0%nat) <= N 0%nat ->
  (forall k, (k < n)%nat -> Rabs (e (S (S k)) - step (S k) (e (S k)) (e k)) <= N (S k) - N k) ->
  (forall k, (k <= n)%nat -> V k + N k <= V (S k)) ->
  forall k, (k <= S n)%nat -> Rabs (e k) <= V k.
Proof.
  intros Hz Hst E0 E1 HD HV.
  assert (Hn : forall k, (k <= n)%nat -> nrm z (e (S k)) (e k) <= N k).
  { induction k as [|k IH]; intros Hk; [exact E1|].
    specialize (IH ltac:(lia)). specialize (HD k ltac:(lia)).
    replace (e (S (S k))) with (step (S k) (e (S k)) (e k) + (e (S (S k)) - step (S k) (e (S k)) (e k))) by ring.
    apply Rle_trans with (1 := nrm_tri z Hz _ _ _). pose proof (Hst (S k) (e (S k)) (e k)) as Hs. lra. }
  induction k as [|k IH]; intros Hk; [exact E0|].
  specialize (IH ltac:(lia)). specialize (Hn k ltac:(lia)). specialize (HV k ltac:(lia)).
  pose proof (nrm_ge z Hz (e (S k)) (e k)) as Hg.
  assert (H1 : Rabs (e (S k)) <= Rabs (e k) + nrm z (e (S k)) (e k)).
  { replace (e (S k)) with (z * e k + (e (S k) - z * e k)) at 1 by ring.
    apply Rle_trans with (1 := Rabs_triang _ _). apply Rplus_le_compat; [|exact Hg].
    rewrite Rabs_mult. rewrite <- (Rmult_1_l (Rabs (e k))) at 2. apply Rmult_le_compat_r; [apply Rabs_pos|].
    apply Rabs_le. exact Hz. }
  lra.
Qed.
Lemma nrm_0 z x : nrm z x 0 = Rabs x.
Proof.
  unfold nrm, en. replace (x * x - 2 * z * x * 0 + 0 * 0) with (Rsqr x) by (unfold Rsqr; ring). apply sqrt_Rsqr_abs.
Qed.
Lemma propagateP z (step : nat -> R -> R -> R) (e : nat -> R) A p n : -1 <= z <= 1 -> 0 <= A ->
  (forall k x y, nrm z (step k x y) x <= nrm z x y) ->
  e 0%nat = 0 -> e 1%nat = 0 ->
  (forall k, (k < n)%nat -> Rabs (e (S (S k)) - step (S k) (e (S k)) (e k)) <= A * INR (S k) ^ p) ->
  forall k, (k <= S n)%nat -> Rabs (e k) <= A / INR (S (S p)) * INR k ^ S (S p).
Proof.
  intros Hz HA Hst E0 E1 HD.
  assert (HP : 0 < INR (S (S p))) by (apply lt_0_INR; lia).
  apply (propagateG z step e (fun k => A * INR k ^ S p) (fun k => A / INR (S (S p)) * INR k ^ S (S p)) n Hz Hst).
  - rewrite E0, Rabs_R0. cbn [INR]. rewrite pow_ne_zero by lia. lra.
  - rewrite E1, E0, nrm_0, Rabs_R0. cbn [INR]. rewrite pow_ne_zero by lia. lra.
  - intros k Hk. apply Rle_trans with (1 := HD k Hk). rewrite <- Rmult_minus_distr_l. apply Rmult_le_compat_l; [exact HA|].
    rewrite S_INR. pose proof (pow_step (INR k) p (pos_INR k)). lra.
  - intros k Hk. pose proof (bernoulli (INR k) (S p) (pos_INR k)) as Hb. rewrite (S_INR k).
    apply Rmult_le_reg_l with (INR (S (S p))); [exact HP|].
    replace (INR (S (S p)) * (A / INR (S (S p)) * (INR k + 1) ^ S (S p))) with (A * (INR k + 1) ^ S (S p)) by (field; lra).
    replace (INR (S (S p)) * (A / INR (S (S p)) * INR k ^ S (S p) + A * INR k ^ S p))
      with (A * (INR k ^ S (S p) + INR (S (S p)) * INR k ^ S p)) by (field; lra).
    apply Rmult_le_compat_l; assumption.
Qed.

(** ** the exact derivatives *)
Definition rk (f : fam) (k : nat) : R := match f with LeP => (2 * INR k + 1) / (INR k + 1) | _ => 2 end.
Lemma rk_rng f k : 0 <= rk f k <= 2.
Proof.
  pose proof (pos_INR k) as Hk. destruct f; cbn [rk]; try lra. split.
  - apply Rmult_le_pos; [lra|apply Rlt_le, Rinv_0_lt_compat; lra].
  - apply Rmult_le_reg_r with (INR k + 1); [lra|]. unfold Rdiv. rewrite Rmult_assoc, Rinv_l by lra. lra.
Qed.
Lemma s1_split f z d k a b c : f = CP \/ f = LeP ->
  s1 ROps f z d k a b c = s0 ROps f z k b c + rk f k * (INR d + 1) * a.
Proof.
  pose proof (pos_INR k) as Hk.
  intros [-> | ->]; cbn [s1 rk]; [rewrite s0_cp|rewrite s0_lep]; cbn [ROps oadd osub omul odiv onat o1]; change (INR 2) with 2.
  - ring.
  - field. lra.
Qed.
Lemma s0_dz' f z z' k x y : f = CP \/ f = LeP ->
  Rabs (s0 ROps f z k x y - s0 ROps f z' k x y) <= 2 * Rabs (z - z') * Rabs x.
Proof.
  intros Hf. pose proof (Rabs_pos (z - z')) as Hp. pose proof (Rabs_pos x) as Hx.
  assert (E : s0 ROps f z k x y - s0 ROps f z' k x y = rk f k * (z - z') * x).
  { pose proof (pos_INR k) as Hk. destruct Hf as [-> | ->]; rewrite ?s0_cp, ?s0_lep; cbn [rk]; [ring|field; lra]. }
  pose proof (rk_rng f k) as Hr. rewrite E, !Rabs_mult, (Rabs_pos_eq (rk f k)) by apply Hr.
  apply Rmult_le_compat_r; [exact Hx|]. apply Rmult_le_compat_r; [exact Hp|apply Hr].
Qed.
Lemma gtd_SS {T} (A : Ops T) f z d k :
  gt A f z (S d) (S (S k)) = s1 A f z d (S k) (gt A f z d (S k)) (gt A f z (S d) (S k)) (gt A f z (S d) k).
Proof. reflexivity. Qed.

Lemma dbound f z d : f = CP \/ f = LeP -> -1 <= z <= 1 -> forall k, Rabs (gt ROps f z d k) <= INR k ^ (2 * d).
Proof.
  intros Hf Hz. induction d as [|d IH]; intros k.
  - cbn [Nat.mul pow]. apply pR_bound; assumption.
  - assert (Hforce : forall i, Rabs (gt ROps f z (S d) (S (S i)) - s0 ROps f z (S i) (gt ROps f z (S d) (S i)) (gt ROps f z (S d) i))
       <= 2 * (INR d + 1) * INR (S i) ^ (2 * d)).
    { intros i. rewrite gtd_SS, (s1_split f) by exact Hf.
      set (a := gt ROps f z d (S i)). replace (_ + rk f (S i) * (INR d + 1) * a - _) with (rk f (S i) * (INR d + 1) * a) by ring.
      pose proof (rk_rng f (S i)) as Hr. pose proof (pos_INR d) as Hd. specialize (IH (S i)). fold a in IH.
      rewrite !Rabs_mult, (Rabs_pos_eq (rk f (S i))), (Rabs_pos_eq (INR d + 1)) by lra.
      apply Rmult_le_compat; [apply Rmult_le_pos; lra|apply Rabs_pos| |exact IH].
      apply Rmult_le_compat_r; lra. }
    destruct d as [|d].
    + apply (propagateG z (fun k => s0 ROps f z k) (gt ROps f z 1) (fun k => 2 * INR k + 1) (fun k => INR k ^ (2 * 1)) k Hz).
      * intros. apply s0_energy; assumption.
      * rewrite gt_00. cbn [ROps o0 INR Nat.mul Nat.add pow]. rewrite Rabs_R0. lra.
      * rewrite gt_00, gt_01. cbn [ROps o0]. rewrite nrm_0. destruct Hf as [-> | ->]; cbn [fw ROps o1 INR]; rewrite Rabs_R1; lra.
      * intros i _. apply Rle_trans with (1 := Hforce i). cbv beta. rewrite S_INR. change (INR 0) with 0. change (2 * 0)%nat with 0%nat. rewrite pow_O. lra.
      * intros i _. cbv beta. rewrite S_INR. cbn [Nat.mul Nat.add pow]. lra.
      * lia.
    + pose proof (pos_INR (S d)) as Hd.
      pose proof (propagateP z (fun k => s0 ROps f z k) (gt ROps f z (S (S d))) (2 * (INR (S d) + 1)) (2 * S d) k Hz ltac:(lra)) as H.
      specialize (H ltac:(intros; apply s0_energy; assumption) (gt_00 ROps f z (S (S d))) (gt_01 ROps f z (S (S d)))
        ltac:(intros i _; apply Hforce) k ltac:(lia)).
      replace (2 * S (S d))%nat with (S (S (2 * S d))) by lia.
      replace (2 * (INR (S d) + 1) / INR (S (S (2 * S d)))) with 1 in H; [lra|].
      rewrite (S_INR (S (2 * S d))), (S_INR (2 * S d)), mult_INR. change (INR 2) with 2. field. lra.
Qed.

(** ** operations on numbers up to 2^1022 *)
Section OpB.
Variables (x y : f64).
Hypothesis (Fx : fin x) (Fy : fin y).
Lemma mul_okB : Rabs (val x * val y) <= bpow radix2 1022 -> fin (omul F64 x y) /\ val (omul F64 x y) = rnd (val x * val y).
Proof.
  intros H. pose proof (Bmult_correct 53 1024 _ _ mode_NE x y) as C. unfold val, fin in *. cbn [F64 omul].
  rewrite Rlt_bool_true in C by (apply small_lt, H). destruct C as (C1 & C2 & _). rewrite Fx, Fy in C2. split; assumption.
Qed.
Lemma add_okB : Rabs (val x + val y) <= bpow radix2 1022 -> fin (oadd F64 x y) /\ val (oadd F64 x y) = rnd (val x + val y).
Proof.
  intros H. pose proof (Bplus_correct 53 1024 _ _ mode_NE x y Fx Fy) as C. unfold val, fin in *. cbn [F64 oadd].
  rewrite Rlt_bool_true in C by (apply small_lt, H). destruct C as (C1 & C2 & _). split; assumption.
Qed.
Lemma sub_okB : Rabs (val x - val y) <= bpow radix2 1022 -> fin (osub F64 x y) /\ val (osub F64 x y) = rnd (val x - val y).
Proof.
  intros H. pose proof (Bminus_correct 53 1024 _ _ mode_NE x y Fx Fy) as C. unfold val, fin in *. cbn [F64 osub].
  rewrite Rlt_bool_true in C by (apply small_lt, H). destruct C as (C1 & C2 & _). split; assumption.
Qed.
Lemma div_okB : val y <> 0 -> Rabs (val x / val y) <= bpow radix2 1022 -> fin (odiv F64 x y) /\ val (odiv F64 x y) = rnd (val x / val y).
Proof.
  intros Hy H. pose proof (Bdiv_correct 53 1024 _ _ mode_NE x y Hy) as C. unfold val, fin in *. cbn [F64 odiv].
  rewrite Rlt_bool_true in C by (apply small_lt, H). destruct C as (C1 & C2 & _). rewrite Fx in C2. split; assumption.
Qed.
End OpB.
Lemma big16 : 16 * bpow radix2 1000 <= bpow radix2 1022.
Proof. change 16 with (bpow radix2 4). rewrite <- bpow_plus. apply bpow_le. lia. Qed.

(** ** one step of the recurrence of the derivatives *)
Section Step1.
Variables (z a b c : f64) (d k : nat) (Q : R).
Hypotheses (Fz : fin z) (Fa : fin a) (Fb : fin b) (Fc : fin c) (Hz : -1 <= val z <= 1).
Hypotheses (Ha : - (4/3 * Q) <= val a <= 4/3 * Q) (Hb : - (4/3 * Q) <= val b <= 4/3 * Q) (Hc : - (4/3 * Q) <= val c <= 4/3 * Q).
Hypotheses (HQ : 1 <= Q) (Hd : (Z.of_nat d <= 2 ^ 50)%Z) (Hk1 : (1 <= k)%nat) (Hk2 : (Z.of_nat k <= 2 ^ 50)%Z).
Hypothesis (HB : (INR k + 1) * ((INR d + 2) * Q) <= bpow radix2 1000).

Lemma kd_pos : 0 <= INR d /\ 1 <= INR k.
Proof. split; [apply pos_INR|apply (le_INR 1), Hk1]. Qed.

Lemma cp_step1 : fin (s1 F64 CP z d k a b c) /\
  Rabs (val (s1 F64 CP z d k a b c) - s1 ROps CP (val z) d k (val a) (val b) (val c)) <= 16 * ((INR d + 2) * Q) * u.
Proof.
  destruct kd_pos as [HD HK]. pose proof u_pos as Hu. pose proof u_small as Hs. pose proof big16 as H16.
  assert (Hn : isint (oadd F64 (onat F64 2) (omul F64 (onat F64 2) (onat F64 d))) (2 + 2 * Z.of_nat d)).
  { apply isint_add; [apply (isint_nat 2); reflexivity|apply (isint_mul _ _ 2); [apply isint_nat; reflexivity|apply isint_nat; lia|lia]|lia]. }
  destruct Hn as [Fn Vn]. rewrite plus_IZR, mult_IZR, <- INR_IZR_INZ in Vn.
  destruct (isint_nat 2 eq_refl) as [F2 V2]. change (IZR (Z.of_nat 2)) with 2 in V2.
  cbn [s1]. set (n := oadd F64 (onat F64 2) (omul F64 (onat F64 2) (onat F64 d))) in *.
  assert (Es : s1 ROps CP (val z) d k (val a) (val b) (val c) = (2 + 2 * INR d) * val a + 2 * val z * val b - val c).
  { cbn [s1 ROps oadd osub omul onat]. change (INR 2) with 2. reflexivity. }
  cbn [s1] in Es. rewrite Es. clear Es.
  set (D := INR d) in *. set (K := INR k) in *. set (W := (D + 2) * Q) in *.
  assert (HW : 2 * Q <= W) by (unfold W; nra).
  assert (HW2 : 2 * W <= bpow radix2 1000) by (assert (2 * W <= (K + 1) * W) by (apply Rmult_le_compat_r; lra); lra).
  assert (HDQ : D * Q = W - 2 * Q) by (unfold W; ring).
  assert (HuW : 0 <= u * W <= 1 / 1000000 * W) by (split; [apply Rmult_le_pos; lra|apply Rmult_le_compat_r; lra]).
  pose proof (rng_mul (val n) (val a) (2 + 2 * D) (4/3 * Q) ltac:(lra) Ha) as R1.
  replace ((2 + 2 * D) * (4/3 * Q)) with (8/3 * (W - Q)) in R1 by (unfold W; field).
  destruct (mul_okB n a Fn Fa) as [F1 V1]; [mono|].
  pose proof (rnd_rng (val n * val a) (8/3 * (W - Q)) R1 ltac:(lra)) as E1. rewrite <- V1 in E1.
  set (p1 := omul F64 n a) in *.
  assert (E2 : rnd (2 * val z) = 2 * val z).
  { apply rnd_gen. rewrite Rmult_comm. change 2 with (bpow radix2 1).
    apply (mult_bpow_pos_exact_FLT radix2 (-1074) 53); [apply gen_val|lia]. }
  destruct (mul_okB (onat F64 2) z F2 Fz) as [F3 V3]; [rewrite V2; mono|]. rewrite V2, E2 in V3. clear E2.
  pose proof (rng_mul (2 * val z) (val b) 2 (4/3 * Q) ltac:(lra) Hb) as R4.
  destruct (mul_okB (omul F64 (onat F64 2) z) b F3 Fb) as [F4 V4]; [rewrite V3; mono|]. rewrite V3 in V4.
  pose proof (rnd_rng (2 * val z * val b) (8/3 * Q) ltac:(lra) ltac:(lra)) as E4. rewrite <- V4 in E4.
  set (p2 := omul F64 (omul F64 (onat F64 2) z) b) in *.
  assert (R5 : - (27/10 * W) <= val p1 + val p2 <= 27/10 * W) by lra.
  destruct (add_okB p1 p2 F1 F4) as [F5 V5]; [mono|].
  pose proof (rnd_rng (val p1 + val p2) (27/10 * W) R5 ltac:(lra)) as E5. rewrite <- V5 in E5.
  set (s := oadd F64 p1 p2) in *.
  assert (R6 : - (4 * W) <= val s - val c <= 4 * W) by lra.
  destruct (sub_okB s c F5 Fc) as [F6 V6]; [mono|]. split; [exact F6|].
  pose proof (rnd_rng (val s - val c) (4 * W) R6 ltac:(lra)) as E6. rewrite <- V6 in E6.
  rewrite Vn in E1. mono.
Qed.

Lemma lep_step1 : fin (s1 F64 LeP z d k a b c) /\
  Rabs (val (s1 F64 LeP z d k a b c) - s1 ROps LeP (val z) d k (val a) (val b) (val c)) <= 16 * ((INR d + 2) * Q) * u.
Proof.
  destruct kd_pos as [HD HK]. pose proof u_pos as Hu. pose proof u_small as Hs. pose proof big16 as H16.
  assert (Hn : isint (oadd F64 (omul F64 (onat F64 2) (onat F64 k)) (o1 F64)) (2 * Z.of_nat k + 1)).
  { apply isint_add; [apply (isint_mul _ _ 2); [apply isint_nat; reflexivity|apply isint_nat; lia|lia]|apply isint_one|lia]. }
  assert (Hn1 : isint (oadd F64 (onat F64 k) (o1 F64)) (Z.of_nat k + 1)).
  { apply isint_add; [apply isint_nat; lia|apply isint_one|lia]. }
  assert (Hd1 : isint (oadd F64 (onat F64 d) (o1 F64)) (Z.of_nat d + 1)).
  { apply isint_add; [apply isint_nat; lia|apply isint_one|lia]. }
  destruct (isint_nat k ltac:(lia)) as [Fk Vk]. rewrite <- INR_IZR_INZ in Vk.
  destruct Hn as [Fn Vn]. rewrite plus_IZR, mult_IZR, <- INR_IZR_INZ in Vn.
  destruct Hn1 as [Fn1 Vn1]. rewrite plus_IZR, <- INR_IZR_INZ in Vn1.
  destruct Hd1 as [Fd1 Vd1]. rewrite plus_IZR, <- INR_IZR_INZ in Vd1.
  cbn [s1]. set (n := oadd F64 (omul F64 (onat F64 2) (onat F64 k)) (o1 F64)) in *.
  set (n1 := oadd F64 (onat F64 k) (o1 F64)) in *. set (d1 := oadd F64 (onat F64 d) (o1 F64)) in *.
  assert (Es : s1 ROps LeP (val z) d k (val a) (val b) (val c) =
    ((2 * INR k + 1) * ((INR d + 1) * val a + val z * val b) - INR k * val c) / (INR k + 1)).
  { cbn [s1 ROps oadd osub omul odiv onat o1]. change (INR 2) with 2. reflexivity. }
  cbn [s1] in Es. rewrite Es. clear Es.
  set (D := INR d) in *. set (K := INR k) in *. set (W := (D + 2) * Q) in *.
  assert (HW : 2 * Q <= W) by (unfold W; nra).
  assert (HKW : 0 <= K * W) by (apply Rmult_le_pos; lra).
  assert (HKQ1 : 1 * 1 <= K * Q) by (apply Rmult_le_compat; lra).
  assert (HKQ : 0 <= 2 * (K * Q) <= K * W) by (split; [assert (0 <= K * Q) by (apply Rmult_le_pos; lra); lra|replace (2 * (K * Q)) with (K * (2 * Q)) by ring; apply Rmult_le_compat_l; lra]).
  assert (HuW : 0 <= u * W <= 1 / 1000000 * W) by (split; [apply Rmult_le_pos; lra|apply Rmult_le_compat_r; lra]).
  assert (HuKW : 0 <= u * (K * W) <= 1 / 1000000 * (K * W)) by (split; [apply Rmult_le_pos; lra|apply Rmult_le_compat_r; lra]).
  assert (HuKQ : 0 <= 2 * (u * (K * Q)) <= u * (K * W)).
  { split; [assert (0 <= u * (K * Q)) by (apply Rmult_le_pos; lra); lra|].
    replace (2 * (u * (K * Q))) with (u * (2 * (K * Q))) by ring. apply Rmult_le_compat_l; lra. }
  pose proof (rng_mul (val d1) (val a) (D + 1) (4/3 * Q) ltac:(lra) Ha) as R1.
  replace ((D + 1) * (4/3 * Q)) with (4/3 * (W - Q)) in R1 by (unfold W; field).
  destruct (mul_okB d1 a Fd1 Fa) as [F1 V1]; [mono|].
  pose proof (rnd_rng (val d1 * val a) (4/3 * (W - Q)) R1 ltac:(lra)) as E1. rewrite <- V1 in E1.
  set (p1 := omul F64 d1 a) in *.
  pose proof (rng_mul (val z) (val b) 1 (4/3 * Q) ltac:(lra) Hb) as R2.
  destruct (mul_okB z b Fz Fb) as [F2 V2]; [mono|].
  pose proof (rnd_rng (val z * val b) (4/3 * Q) ltac:(lra) ltac:(lra)) as E2. rewrite <- V2 in E2.
  set (p2 := omul F64 z b) in *.
  assert (R3 : - (135/100 * W) <= val p1 + val p2 <= 135/100 * W) by lra.
  destruct (add_okB p1 p2 F1 F2) as [F3 V3]; [mono|].
  pose proof (rnd_rng (val p1 + val p2) (135/100 * W) R3 ltac:(lra)) as E3. rewrite <- V3 in E3.
  set (s := oadd F64 p1 p2) in *.
  assert (HE : - (27/10 * (u * W)) <= val s - ((D + 1) * val a + val z * val b) <= 27/10 * (u * W)) by (rewrite Vd1 in E1; lra).
  assert (R4 : - (136/100 * W) <= val s <= 136/100 * W) by lra.
  pose proof (rng_mul (val n) (val s) (2 * K + 1) (136/100 * W) ltac:(lra) R4) as R5.
  destruct (mul_okB n s Fn F3) as [F5 V5]; [mono|].
  pose proof (rnd_rng (val n * val s) ((2 * K + 1) * (136/100 * W)) R5 ltac:(lra)) as E5. rewrite <- V5 in E5.
  set (q := omul F64 n s) in *.
  pose proof (rng_mul K (val c) K (4/3 * Q) ltac:(lra) Hc) as R6.
  destruct (mul_okB (onat F64 k) c Fk Fc) as [F6 V6]; [rewrite Vk; mono|]. rewrite Vk in V6.
  pose proof (rnd_rng (K * val c) (K * (4/3 * Q)) R6 ltac:(lra)) as E6. rewrite <- V6 in E6.
  set (r := omul F64 (onat F64 k) c) in *.
  assert (R7 : - ((K + 1) * (345/100 * W)) <= val q - val r <= (K + 1) * (345/100 * W)) by lra.
  destruct (sub_okB q r F5 F6) as [F7 V7]; [mono|].
  pose proof (rnd_rng (val q - val r) ((K + 1) * (345/100 * W)) R7 ltac:(lra)) as E7. rewrite <- V7 in E7.
  set (t := osub F64 q r) in *.
  assert (HEn : - ((2 * K + 1) * (27/10 * (u * W))) <= val n * (val s - ((D + 1) * val a + val z * val b)) <= (2 * K + 1) * (27/10 * (u * W))).
  { apply rng_mul; [lra|exact HE]. }
  set (S := (2 * K + 1) * ((D + 1) * val a + val z * val b) - K * val c).
  assert (HS : - ((K + 1) * (124/10 * (u * W))) <= val t - S <= (K + 1) * (124/10 * (u * W))).
  { replace (val t - S) with ((val t - (val q - val r)) + (val q - val n * val s) - (val r - K * val c)
      + val n * (val s - ((D + 1) * val a + val z * val b))) by (unfold S; rewrite Vn; ring). lra. }
  assert (Hs' : - ((K + 1) * (346/100 * W)) <= val t <= (K + 1) * (346/100 * W)) by lra.
  assert (Hdiv : forall t c, - ((K + 1) * c) <= t <= (K + 1) * c -> - c <= t / (K + 1) <= c).
  { intros t' c' [H1 H2]. split; (apply Rmult_le_reg_r with (K + 1); [lra|]); unfold Rdiv; rewrite Rmult_assoc, Rinv_l by lra; lra. }
  pose proof (Hdiv _ _ Hs') as R8. pose proof (Hdiv _ _ HS) as R9.
  destruct (div_okB t n1 F7) as [F8 V8]; [rewrite Vn1; lra|rewrite Vn1; mono|].
  split; [exact F8|]. rewrite Vn1 in V8.
  pose proof (rnd_rng (val t / (K + 1)) (346/100 * W) R8 ltac:(lra)) as E8. rewrite <- V8 in E8.
  apply Rabs_le.
  replace (val (odiv F64 t n1) - S / (K + 1)) with ((val (odiv F64 t n1) - val t / (K + 1)) + (val t - S) / (K + 1)) by (field; lra).
  lra.
Qed.

Lemma s1_step f : f = CP \/ f = LeP -> fin (s1 F64 f z d k a b c) /\
  Rabs (val (s1 F64 f z d k a b c) - s1 ROps f (val z) d k (val a) (val b) (val c)) <= 16 * ((INR d + 2) * Q) * u.
Proof. intros [-> | ->]; [apply cp_step1|apply lep_step1]. Qed.
End Step1.

(** ** the columns *)
(** [m] is large enough to hold the column, and small enough for order [d] *)
Definition room (m d : nat) : Prop :=
  (18 + 4 * INR d) * INR m ^ 2 <= bpow radix2 48 /\ INR m ^ (2 * d + 1) <= bpow radix2 900.
Lemma u48 : u * bpow radix2 48 = / 32.
Proof. unfold u. rewrite <- bpow_plus. reflexivity. Qed.
Lemma b48 : bpow radix2 48 = 281474976710656. Proof. reflexivity. Qed.
Lemma room_pred m d : (1 <= m)%nat -> room m (S d) -> room m d.
Proof.
  intros Hm [H1 H2]. assert (HM : 1 <= INR m) by (apply (le_INR 1), Hm). split.
  - apply Rle_trans with (2 := H1). apply Rmult_le_compat_r; [apply pow_le; lra|]. rewrite S_INR. lra.
  - apply Rle_trans with (2 := H2). apply Rle_pow; [exact HM|lia].
Qed.
Lemma room_small m d : (1 <= m)%nat -> room m d -> (Z.of_nat m <= 2 ^ 22)%Z /\ (Z.of_nat d <= 2 ^ 46)%Z.
Proof.
  intros Hm [H1 _]. rewrite b48 in H1. assert (HM : 1 <= INR m) by (apply (le_INR 1), Hm). pose proof (pos_INR d) as HD. split.
  - destruct (Z.le_gt_cases (Z.of_nat m) (2 ^ 22)) as [|Hc]; [assumption|exfalso].
    assert (Hc' : 4194304 <= INR m) by (rewrite INR_IZR_INZ; apply IZR_le; lia).
    assert (4194304 * 4194304 <= INR m ^ 2) by (cbn [pow]; rewrite Rmult_1_r; apply Rmult_le_compat; lra).
    assert (18 * INR m ^ 2 <= (18 + 4 * INR d) * INR m ^ 2) by (apply Rmult_le_compat_r; [apply pow_le|]; lra). lra.
  - destruct (Z.le_gt_cases (Z.of_nat d) (2 ^ 46)) as [|Hc]; [assumption|exfalso].
    assert (Hc' : 70368744177664 <= INR d) by (rewrite INR_IZR_INZ; apply IZR_le; lia).
    assert (1 <= INR m ^ 2) by (apply pow_R1_Rle, HM).
    assert ((18 + 4 * INR d) * 1 <= (18 + 4 * INR d) * INR m ^ 2) by (apply Rmult_le_compat_l; lra). lra.
Qed.

Definition cst (d : nat) : R := 18 + 4 * INR d.
Lemma cst_pos d : 0 <= cst d. Proof. unfold cst. pose proof (pos_INR d). lra. Qed.
(** within the bound a computed column is at most 4/3 of the bound of the exact one *)
Lemma in_range m d j v w : (1 <= m)%nat -> room m d -> (j <= m)%nat -> Rabs w <= INR j ^ (2 * d) ->
  Rabs (v - w) <= cst d * INR j ^ (2 * d + 2) * u -> - (4/3 * INR j ^ (2 * d)) <= v <= 4/3 * INR j ^ (2 * d).
Proof.
  intros Hm [H1 _] Hj Hw He. pose proof u_pos as Hu.
  assert (Hp : 0 <= INR j ^ (2 * d)) by (apply pow_le, pos_INR).
  assert (Hj2 : INR j ^ 2 <= INR m ^ 2) by (apply pow_incr; split; [apply pos_INR|apply le_INR, Hj]).
  assert (Hc : cst d * INR j ^ 2 * u <= / 32).
  { rewrite <- u48, (Rmult_comm u). apply Rmult_le_compat_r; [lra|]. apply Rle_trans with (2 := H1).
    apply Rmult_le_compat_l; [apply cst_pos|exact Hj2]. }
  assert (H : cst d * INR j ^ (2 * d + 2) * u <= / 32 * INR j ^ (2 * d)).
  { rewrite pow_add. replace (cst d * (INR j ^ (2 * d) * INR j ^ 2) * u) with (cst d * INR j ^ 2 * u * INR j ^ (2 * d)) by ring.
    apply Rmult_le_compat_r; assumption. }
  apply Rabs_le_inv in Hw. apply Rabs_le_inv in He. lra.
Qed.

Lemma col_errd f zh z m : f = CP \/ f = LeP -> fin zh -> -1 <= val zh <= 1 -> -1 <= z <= 1 ->
  Rabs (val zh - z) <= 10 * u -> (1 <= m)%nat -> forall d, room m d -> forall k, (k <= m)%nat ->
  fin (gt F64 f zh d k) /\ Rabs (val (gt F64 f zh d k) - gt ROps f z d k) <= cst d * INR k ^ (2 * d + 2) * u.
Proof.
  intros Hf Fz Hzh Hz Heta Hm. pose proof u_pos as Hu.
  induction d as [|d IHd]; intros Hr k Hk.
  - destruct (room_small m 0 Hm Hr) as [Hm22 _].
    destruct (col_err f zh z (10 * u) k Hf Fz Hzh Hz Heta ltac:(lra) ltac:(lia)) as [F E]. split; [exact F|].
    apply Rle_trans with (1 := E). unfold cst. change (INR 0) with 0. cbn [Nat.mul Nat.add pow].
    replace (INR k * (10 * u) + (15 * u + 2 * (10 * u)) * (INR k * (INR k - 1) / 2))
      with ((10 * INR k + 35 * (INR k * (INR k - 1) / 2)) * u) by ring.
    apply Rmult_le_compat_r; [lra|]. destruct k as [|k]; [cbn; lra|].
    assert (1 <= INR (S k)) by (apply (le_INR 1); lia). nra.
  - specialize (IHd (room_pred _ _ Hm Hr)). destruct (room_small m (S d) Hm Hr) as [Hm22 Hd46].
    set (e := fun j => val (gt F64 f zh (S d) j) - gt ROps f z (S d) j).
    set (A := (2 * (INR d + 1) * cst d + 16 * (INR d + 2) + 20) * u).
    pose proof (pos_INR d) as HD. pose proof (cst_pos d) as Hcd.
    assert (HA : 0 <= A). { unfold A. apply Rmult_le_pos; [|lra]. assert (0 <= 2 * (INR d + 1) * cst d) by (apply Rmult_le_pos; lra). lra. }
    assert (HAc : A / INR (S (S (2 * d + 2))) <= cst (S d) * u).
    { apply Rmult_le_reg_r with (INR (S (S (2 * d + 2)))); [apply lt_0_INR; lia|].
      unfold Rdiv. rewrite Rmult_assoc, Rinv_l by (apply not_0_INR; lia). rewrite Rmult_1_r.
      unfold A, cst. rewrite !S_INR, plus_INR, mult_INR. change (INR 2) with 2. set (D := INR d) in *.
      replace ((18 + 4 * (D + 1)) * u * (2 * D + 2 + 1 + 1)) with ((18 + 4 * (D + 1)) * (2 * D + 4) * u) by ring.
      apply Rmult_le_compat_r; [lra|]. nra. }
    assert (G0 : forall j, (j <= 1)%nat -> fin (gt F64 f zh (S d) j) /\ e j = 0).
    { assert (F0 : fin (o0 F64) /\ val (o0 F64) = 0) by (split; reflexivity).
      destruct isint_one as [F1 V1].
      intros [|[|j]] Hj; [| |lia]; unfold e.
      - rewrite !gt_00. destruct F0 as [F0 V0]. split; [exact F0|]. rewrite V0. cbn [ROps o0]. ring.
      - rewrite !gt_01. destruct d as [|d'].
        + destruct Hf as [-> | ->]; cbn [fw]; (split; [exact F1|]); rewrite V1; cbn [ROps o1]; ring.
        + destruct F0 as [F0 V0]. split; [exact F0|]. rewrite V0. cbn [ROps o0]. ring. }
    assert (Hall : forall n, (n <= m)%nat -> forall j, (j <= n)%nat -> fin (gt F64 f zh (S d) j) /\ Rabs (e j) <= cst (S d) * INR j ^ (2 * S d + 2) * u).
    { induction n as [|n IH]; intros Hn j Hj.
      - destruct (G0 j ltac:(lia)) as [F E]. split; [exact F|]. rewrite E, Rabs_R0.
        apply Rmult_le_pos; [apply Rmult_le_pos; [apply cst_pos|apply pow_le, pos_INR]|lra].
      - destruct (Nat.eq_dec j (S n)) as [->|]; [|apply IH; lia]. specialize (IH ltac:(lia)).
        destruct n as [|n].
        { destruct (G0 1%nat ltac:(lia)) as [F E]. split; [exact F|]. rewrite E, Rabs_R0.
          apply Rmult_le_pos; [apply Rmult_le_pos; [apply cst_pos|apply pow_le, pos_INR]|lra]. }
        assert (Hst : forall i, (i < S n)%nat -> fin (gt F64 f zh (S d) (S (S i))) /\
           Rabs (e (S (S i)) - s0 ROps f (val zh) (S i) (e (S i)) (e i)) <= A * INR (S i) ^ (2 * d + 2)).
        { intros i Hi. set (Q := INR (S i) ^ (2 * S d)).
          assert (HI : 1 <= INR (S i)) by (apply (le_INR 1); lia).
          assert (HQ : 1 <= Q) by (apply pow_R1_Rle, HI).
          assert (HQ0 : INR (S i) ^ (2 * d) <= Q) by (apply Rle_pow; [exact HI|lia]).
          assert (Q0 : 0 <= INR (S i) ^ (2 * d)) by (apply pow_le; lra).
          destruct (IHd (S i) ltac:(lia)) as [Fa Ea].
          pose proof (dbound f z d Hf Hz (S i)) as Da. pose proof (dbound f z (S d) Hf Hz (S i)) as Db. pose proof (dbound f z (S d) Hf Hz i) as Dc.
          destruct (IH (S i) ltac:(lia)) as [Fb Eb]. destruct (IH i ltac:(lia)) as [Fc Ec].
          pose proof (in_range m d (S i) _ _ Hm (room_pred _ _ Hm Hr) ltac:(lia) Da Ea) as Ra.
          pose proof (in_range m (S d) (S i) _ _ Hm Hr ltac:(lia) Db Eb) as Rb.
          pose proof (in_range m (S d) i _ _ Hm Hr ltac:(lia) Dc Ec) as Rc. fold Q in Rb, Db.
          assert (HQi : INR i ^ (2 * S d) <= Q) by (apply pow_incr; split; [apply pos_INR|apply le_INR; lia]).
          assert (HB : (INR (S i) + 1) * ((INR d + 2) * Q) <= bpow radix2 1000).
          { destruct Hr as [Hr1 Hr2].
            assert (HM : INR (S i) <= INR m) by (apply le_INR; lia).
            assert (HIQ : INR (S i) * Q <= bpow radix2 900).
            { apply Rle_trans with (2 := Hr2). replace (2 * S d + 1)%nat with (S (2 * S d)) by lia. 
              change (INR (S i) ^ S (2 * S d) <= INR m ^ S (2 * S d)). apply pow_incr; lra. }
            assert (HD48 : INR d + 2 <= bpow radix2 48).
            { rewrite b48. assert (INR d <= 70368744177664) by (rewrite INR_IZR_INZ; apply IZR_le; lia). lra. }
            apply Rle_trans with (2 * (bpow radix2 48 * bpow radix2 900)).
            - replace ((INR (S i) + 1) * ((INR d + 2) * Q)) with ((INR d + 2) * ((INR (S i) + 1) * Q)) by ring.
              apply Rle_trans with ((INR d + 2) * (2 * (INR (S i) * Q))).
              + apply Rmult_le_compat_l; [lra|]. assert (1 * Q <= INR (S i) * Q) by (apply Rmult_le_compat_r; lra). lra.
              + replace ((INR d + 2) * (2 * (INR (S i) * Q))) with (2 * ((INR d + 2) * (INR (S i) * Q))) by ring.
                apply Rmult_le_compat_l; [lra|]. apply Rmult_le_compat; [lra| |assumption|assumption].
                apply Rmult_le_pos; lra.
            - change 2 with (bpow radix2 1). rewrite <- !bpow_plus. apply bpow_le. lia. }
          destruct (s1_step zh (gt F64 f zh d (S i)) (gt F64 f zh (S d) (S i)) (gt F64 f zh (S d) i) d (S i) Q Fz Fa Fb Fc Hzh
             ltac:(lra) ltac:(lra) ltac:(lra) HQ ltac:(lia) ltac:(lia) ltac:(lia) HB f Hf) as [Fs Es].
          rewrite <- gtd_SS in Fs, Es. split; [exact Fs|]. unfold e. rewrite (s0_lin f _ _ _ _ _ _ Hf).
          rewrite (s1_split f) in Es by exact Hf. rewrite (gtd_SS ROps), (s1_split f) by exact Hf.
          pose proof (s0_dz' f (val zh) z (S i) (gt ROps f z (S d) (S i)) (gt ROps f z (S d) i) Hf) as Hdz.
          set (X1 := s0 ROps f (val zh) (S i) (val (gt F64 f zh (S d) (S i))) (val (gt F64 f zh (S d) i))) in *.
          set (X2 := s0 ROps f (val zh) (S i) (gt ROps f z (S d) (S i)) (gt ROps f z (S d) i)) in *.
          set (X3 := s0 ROps f z (S i) (gt ROps f z (S d) (S i)) (gt ROps f z (S d) i)) in *.
          set (ah := val (gt F64 f zh d (S i))) in *. set (a := gt ROps f z d (S i)) in *.
          set (vh := val (gt F64 f zh (S d) (S (S i)))) in *. set (r := rk f (S i) * (INR d + 1)) in *.
          replace (vh - (X3 + r * a) - (X1 - X2)) with ((vh - (X1 + r * ah)) + (X2 - X3) + r * (ah - a)) by ring.
          assert (Hra : Rabs (r * (ah - a)) <= 2 * (INR d + 1) * (cst d * Q * u)).
          { rewrite Rabs_mult. pose proof (rk_rng f (S i)) as Hrk.
            assert (Hr0 : 0 <= r) by (apply Rmult_le_pos; lra).
            apply Rmult_le_compat; [apply Rabs_pos|apply Rabs_pos| |].
            - rewrite Rabs_pos_eq by exact Hr0. apply Rmult_le_compat_r; lra.
            - apply Rle_trans with (1 := Ea). right. f_equal. f_equal. unfold Q. f_equal. lia. }
          assert (HX : Rabs (X2 - X3) <= 20 * u * Q).
          { apply Rle_trans with (1 := Hdz). apply Rmult_le_compat; [|apply Rabs_pos|lra|exact Db].
            apply Rmult_le_pos; [lra|apply Rabs_pos]. }
          apply Rle_trans with (1 := Rabs_triang _ _).
          pose proof (Rabs_triang (vh - (X1 + r * ah)) (X2 - X3)) as Ht.
          replace (A * INR (S i) ^ (2 * d + 2)) with (A * Q) by (unfold Q; do 2 f_equal; lia).
          unfold A. lra. }
        split; [apply Hst; lia|].
        pose proof (propagateP (val zh) (fun k => s0 ROps f (val zh) k) e A (2 * d + 2) (S n) Hzh HA
          ltac:(intros; apply s0_energy; assumption) (proj2 (G0 0%nat ltac:(lia))) (proj2 (G0 1%nat ltac:(lia)))
          (fun i Hi => proj2 (Hst i Hi)) (S (S n)) ltac:(lia)) as HP.
        apply Rle_trans with (1 := HP).
        replace (2 * S d + 2)%nat with (S (S (2 * d + 2))) by lia.
        replace (cst (S d) * INR (S (S n)) ^ S (S (2 * d + 2)) * u) with (cst (S d) * u * INR (S (S n)) ^ S (S (2 * d + 2))) by ring.
        apply Rmult_le_compat_r; [apply pow_le, pos_INR|exact HAc]. }
    apply (Hall k Hk k (le_n k)).
Qed.

(** ** the factor [(2 / (xf - x0))^d] *)
Lemma rnd_errB x B : Rabs x <= B -> bpow radix2 (-1000) <= B -> Rabs (rnd x - x) <= u * B.
Proof.
  intros Hx HB. pose proof u_pos as Hu.
  destruct (error_N_FLT radix2 (-1074) 53 ltac:(reflexivity) (fun z => negb (Z.even z)) x) as (eps & eta & He & Ht & H0 & Hr).
  change (rnd x = x * (1 + eps) + eta) in Hr. rewrite Hr. change (Rabs eps <= / 2 * bpow radix2 (-53 + 1)) in He. rewrite half_ulp in He.
  replace (x * (1 + eps) + eta - x) with (x * eps + eta) by ring.
  destruct (Rmult_integral _ _ H0) as [-> | ->].
  - rewrite Rmult_0_r, Rplus_0_l. apply Rle_trans with (1 := Ht). apply Rle_trans with (u * bpow radix2 (-1000)); [|apply Rmult_le_compat_l; lra].
    unfold u. rewrite <- bpow_plus. apply Rle_trans with (bpow radix2 (-1074)); [pose proof (bpow_ge_0 radix2 (-1074)); lra|].
    apply bpow_le. lia.
  - rewrite Rplus_0_r, Rabs_mult, Rmult_comm. apply Rmult_le_compat; try apply Rabs_pos; assumption.
Qed.

Section Scale.
Variables (x0 xf : f64).
Hypothesis (Hw : usable_domain x0 xf) (Hlt : val x0 < val xf).
Definition sc : R := 2 / (val xf - val x0).
Lemma sc_pos : 0 < sc.
Proof. unfold sc. apply Rdiv_lt_0_compat; lra. Qed.
Lemma coef_rel : fin (coef x0 xf) /\ exists e, Rabs e <= 21/10 * u /\ val (coef x0 xf) = sc * (1 + e).
Proof.
  destruct (coef_ok x0 xf Hw) as (Fc & Vc & _). split; [exact Fc|]. destruct (width_ok x0 xf Hw) as (_ & Vw & Bw).
  destruct (sub_rel xf x0) as (e2 & He2 & R2). rewrite R2 in Vw.
  pose proof (quot_bounds _ Bw) as Bq.
  destruct (relative_error_N_FLT_ex radix2 (-1074) 53 ltac:(reflexivity) (fun z => negb (Z.even z)) (2 / val (width x0 xf))) as (e3 & He3 & R3).
  { apply Rle_trans with (2 := proj1 Bq). apply bpow_le. lia. }
  change (Rabs e3 <= / 2 * bpow radix2 (-53 + 1)) in He3. rewrite half_ulp in He3.
  change (rnd (2 / val (width x0 xf)) = 2 / val (width x0 xf) * (1 + e3)) in R3. rewrite R3 in Vc.
  pose proof u_pos as Hu. pose proof u_small as Hs. apply Rabs_le_inv in He2. apply Rabs_le_inv in He3.
  exists ((e3 - e2) / (1 + e2)). split.
  - unfold Rdiv. rewrite Rabs_mult, Rabs_inv, (Rabs_pos_eq (1 + e2)) by lra.
    apply Rmult_le_reg_r with (1 + e2); [lra|]. rewrite Rmult_assoc, Rinv_l, Rmult_1_r by lra.
    assert (Q : 21/10 * u * (1 - u) <= 21/10 * u * (1 + e2)) by (apply Rmult_le_compat_l; lra).
    assert (u * u <= 1 / 1000000 * u) by (apply Rmult_le_compat_r; lra).
    apply Rabs_le. split; lra.
  - rewrite Vc, Vw. unfold sc. field. split; lra.
Qed.
Variable d : nat.
Hypothesis (Hd : (Z.of_nat d <= 2 ^ 46)%Z) (Hsc : bpow radix2 (-900) <= sc ^ d <= bpow radix2 900).
Lemma sc_between i : (i <= d)%nat -> bpow radix2 (-900) <= sc ^ i <= bpow radix2 900.
Proof.
  intros Hi. pose proof sc_pos as Hp.
  assert (B1 : bpow radix2 (-900) <= 1 <= bpow radix2 900) by (split; change 1 with (bpow radix2 0); apply bpow_le; lia).
  assert (Pi : 0 <= sc ^ i) by (apply pow_le; lra).
  replace (sc ^ d) with (sc ^ i * sc ^ (d - i)) in Hsc by (rewrite <- pow_add; f_equal; lia).
  destruct (Rle_lt_dec 1 sc) as [H|H].
  - assert (1 <= sc ^ i) by (apply pow_R1_Rle, H). assert (1 <= sc ^ (d - i)) by (apply pow_R1_Rle, H).
    assert (sc ^ i * 1 <= sc ^ i * sc ^ (d - i)) by (apply Rmult_le_compat_l; lra). lra.
  - assert (H1 : forall n, 0 <= sc ^ n <= 1).
    { intros n. split; [apply pow_le; lra|]. rewrite <- (pow1 n). apply pow_incr. lra. }
    pose proof (H1 i) as Hi1. pose proof (H1 (d - i)%nat) as Hi2.
    assert (sc ^ i * sc ^ (d - i) <= sc ^ i * 1) by (apply Rmult_le_compat_l; lra). lra.
Qed.
Lemma pow_rel i : (i <= d)%nat -> fin (opow F64 (coef x0 xf) i) /\
  exists e, Rabs e <= 4 * INR i * u /\ val (opow F64 (coef x0 xf) i) = sc ^ i * (1 + e).
Proof.
  pose proof u_pos as Hu. pose proof u_small as Hs. destruct coef_rel as (Fc & e1 & He1 & Vc).
  induction i as [|i IH]; intros Hi.
  - destruct isint_one as [F V]. cbn [opow]. split; [exact F|]. exists 0. rewrite V, Rabs_R0. cbn [INR pow]. lra.
  - destruct (IH ltac:(lia)) as (Fi & e & He & Vi). cbn [opow]. set (p := opow F64 (coef x0 xf) i) in *.
    assert (HI : 4 * INR i * u <= / 32).
    { rewrite <- u48, (Rmult_comm u). apply Rmult_le_compat_r; [lra|]. rewrite b48.
      assert (INR i <= 70368744177664) by (rewrite INR_IZR_INZ; apply IZR_le; lia). lra. }
    apply Rabs_le_inv in He1. pose proof (Rabs_le_inv _ _ He) as He'.
    assert (Ex : val (coef x0 xf) * val p = sc ^ S i * ((1 + e1) * (1 + e))) by (rewrite Vc, Vi; cbn [pow]; ring).
    pose proof (sc_between (S i) Hi) as Hb. set (P := sc ^ S i) in *.
    assert (B0 : 0 < bpow radix2 (-900)) by apply bpow_gt_0.
    assert (Hee : 1 / 2 <= (1 + e1) * (1 + e) <= 2).
    { pose proof (rng_mul e1 e (1/100) (1/32) ltac:(lra) ltac:(lra)). lra. }
    assert (Hx : P * (1 / 2) <= val (coef x0 xf) * val p <= P * 2).
    { rewrite Ex. split; apply Rmult_le_compat_l; lra. }
    destruct (mul_okB _ _ Fc Fi) as [Fm Vm].
    { rewrite Rabs_pos_eq by lra. apply Rle_trans with (bpow radix2 900 * 2); [lra|].
      change 2 with (bpow radix2 1). rewrite <- bpow_plus. apply bpow_le. lia. }
    split; [exact Fm|].
    destruct (relative_error_N_FLT_ex radix2 (-1074) 53 ltac:(reflexivity) (fun z => negb (Z.even z)) (val (coef x0 xf) * val p)) as (e4 & He4 & R4).
    { rewrite Rabs_pos_eq by lra. apply Rle_trans with (bpow radix2 (-900) * (1 / 2)); [|lra].
      apply Rle_trans with (bpow radix2 (-901)); [apply bpow_le; lia|]. change (-901)%Z with (-900 + -1)%Z. rewrite bpow_plus.
      change (bpow radix2 (-1)) with (/ 2). lra. }
    change (Rabs e4 <= / 2 * bpow radix2 (-53 + 1)) in He4. rewrite half_ulp in He4.
    change (rnd (val (coef x0 xf) * val p) = val (coef x0 xf) * val p * (1 + e4)) in R4.
    exists ((1 + e1) * (1 + e) * (1 + e4) - 1). split.
    + apply Rabs_le_inv in He4.
      pose proof (rng_mul e1 e4 (21/10 * u) (1/1000) ltac:(lra) ltac:(lra)) as P1.
      pose proof (rng_mul (e1 + e4 + e1 * e4) e (311/100 * u) (/32) ltac:(lra) ltac:(lra)) as P2.
      rewrite S_INR. apply Rabs_le.
      replace ((1 + e1) * (1 + e) * (1 + e4) - 1) with (e + (e1 + e4 + e1 * e4) + (e1 + e4 + e1 * e4) * e) by ring. lra.
    + rewrite Vm, R4, Ex. ring.
Qed.
End Scale.

(** ** one entry *)
Lemma entry_err x0 xf m d k x f : f = CP \/ f = LeP -> usable_domain x0 xf -> val x0 < val xf -> inside x0 xf x ->
  (1 <= d)%nat -> room m d -> (k < m)%nat -> bpow radix2 (-900) <= sc x0 xf ^ d -> sc x0 xf ^ d * INR m ^ (2 * d) <= bpow radix2 900 ->
  let v := omul F64 (gt F64 f (zof x0 xf x) d k) (opow F64 (coef x0 xf) d) in
  fin v /\ Rabs (val v - gt ROps f (zex (val x0) (val xf) (val x)) d k * sc x0 xf ^ d)
    <= (21 + 9 * INR d) * INR k ^ (2 * d + 2) * sc x0 xf ^ d * u.
Proof.
  intros Hf Hw Hlt Hx Hd1 Hr Hk Hlo Hhi v. pose proof u_pos as Hu. pose proof u_small as Hs.
  assert (Hm : (1 <= m)%nat) by lia. destruct (room_small m d Hm Hr) as [_ Hd46].
  destruct (zof_ok x0 xf Hw Hlt x Hx) as (Fz & _ & Hzh).
  pose proof (zex_rng (val x0) (val xf) (val x) Hlt (proj2 Hx)) as Hz.
  pose proof (zof_err x0 xf x Hw Hlt Hx) as Hze.
  destruct (col_errd f (zof x0 xf x) (zex (val x0) (val xf) (val x)) m Hf Fz Hzh Hz Hze Hm d Hr k ltac:(lia)) as [Fg Eg].
  pose proof (dbound f _ d Hf Hz k) as Dg.
  pose proof (in_range m d k _ _ Hm Hr ltac:(lia) Dg Eg) as Rg.
  pose proof (sc_pos x0 xf Hlt) as Hsp.
  assert (HM1 : 1 <= INR m) by (apply (le_INR 1), Hm).
  assert (HS0 : 0 < sc x0 xf ^ d) by (apply pow_lt, Hsp).
  assert (HSd : sc x0 xf ^ d <= bpow radix2 900).
  { apply Rle_trans with (2 := Hhi). rewrite <- (Rmult_1_r (sc x0 xf ^ d)) at 1. apply Rmult_le_compat_l; [lra|]. apply pow_R1_Rle, HM1. }
  destruct (pow_rel x0 xf Hw Hlt d Hd46 (conj Hlo HSd) d (le_n d)) as (Fp & e & He & Vp).
  assert (HI : 4 * INR d * u <= / 32).
  { rewrite <- u48, (Rmult_comm u). apply Rmult_le_compat_r; [lra|]. rewrite b48.
    assert (INR d <= 70368744177664) by (rewrite INR_IZR_INZ; apply IZR_le; lia). lra. }
  set (g := gt F64 f (zof x0 xf x) d k) in *. set (G := gt ROps f (zex (val x0) (val xf) (val x)) d k) in *.
  set (p := opow F64 (coef x0 xf) d) in *. set (S := sc x0 xf ^ d) in *.
  destruct k as [|k'].
  - (* the constant *)
    assert (Eg0 : g = o0 F64) by (unfold g; rewrite gt_00; destruct d; [lia|reflexivity]).
    assert (EG0 : G = 0) by (unfold G; rewrite gt_00; destruct d; [lia|reflexivity]).
    assert (Vg : val g = 0) by (rewrite Eg0; reflexivity).
    destruct (mul_okB g p Fg Fp) as [Fv Vv].
    { rewrite Vg, Rmult_0_l, Rabs_R0. apply bpow_ge_0. }
    split; [exact Fv|]. fold v in Vv. rewrite Vv, Vg, EG0, !Rmult_0_l, rnd_0, Rminus_0_r, Rabs_R0.
    repeat apply Rmult_le_pos; try lra; [pose proof (pos_INR d); lra|apply pow_le, pos_INR].
  - set (k := Datatypes.S k') in *. assert (HK : 1 <= INR k) by (apply (le_INR 1); unfold k; lia).
    set (Q := INR k ^ (2 * d)) in *. assert (HQ : 1 <= Q) by (apply pow_R1_Rle, HK).
    assert (HQm : Q <= INR m ^ (2 * d)) by (apply pow_incr; split; [lra|apply le_INR; lia]).
    assert (HQ2 : INR k ^ (2 * d + 2) = Q * INR k ^ 2) by apply pow_add.
    assert (HK2 : 1 <= INR k ^ 2) by (apply pow_R1_Rle, HK).
    set (Q2 := INR k ^ (2 * d + 2)) in *. assert (HQQ : Q * 1 <= Q2) by (rewrite HQ2; apply Rmult_le_compat_l; lra).
    pose proof (Rabs_le_inv _ _ He) as He'. pose proof (pos_INR d) as HD.
    (* the product *)
    assert (Ep : val g * val p = S * (val g * (1 + e))) by (rewrite Vp; ring).
    assert (Hge : - (14/10 * Q) <= val g * (1 + e) <= 14/10 * Q).
    { pose proof (rng_mul (val g) (1 + e) (4/3 * Q) (33/32) Rg ltac:(lra)). lra. }
    assert (Hprod : - (S * (14/10 * Q)) <= val g * val p <= S * (14/10 * Q)).
    { rewrite Ep. apply (rng_mul S (val g * (1 + e)) S (14/10 * Q)); [lra|exact Hge]. }
    assert (HSQ : S * Q <= bpow radix2 900).
    { apply Rle_trans with (2 := Hhi). apply Rmult_le_compat_l; [lra|exact HQm]. }
    assert (HSQ1 : S * 1 <= S * Q) by (apply Rmult_le_compat_l; lra).
    destruct (mul_okB g p Fg Fp) as [Fv Vv].
    { apply Rabs_le. assert (H : 2 * bpow radix2 900 <= bpow radix2 1022).
      { change 2 with (bpow radix2 1). rewrite <- bpow_plus. apply bpow_le. lia. } lra. }
    split; [exact Fv|]. fold v in Vv.
    assert (Er : Rabs (val v - val g * val p) <= u * (S * (14/10 * Q))).
    { rewrite Vv. apply rnd_errB; [apply Rabs_le, Hprod|].
      apply Rle_trans with (bpow radix2 (-900)); [apply bpow_le; lia|]. lra. }
    assert (Em : Rabs (val g * (1 + e) - G) <= (103125/100000 * cst d * Q2 + 4 * INR d * Q) * u).
    { replace (val g * (1 + e) - G) with ((val g - G) * (1 + e) + G * e) by ring.
      apply Rle_trans with (1 := Rabs_triang _ _). rewrite !Rabs_mult.
      assert (H1 : Rabs (val g - G) * Rabs (1 + e) <= cst d * Q2 * u * (103125/100000)).
      { apply Rmult_le_compat; try apply Rabs_pos; [exact Eg|]. apply Rabs_le. lra. }
      assert (H2 : Rabs G * Rabs e <= Q * (4 * INR d * u)) by (apply Rmult_le_compat; try apply Rabs_pos; assumption).
      lra. }
    replace (val v - G * S) with ((val v - val g * val p) + S * (val g * (1 + e) - G)) by (rewrite Ep; ring).
    apply Rle_trans with (1 := Rabs_triang _ _). rewrite (Rabs_mult S), (Rabs_pos_eq S) by lra.
    assert (HSE : S * Rabs (val g * (1 + e) - G) <= S * ((103125/100000 * cst d * Q2 + 4 * INR d * Q) * u)) by (apply Rmult_le_compat_l; lra).
    apply Rle_trans with (u * (S * (14/10 * Q)) + S * ((103125/100000 * cst d * Q2 + 4 * INR d * Q) * u)); [lra|].
    replace (u * (S * (14/10 * Q)) + S * ((103125/100000 * cst d * Q2 + 4 * INR d * Q) * u))
      with ((14/10 * Q + 103125/100000 * cst d * Q2 + 4 * INR d * Q) * (S * u)) by ring.
    replace ((21 + 9 * INR d) * Q2 * S * u) with ((21 + 9 * INR d) * Q2 * (S * u)) by ring.
    apply Rmult_le_compat_r; [apply Rmult_le_pos; lra|]. unfold cst.
    assert (HDQ : INR d * Q <= INR d * Q2) by (apply Rmult_le_compat_l; lra).
    assert (0 <= INR d * Q2) by (apply Rmult_le_pos; lra). lra.
Qed.

(** ** reading the matrices *)
Lemma full_entryd be E f x0 xf nC m xs d : (1 <= m)%nat -> valid_nC nC m -> f = CP \/ f = LeP -> (Z.of_nat d < 2 ^ 51)%Z ->
  exists M, H64 be E f x0 xf nC m xs d true = Some M /\
  forall j k x, nth_error xs j = Some x -> (k < m)%nat ->
    ment M j k = Some (omul F64 (gt F64 f (zof x0 xf x) d k) (opow F64 (coef x0 xf) d)).
Proof.
  intros Hm Hv Hf Hd. eexists. split; [apply H64_mat; [exact Hm|exact Hv|exact Hd]|].
  intros j k x Hj Hk. rewrite gmat_ent, Hj, nth_error_seq. destruct (Nat.ltb_spec k m); [|lia].
  destruct Hf as [-> | ->]; reflexivity.
Qed.
Lemma exact_entryd be f x0 xf nC m xs d : (1 <= m)%nat -> valid_nC nC m -> f = CP \/ f = LeP -> x0 <> xf ->
  exists M, H1 be f x0 xf nC m xs d true = Some M /\
  forall j k x, nth_error xs j = Some x -> (k < m)%nat -> ment M j k = Some (gt ROps f (zex x0 xf x) d k * (2 / (xf - x0)) ^ d).
Proof.
  intros Hm Hv Hf Hne. set (B := fam_init ROps RFun f x0 xf nC m).
  assert (Em : b_m B = m) by (unfold B; destruct f; reflexivity).
  assert (En : b_nC B = nC) by (unfold B; destruct f; reflexivity).
  exists (gmat ROps RFun B f (seq 0 m) xs d). split.
  - unfold H1. fold B. destruct be.
    + rewrite gpy_H; rewrite ?Em, ?En; [reflexivity|assumption|assumption|]. split.
      * intros n _. cbn [ROps omul oadd onat]. rewrite plus_INR, mult_INR. reflexivity.
      * cbn [ROps omul onat o1]. ring.
    + rewrite gcpp_H; rewrite ?Em, ?En; [reflexivity|assumption|assumption].
  - intros j k x Hj Hk. unfold ment, gmat. cbn [md]. rewrite nth_error_map, Hj. cbn [option_map].
    rewrite nth_error_map, nth_error_seq. destruct (Nat.ltb_spec k m); [|lia]. cbn [option_map]. f_equal.
    assert (Ez : zmap ROps B x = zex x0 xf x).
    { unfold B, zmap, zex, SpecBasis.zmap. destruct Hf as [-> | ->]; cbn; field; lra. }
    assert (Ec : b_c B = 2 / (xf - x0)).
    { unfold B. destruct Hf as [-> | ->]; cbn; field; lra. }
    rewrite Ez, Ec, opow_R. cbn [ROps omul]. destruct Hf as [-> | ->]; reflexivity.
Qed.
