(** Property C79: the collocation points of a univariate problem in binary64 arithmetic. *)
From Coq Require Import ZArith Reals Lia Lra List Arith Bool.
From Flocq Require Import Core BinarySingleNaN.
From Verif Require Import Base Numbers64 ModelBFPy ModelBFCpp ModelELM ModelUtfc SpecPoints64 ProofBits64 ProofPoints64.
Import ListNotations.
Open Scope R_scope.

(** The first point is exactly [x0]; all lie between it and the last; the last differs from [xf]
    by a few units in the last place of the numbers involved. *)
Theorem C79_points : forall be E f N nC deg x0 xf u,
  f = CP \/ f = LeP -> accurate E -> ordinary_domain x0 xf -> (2 <= N)%nat -> (Z.of_nat N <= 2 ^ 51)%Z ->
  utfc64 be E f N nC deg x0 xf = Some u ->
  length (u_x u) = N /\ point64 u 0 = Some (val x0) /\
  exists last, point64 u (N - 1) = Some last /\
    Rabs (last - val xf) <= bpow radix2 (-51) * (val xf - val x0) + bpow radix2 (-53) * Rabs (val xf) /\
    forall i, (i < N)%nat -> exists v, point64 u i = Some v /\ val x0 <= v <= last.
Proof.
  intros be E f N nC deg x0 xf u Hf HE Hd HN HN2 Hu. destruct N as [|n]; [lia|].
  assert (H1 : (1 <= n)%nat) by lia. assert (H2 : (Z.of_nat n < 2 ^ 51)%Z) by lia.
  pose proof (utfc64_points be E f n nC deg x0 xf u Hf H1 Hu) as Ex.
  assert (Hp : forall i, (i <= n)%nat -> point64 u i = Some (val (pt E n x0 xf i))).
  { intros i Hi. unfold point64. rewrite Ex, nth_error_map, nth_error_seq.
    replace (i <? S n)%nat with true by (symmetry; apply Nat.ltb_lt; lia). cbn [option_map].
    destruct (pt_ok E HE n H1 H2 x0 xf Hd i Hi) as [F _]. unfold fin in F. rewrite F. reflexivity. }
  split; [rewrite Ex, map_length, seq_length; reflexivity|]. split.
  - rewrite Hp by lia. f_equal. apply (pt_first E HE n H1 H2 x0 xf Hd).
  - exists (val (pt E n x0 xf n)). replace (S n - 1)%nat with n by lia. split; [apply Hp; lia|].
    split; [apply (pt_last E HE n H1 H2 x0 xf Hd)|]. intros i Hi.
    exists (val (pt E n x0 xf i)). split; [apply Hp; lia|]. apply (pt_range E HE n H1 H2 x0 xf Hd). lia.
Qed.
Print Assumptions C79_points.

(** The last point can lie outside the domain: on [0, 49] it is 49 + 2^-47, for every number of
    points, with any accurate library. *)
Theorem C79_inside_refuted : exists x0 xf, ordinary_domain x0 xf /\ forall be E f N nC deg u,
  f = CP \/ f = LeP -> accurate E -> (2 <= N)%nat -> (Z.of_nat N <= 2 ^ 51)%Z ->
  utfc64 be E f N nC deg x0 xf = Some u ->
  exists last, point64 u (N - 1) = Some last /\ val xf < last.
Proof.
  destruct (f64_int_ok 0 eq_refl) as [F0 V0]. destruct (f64_int_ok 49 eq_refl) as [F1 V1].
  assert (Hd : ordinary_domain (f64_int 0) (f64_int 49)).
  { split; [exact F0|]. split; [exact F1|]. rewrite V0, V1. replace (49 - 0) with 49 by ring.
    rewrite Rabs_R0, (Rabs_pos_eq 49) by lra.
    assert (bpow radix2 6 <= bpow radix2 1022) by (apply bpow_le; lia). change (bpow radix2 6) with 64 in *.
    assert (bpow radix2 (-1021) <= bpow radix2 0) by (apply bpow_le; lia). change (bpow radix2 0) with 1 in *.
    repeat split; lra. }
  exists (f64_int 0), (f64_int 49). split; [exact Hd|].
  intros be E f N nC deg u Hf HE HN HN2 Hu.
  destruct (C79_points be E f N nC deg _ _ u Hf HE Hd HN HN2 Hu) as (_ & _ & last & Hl & _).
  exists last. split; [exact Hl|].
  destruct N as [|n]; [lia|]. assert (H1 : (1 <= n)%nat) by lia. assert (H2 : (Z.of_nat n < 2 ^ 51)%Z) by lia.
  replace (S n - 1)%nat with n in Hl by lia.
  unfold point64 in Hl. rewrite (utfc64_points be E f n nC deg _ _ u Hf H1 Hu), nth_error_map, nth_error_seq in Hl.
  replace (n <? S n)%nat with true in Hl by (symmetry; apply Nat.ltb_lt; lia). cbn [option_map] in Hl.
  destruct (is_finite _); [|discriminate].
  assert (El : last = val (pt E n (f64_int 0) (f64_int 49) n)) by congruence. rewrite El.
  rewrite (pt_last_same E n _ _ HE H1 H2 Hd). rewrite V1.
  set (z := oadd F64 _ _).
  assert (Ez : B2SF z = SpecFloat.S754_finite false 6896136929411073 (-47)) by (vm_compute; reflexivity).
  unfold val. rewrite <- SF2R_B2SF, Ez. unfold SF2R, F2R. cbn [Fnum Fexp SpecFloat.cond_Zopp cond_Zopp].
  apply Rmult_lt_reg_r with (bpow radix2 47); [apply bpow_gt_0|]. rewrite Rmult_assoc, <- bpow_plus.
  change (-47 + 47)%Z with 0%Z. change (bpow radix2 0) with 1. change (bpow radix2 47) with (IZR (2 ^ 47)).
  rewrite Rmult_1_r, <- mult_IZR. apply IZR_lt. reflexivity.
Qed.
Print Assumptions C79_inside_refuted.

(** a correctly rounded library is accurate, and an object exists *)
Example C79_case : accurate exact_lib /\
  exists u, utfc64 Cpp exact_lib CP 5 (NcInt 2) 8 (f64_int 0) (f64_int 3) = Some u /\ point64 u 4 = Some 3.
Proof.
  split; [exact exact_lib_accurate|].
  destruct (f64_int_ok 0 eq_refl) as [F0 V0]. destruct (f64_int_ok 3 eq_refl) as [F1 V1].
  assert (Hd : ordinary_domain (f64_int 0) (f64_int 3)).
  { split; [exact F0|]. split; [exact F1|]. rewrite V0, V1. replace (3 - 0) with 3 by ring.
    rewrite Rabs_R0, (Rabs_pos_eq 3) by lra.
    assert (bpow radix2 6 <= bpow radix2 1022) by (apply bpow_le; lia). change (bpow radix2 6) with 64 in *.
    assert (bpow radix2 (-1021) <= bpow radix2 0) by (apply bpow_le; lia). change (bpow radix2 0) with 1 in *.
    repeat split; lra. }
  destruct (utfc64 Cpp exact_lib CP 5 (NcInt 2) 8 (f64_int 0) (f64_int 3)) as [u|] eqn:Hu; [|discriminate Hu].
  exists u. split; [reflexivity|].
  pose proof (utfc64_points _ _ _ 4 _ _ _ _ u (or_introl eq_refl) ltac:(lia) Hu) as Ex.
  unfold point64. rewrite Ex, nth_error_map, nth_error_seq. cbn [Nat.ltb Nat.leb option_map].
  destruct (pt_ok exact_lib exact_lib_accurate 4 ltac:(lia) eq_refl _ _ Hd 4 ltac:(lia)) as [F _].
  unfold fin in F. rewrite F. f_equal. rewrite (pt_last_same exact_lib 4 _ _ exact_lib_accurate ltac:(lia) eq_refl Hd).
  rewrite <- V1. unfold val. set (z := oadd F64 _ _).
  assert (Ez : B2SF z = B2SF (f64_int 3)) by (vm_compute; reflexivity). apply B2SF_inj in Ez. rewrite Ez. reflexivity.
Qed.
