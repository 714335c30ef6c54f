(** Forward error of the partial derivatives of the n-dimensional Chebyshev and Legendre functions in binary64. *)
From Coq Require Import ZArith Reals Lia Lra List Arith Bool.
From Flocq Require Import Core BinarySingleNaN Relative.
From Verif Require Import Base ProofBase Numbers Numbers64 ModelBFPy ModelBFCpp SpecBasis ModelND SpecND ProofND SpecBits
  ProofH ProofBits ProofBits64 SpecNBits ProofNBits ProofNBits64 ProofErr SpecErr SpecErrD ProofNErr ProofErrD.
Import ListNotations.
Open Scope R_scope.

(** ** products of numbers of different sizes *)
Lemma prodn_le n F G : (forall k, (k < n)%nat -> 0 <= F k <= G k) -> 0 <= prodn n F <= prodn n G.
Proof.
  induction n as [|n IH]; intros H; cbn [prodn]; [lra|]. destruct IH as [I1 I2]; [intros; apply H; lia|].
  destruct (H n ltac:(lia)) as [H1 H2]. split; [apply Rmult_le_pos; assumption|]. apply Rmult_le_compat; assumption.
Qed.
Lemma prodn_up n j F : (j <= n)%nat -> (forall k, (k < n)%nat -> 1 <= F k) -> prodn j F <= prodn n F.
Proof.
  intros Hj HF. induction n as [|n IH]; [replace j with 0%nat by lia; apply Rle_refl|].
  destruct (Nat.eq_dec j (S n)) as [->|]; [apply Rle_refl|]. specialize (IH ltac:(lia) ltac:(intros; apply HF; lia)).
  cbn [prodn]. specialize (HF n ltac:(lia)) as Hn.
  assert (0 <= prodn n F) by (apply (prodn_le n F F); intros k Hk; specialize (HF k ltac:(lia)); lra).
  assert (prodn n F * 1 <= prodn n F * F n) by (apply Rmult_le_compat_l; assumption). lra.
Qed.
Lemma prodn_down n j F : (j <= n)%nat -> (forall k, (k < n)%nat -> 0 <= F k <= 1) -> prodn n F <= prodn j F.
Proof.
  intros Hj HF. induction n as [|n IH]; [replace j with 0%nat by lia; apply Rle_refl|].
  destruct (Nat.eq_dec j (S n)) as [->|]; [apply Rle_refl|]. specialize (IH ltac:(lia) ltac:(intros; apply HF; lia)).
  cbn [prodn]. specialize (HF n ltac:(lia)) as Hn.
  assert (0 <= prodn n F) by (apply (prodn_le n F F); intros k Hk; specialize (HF k ltac:(lia)); lra).
  assert (prodn n F * F n <= prodn n F * 1) by (apply Rmult_le_compat_l; lra). lra.
Qed.

Lemma prod_errS n (Fh : nat -> f64) (F eps S : nat -> R) :
  (forall k, (k < n)%nat -> 0 <= eps k /\ 0 < S k /\ fin (Fh k) /\ Rabs (val (Fh k) - F k) <= eps k * S k /\ Rabs (F k) <= S k) ->
  (forall j, (j <= n)%nat -> bpow radix2 (-1000) <= prodn j S <= bpow radix2 1000) ->
  sumn n (fun k => eps k + u) <= 1/2 ->
  fin (gprod F64 n Fh) /\ Rabs (prodn n F) <= prodn n S /\ 0 <= sumn n (fun k => eps k + u) /\
  Rabs (val (gprod F64 n Fh) - prodn n F) <= (exp (sumn n (fun k => eps k + u)) - 1) * prodn n S.
Proof.
  pose proof u_pos as Hu.
  induction n as [|n IH]; intros H HR HS.
  - cbn [gprod prodn sumn]. destruct isint_one as [F1 V1]. split; [exact F1|]. rewrite Rabs_R1.
    split; [lra|]. split; [lra|]. rewrite V1, exp_0. replace (IZR 1 - 1) with 0 by ring. rewrite Rabs_R0. lra.
  - cbn [gprod prodn sumn] in *. destruct (H n ltac:(lia)) as (He & Sn0 & Fn & En & Bn).
    destruct IH as (Ft & Bt & S0 & Et); [intros k Hk; apply H; lia|intros j Hj; apply HR; lia|lra|].
    pose proof (HR n ltac:(lia)) as R1. pose proof (HR (Datatypes.S n) (le_n _)) as R2. cbn [prodn] in R2.
    set (Sn := sumn n (fun k => eps k + u)) in *. set (t := gprod F64 n Fh) in *. set (p := prodn n F) in *.
    set (W := prodn n S) in *. assert (B0 : 0 < bpow radix2 (-1000)) by apply bpow_gt_0.
    pose proof (exp_one Sn S0) as HP. set (P := exp Sn) in *.
    assert (HPe : P * (1 + eps n) * (1 + u) <= exp (Sn + (eps n + u))).
    { rewrite exp_plus, exp_plus. fold P. rewrite Rmult_assoc. apply Rmult_le_compat_l; [lra|].
      apply Rmult_le_compat; try lra; apply exp_ineq1_le. }
    assert (HB : exp (Sn + (eps n + u)) <= 2).
    { apply Rle_trans with (1 := exp_lin (Sn + (eps n + u)) ltac:(lra)). lra. }
    assert (Hth : Rabs (val t) <= P * W).
    { replace (val t) with ((val t - p) + p) by ring. apply Rle_trans with (1 := Rabs_triang _ _). lra. }
    assert (Hfh : Rabs (val (Fh n)) <= (1 + eps n) * S n).
    { replace (val (Fh n)) with ((val (Fh n) - F n) + F n) by ring. apply Rle_trans with (1 := Rabs_triang _ _). lra. }
    set (V := W * S n) in *.
    assert (Hpr : Rabs (val t * val (Fh n)) <= P * (1 + eps n) * V).
    { replace (P * (1 + eps n) * V) with (P * W * ((1 + eps n) * S n)) by (unfold V; ring).
      rewrite Rabs_mult. apply Rmult_le_compat; try apply Rabs_pos; assumption. }
    assert (HB1 : 1 <= P * (1 + eps n)) by nra.
    assert (HB2 : P * (1 + eps n) <= 2) by nra.
    assert (HV1 : 1 * V <= P * (1 + eps n) * V) by (apply Rmult_le_compat_r; lra).
    assert (HV2 : P * (1 + eps n) * V <= 2 * V) by (apply Rmult_le_compat_r; lra).
    destruct (mul_okB t (Fh n) Ft Fn) as [Fm Vm].
    { apply Rle_trans with (1 := Hpr). pose proof big16. lra. }
    split; [exact Fm|]. split.
    { rewrite Rabs_mult. apply Rmult_le_compat; try apply Rabs_pos; assumption. }
    split; [lra|]. rewrite Vm.
    pose proof (rnd_errB _ _ Hpr ltac:(lra)) as Er.
    replace (rnd (val t * val (Fh n)) - p * F n) with
      ((rnd (val t * val (Fh n)) - val t * val (Fh n)) + (val t * (val (Fh n) - F n) + (val t - p) * F n)) by ring.
    apply Rle_trans with (1 := Rabs_triang _ _).
    assert (H2 : Rabs (val t * (val (Fh n) - F n) + (val t - p) * F n) <= P * W * (eps n * S n) + (P - 1) * W * S n).
    { apply Rle_trans with (1 := Rabs_triang _ _). rewrite !Rabs_mult.
      apply Rplus_le_compat; apply Rmult_le_compat; try apply Rabs_pos; assumption. }
    replace (P * W * (eps n * S n) + (P - 1) * W * S n) with ((P * eps n + P - 1) * V) in H2 by (unfold V; ring).
    apply Rle_trans with ((P * (1 + eps n) * (1 + u) - 1) * V); [lra|].
    apply Rmult_le_compat_r; lra.
Qed.

(** ** one factor, of any order *)
Definition K1 (k : nat) : R := INR (Nat.max 1 k).
Lemma K1_ge k : 1 <= K1 k. Proof. apply (le_INR 1). lia. Qed.
Lemma K1_le k : INR k <= K1 k. Proof. apply le_INR. lia. Qed.
Definition fsize (x0 xf : f64) (d k : nat) : R := slope (val x0) (val xf) ^ d * K1 k ^ (2 * d).
Definition feps (d k : nat) : R := (21 + 9 * INR d) * K1 k ^ 2 * u.
Lemma feps_pos d k : 0 <= feps d k.
Proof.
  unfold feps. pose proof u_pos. pose proof (pos_INR d). pose proof (K1_ge k). repeat apply Rmult_le_pos; lra.
Qed.

Lemma factor_err x0 xf m d k x f : f = CP \/ f = LeP -> usable_domain x0 xf -> val x0 < val xf -> inside x0 xf x ->
  moderate (val x0) (val xf) m d -> (k < m)%nat ->
  let v := omul F64 (gt F64 f (zof x0 xf x) d k) (opow F64 (coef x0 xf) d) in
  let w := gt ROps f (zex (val x0) (val xf) (val x)) d k * slope (val x0) (val xf) ^ d in
  0 < fsize x0 xf d k /\ fin v /\ Rabs (val v - w) <= feps d k * fsize x0 xf d k /\ Rabs w <= fsize x0 xf d k.
Proof.
  intros Hf Hw Hlt Hx (H1 & H2 & H3 & H4) Hk v w. pose proof u_pos as Hu.
  assert (Hroom : room m d) by (split; assumption).
  pose proof (sc_pos x0 xf Hlt) as Hp. change (sc x0 xf) with (slope (val x0) (val xf)) in Hp.
  pose proof (K1_ge k) as HK1. pose proof (K1_le k) as HK. pose proof (pos_INR k) as Hk0.
  assert (HS : 0 < slope (val x0) (val xf) ^ d) by (apply pow_lt, Hp).
  assert (HKd : 1 <= K1 k ^ (2 * d)) by (apply pow_R1_Rle, HK1).
  pose proof (zex_rng (val x0) (val xf) (val x) Hlt (proj2 Hx)) as Hz.
  pose proof (dbound f _ d Hf Hz k) as Db.
  assert (HKle : INR k ^ (2 * d) <= K1 k ^ (2 * d)) by (apply pow_incr; lra).
  split; [apply Rmult_lt_0_compat; lra|].
  assert (Hww : Rabs w <= fsize x0 xf d k).
  { unfold w, fsize. rewrite Rabs_mult, (Rabs_pos_eq (slope _ _ ^ d)) by lra. rewrite Rmult_comm. apply Rmult_le_compat_l; lra. }
  cut (fin v /\ Rabs (val v - w) <= feps d k * fsize x0 xf d k); [intros [? ?]; repeat split; assumption|].
  destruct (Nat.eq_dec d 0) as [->|Hd].
  - destruct (zof_ok x0 xf Hw Hlt x Hx) as (Fz & _ & Hzh).
    pose proof (zof_err x0 xf x Hw Hlt Hx) as Hze.
    destruct (col_errd f (zof x0 xf x) (zex (val x0) (val xf) (val x)) m Hf Fz Hzh Hz Hze ltac:(lia) 0%nat Hroom k ltac:(lia)) as [Fg Eg].
    destruct (mul_one _ Fg) as [F1 V1]. split; [exact F1|]. unfold v, w. cbn [opow]. rewrite V1. rewrite pow_O, Rmult_1_r.
    apply Rle_trans with (1 := Eg). unfold feps, fsize, cst. change (2 * 0 + 2)%nat with 2%nat. change (2 * 0)%nat with 0%nat. rewrite !pow_O. change (INR 0) with 0.
    assert (INR k ^ 2 <= K1 k ^ 2) by (apply pow_incr; lra).
    assert (0 <= INR k ^ 2) by (apply pow_le; lra).
    assert (0 <= K1 k ^ 2) by (apply pow_le; lra).
    replace ((21 + 9 * 0) * K1 k ^ 2 * u * (1 * 1)) with (21 * K1 k ^ 2 * u) by ring.
    apply Rmult_le_compat_r; [lra|]. lra.
  - destruct (entry_err x0 xf m d k x f Hf Hw Hlt Hx ltac:(lia) Hroom Hk H3 H4) as [Fv Ev].
    split; [exact Fv|]. apply Rle_trans with (1 := Ev). change (sc x0 xf) with (slope (val x0) (val xf)).
    unfold feps, fsize. assert (Hpw : INR k ^ (2 * d + 2) <= K1 k ^ (2 * d) * K1 k ^ 2) by (rewrite <- pow_add; apply pow_incr; lra).
    pose proof (pos_INR d) as HD.
    replace ((21 + 9 * INR d) * K1 k ^ 2 * u * (slope (val x0) (val xf) ^ d * K1 k ^ (2 * d)))
      with ((21 + 9 * INR d) * (K1 k ^ (2 * d) * K1 k ^ 2) * slope (val x0) (val xf) ^ d * u) by ring.
    apply Rmult_le_compat_r; [lra|]. apply Rmult_le_compat_r; [lra|]. apply Rmult_le_compat_l; lra.
Qed.

(** ** sums over the dimensions *)
Lemma sumn_le n a b : (forall k, (k < n)%nat -> a k <= b k) -> sumn n a <= sumn n b.
Proof.
  induction n as [|n IH]; intros H; cbn [sumn]; [lra|]. specialize (H n ltac:(lia)) as Hn.
  specialize (IH ltac:(intros; apply H; lia)). lra.
Qed.
Lemma sumn_nth (l : list nat) : sumn (length l) (fun k => INR (nth k l 0%nat)) = INR (list_sum l).
Proof.
  rewrite <- (sum_nth l). induction (length l) as [|n IH]; [reflexivity|].
  cbn [sumn]. rewrite IH, seq_S, map_app, list_sum_app. cbn [map list_sum fold_right]. rewrite Nat.add_0_r, plus_INR. reflexivity.
Qed.
Lemma nth_le_sum (v : list nat) k : (nth k v 0 <= list_sum v)%nat.
Proof.
  revert k. induction v as [|a v IH]; intros [|k]; cbn [nth list_sum fold_right]; try lia. specialize (IH k). unfold list_sum in IH. lia.
Qed.
Lemma gcol_gtd {T} (A : Ops T) f E a d z : f = CP \/ f = LeP -> gcol A E f a d z = gt A f z d a.
Proof. intros [-> | ->]; reflexivity. Qed.

Lemma nerrd be E f dim x0 xf nC m d full n x : f = CP \/ f = LeP -> args_n f dim x0 xf nC m -> length d = dim ->
  moderate_n dim x0 xf m d ->
  (forall k, (k < dim)%nat -> usable_domain (nth k x0 (f64_int 0)) (nth k xf (f64_int 0)) /\
     val (nth k x0 (f64_int 0)) < val (nth k xf (f64_int 0))) ->
  shaped x dim n ->
  (forall k j t, ment x k j = Some t -> fin t /\ val (nth k x0 (f64_int 0)) <= val t <= val (nth k xf (f64_int 0))) ->
  exists B Br M Mr idx, mkn64 be E f x0 xf nC m = Some B /\ mkn be f (map val x0) (map val xf) nC m = Some Br /\
    Hn64 be E f B x d full = Some M /\
    Hn be f Br (vmat x) d full = Some Mr /\
    NoDup idx /\ (forall v, In v idx <-> admissible dim m nC full v) /\
    shaped M n (length idx) /\ shaped Mr n (length idx) /\
    forall i v j, nth_error idx i = Some v -> (j < n)%nat -> exists a w,
      entry64 M j i = Some a /\ ment Mr j i = Some w /\
      Rabs w <= size_n dim x0 xf d v /\
      Rabs (a - w) <= 2 * (22 * INR dim + 9 * INR (list_sum d)) * INR (Nat.max 1 (list_sum v)) ^ 2 * size_n dim x0 xf d v * u.
Proof.
  intros Hcl Ha Hld (Hm1 & Hm2 & Hm3 & Hm4) Hu Hx Hin. pose proof u_pos as Hup.
  assert (Har : args_n f dim (map val x0) (map val xf) nC m).
  { destruct Ha as (H1 & H2 & H3 & H4 & H5 & H6). repeat split; try assumption; try apply H6; rewrite map_length; assumption. }
  destruct (ninit F64 E be _ _ _ _ _ _ Ha) as (z0 & zf & B & Hdom & EB & Hg).
  destruct (ninit ROps RFun be _ _ _ _ _ _ Har) as (z0r & zfr & Br & Hdomr & EBr & Hgr).
  pose proof Ha as (Hf & Hd1 & Hm & H0 & Hxf & HC).
  assert (Hxr : shaped (vmat x) dim n).
  { destruct Hx as (A1 & A2 & A3 & A4). repeat split; cbn; [exact A1|exact A2|rewrite map_length; exact A3|].
    intros r Hr. apply in_map_iff in Hr as (r' & <- & Hr'). rewrite map_length. apply A4, Hr'. }
  assert (Hd46 : forall k, (k < dim)%nat -> (Z.of_nat (nth k d 0%nat) <= 2 ^ 46)%Z).
  { intros k Hk. destruct (Hm2 k Hk) as (R1 & R2 & _). apply (room_small m (nth k d 0%nat) Hm (conj R1 R2)). }
  exists B, Br. eexists; eexists. exists (idxs dim m (md nC) full).
  split; [exact EB|]. split; [exact EBr|].
  split. { apply (nHgen F64 be E f dim x0 xf nC m z0 zf B x _ full n Ha Hdom Hg Hx); [lia|].
    intros k Hk. apply small_ints64. specialize (Hd46 k Hk). lia. }
  split. { apply (nHgen ROps be RFun f dim _ _ nC m z0r zfr Br (vmat x) _ full n Har Hdomr Hgr Hxr); [lia|].
    intros k Hk. split; [intros; cbn [ROps omul oadd onat]; rewrite plus_INR, mult_INR; reflexivity|]. cbn [ROps omul onat o1]. ring. }
  split; [apply idxs_nodup|]. split; [intros v; apply idxs_in; assumption|].
  split; [apply gndmat_shaped, Hx|]. split; [apply gndmat_shaped, Hxr|].
  intros i v j Hi Hj.
  pose proof (gndmat_ent F64 E f dim m (md nC) x0 (nd_c F64 z0 zf x0 xf) z0 x d full n j i v Hx Hj Hi) as Ee.
  pose proof (gndmat_ent ROps RFun f dim m (md nC) (map val x0) (nd_c ROps z0r zfr (map val x0) (map val xf)) z0r (vmat x) d full n j i v Hxr Hj Hi) as Er.
  assert (Hadm : admissible dim m nC full v).
  { apply idxs_in; [exact Hm|exact HC|]. apply nth_error_In with i, Hi. }
  set (X := fun k => nth j (nth k (md x) []) (o0 F64)).
  assert (HX : forall k, (k < dim)%nat -> inside (nth k x0 (f64_int 0)) (nth k xf (f64_int 0)) (X k) /\
     nth j (nth k (md (vmat x)) []) (o0 ROps) = val (X k)).
  { intros k Hk. destruct (shaped_ent x dim n k j (o0 F64) Hx Hk Hj) as (row & Erow & Hl & He). split.
    - apply (Hin k j). unfold ment. rewrite Erow. exact He.
    - unfold X, vmat. cbn [md]. rewrite (nth_indep (map (map val) (md x)) [] (map val [])) by (rewrite map_length; destruct Hx as (_ & _ & -> & _); exact Hk).
      rewrite map_nth. assert (Hjl : (j < length (nth k (md x) []))%nat).
      { destruct Hx as (_ & _ & L3 & L4). rewrite L4 by (apply nth_In; lia). exact Hj. }
      rewrite (nth_indep (map val _) (o0 ROps) (val (o0 F64))) by (rewrite map_length; exact Hjl). apply map_nth. }
  set (Fh := fun k => gndcol F64 E f x0 (nd_c F64 z0 zf x0 xf) z0 k (X k) (nth k d 0%nat) (nth k v 0%nat)).
  set (G := fun k => gt ROps f (zex (val (nth k x0 (f64_int 0))) (val (nth k xf (f64_int 0))) (val (X k))) (nth k d 0%nat) (nth k v 0%nat)
              * slope (val (nth k x0 (f64_int 0))) (val (nth k xf (f64_int 0))) ^ nth k d 0%nat).
  assert (EG : gndterm ROps RFun f dim (map val x0) (nd_c ROps z0r zfr (map val x0) (map val xf)) z0r
                 (fun k => nth j (nth k (md (vmat x)) []) (o0 ROps)) d v = prodn dim G).
  { unfold gndterm. assert (Hk : forall k, (k < dim)%nat -> gndcol ROps RFun f (map val x0) (nd_c ROps z0r zfr (map val x0) (map val xf)) z0r k
        (nth j (nth k (md (vmat x)) []) (o0 ROps)) (nth k d 0%nat) (nth k v 0%nat) = G k).
    { intros k Hk. destruct (HX k Hk) as [_ ->]. unfold gndcol. rewrite gcol_gtd by exact Hcl.
      unfold gz. rewrite nd_c_nth by (rewrite ?map_length; lia).
      rewrite (nth_indep (map val x0) (o0 ROps) (val (f64_int 0))) by (rewrite map_length; lia).
      rewrite (nth_indep (map val xf) (o0 ROps) (val (f64_int 0))) by (rewrite map_length; lia). rewrite !map_nth.
      destruct (Hu k Hk) as [_ Hlt]. unfold G.
      assert (Ez : oadd ROps (omul ROps (osub ROps (val (X k)) (val (nth k x0 (f64_int 0))))
          (odiv ROps (osub ROps zfr z0r) (osub ROps (val (nth k xf (f64_int 0))) (val (nth k x0 (f64_int 0)))))) z0r
          = zex (val (nth k x0 (f64_int 0))) (val (nth k xf (f64_int 0))) (val (X k))).
      { revert Hlt. generalize (val (nth k x0 (f64_int 0))) (val (nth k xf (f64_int 0))) (val (X k)). intros p0 pf px Hlt.
        unfold zex, SpecBasis.zmap. destruct Hcl as [-> | ->]; cbn in Hdomr; injection Hdomr as <- <-; cbn; field; lra. }
      assert (Ec : odiv ROps (osub ROps zfr z0r) (osub ROps (val (nth k xf (f64_int 0))) (val (nth k x0 (f64_int 0))))
          = slope (val (nth k x0 (f64_int 0))) (val (nth k xf (f64_int 0)))).
      { revert Hlt. generalize (val (nth k x0 (f64_int 0))) (val (nth k xf (f64_int 0))). intros p0 pf Hlt.
        unfold slope. destruct Hcl as [-> | ->]; cbn in Hdomr; injection Hdomr as <- <-; cbn; field; lra. }
      rewrite Ez, Ec, opow_R. reflexivity. }
    apply gprod_R, Hk. }
  rewrite EG in Er.
  set (S := fun k => fsize (nth k x0 (f64_int 0)) (nth k xf (f64_int 0)) (nth k d 0%nat) (nth k v 0%nat)).
  assert (Hka : forall k, (k < dim)%nat -> (nth k v 0 < m)%nat) by (intros k Hk; apply (adm_lt dim m nC full); assumption).
  assert (HF : forall k, (k < dim)%nat -> 0 <= feps (nth k d 0%nat) (nth k v 0%nat) /\ 0 < S k /\ fin (Fh k) /\
     Rabs (val (Fh k) - G k) <= feps (nth k d 0%nat) (nth k v 0%nat) * S k /\ Rabs (G k) <= S k).
  { intros k Hk. destruct (Hu k Hk) as [Hus Hlt]. destruct (HX k Hk) as [HXk _].
    split; [apply feps_pos|].
    assert (Eh : Fh k = omul F64 (gt F64 f (zof (nth k x0 (f64_int 0)) (nth k xf (f64_int 0)) (X k)) (nth k d 0%nat) (nth k v 0%nat))
        (opow F64 (coef (nth k x0 (f64_int 0)) (nth k xf (f64_int 0))) (nth k d 0%nat))).
    { unfold Fh, gndcol. rewrite gcol_gtd by exact Hcl. unfold gz. rewrite nd_c_nth by lia.
      destruct Hcl as [-> | ->]; cbn in Hdom; injection Hdom as <- <-; reflexivity. }
    rewrite Eh. apply (factor_err _ _ m); try assumption; [apply Hm2, Hk|apply Hka, Hk]. }
  assert (ES : prodn dim S = size_n dim x0 xf d v) by reflexivity.
  (* the partial products *)
  assert (HSl : forall k, (k < dim)%nat -> 0 < slope (val (nth k x0 (f64_int 0))) (val (nth k xf (f64_int 0)))).
  { intros k Hk. apply (sc_pos _ _ (proj2 (Hu k Hk))). }
  set (sl := fun k => slope (val (nth k x0 (f64_int 0))) (val (nth k xf (f64_int 0))) ^ nth k d 0%nat) in *.
  assert (HSlp : forall k, (k < dim)%nat -> 0 < sl k) by (intros k Hk; apply pow_lt, HSl, Hk).
  assert (HR : forall q, (q <= dim)%nat -> bpow radix2 (-1000) <= prodn q S <= bpow radix2 1000).
  { intros q Hq. split.
    - apply Rle_trans with (bpow radix2 (-900)); [apply bpow_le; lia|]. apply Rle_trans with (1 := Hm4).
      apply Rle_trans with (prodn q (fun k => Rmin 1 (sl k))).
      + apply prodn_down; [exact Hq|]. intros k Hk. split; [|apply Rmin_l].
        apply Rmin_glb; [lra|]. apply Rlt_le, HSlp, Hk.
      + apply prodn_le. intros k Hk. pose proof (HSlp k ltac:(lia)) as Hp. split; [apply Rmin_glb; lra|].
        apply Rle_trans with (sl k); [apply Rmin_r|]. unfold S, fsize. fold (sl k).
        rewrite <- (Rmult_1_r (sl k)) at 1. apply Rmult_le_compat_l; [lra|]. apply pow_R1_Rle, K1_ge.
    - apply Rle_trans with (bpow radix2 900); [|apply bpow_le; lia]. apply Rle_trans with (2 := Hm3).
      apply Rle_trans with (prodn q (fun k => Rmax 1 (sl k * INR m ^ (2 * nth k d 0%nat)))).
      + apply prodn_le. intros k Hk. pose proof (HSlp k ltac:(lia)) as Hp. split.
        * apply Rlt_le, HF. lia.
        * apply Rle_trans with (2 := Rmax_r _ _). unfold S, fsize. fold (sl k).
          apply Rmult_le_compat_l; [lra|]. apply pow_incr. split; [pose proof (K1_ge (nth k v 0%nat)); lra|].
          apply le_INR. specialize (Hka k ltac:(lia)). lia.
      + apply prodn_up; [exact Hq|]. intros k Hk. apply Rmax_l. }
  set (s := Nat.max 1 (list_sum v)).
  assert (Hsum : sumn dim (fun k => feps (nth k d 0%nat) (nth k v 0%nat) + u) <= (22 * INR dim + 9 * INR (list_sum d)) * INR s ^ 2 * u).
  { apply Rle_trans with (sumn dim (fun k => INR s ^ 2 * u * (22 + 9 * INR (nth k d 0%nat)))).
    - apply sumn_le. intros k Hk. unfold feps.
      assert (HK : K1 (nth k v 0%nat) ^ 2 <= INR s ^ 2).
      { apply pow_incr. split; [pose proof (K1_ge (nth k v 0%nat)); lra|]. apply le_INR. pose proof (nth_le_sum v k). unfold s. lia. }
      assert (H1s : 1 <= INR s ^ 2) by (apply pow_R1_Rle, (le_INR 1); unfold s; lia).
      pose proof (pos_INR (nth k d 0%nat)) as HD. set (D := INR (nth k d 0%nat)) in *.
      assert ((21 + 9 * D) * K1 (nth k v 0%nat) ^ 2 <= (21 + 9 * D) * INR s ^ 2) by (apply Rmult_le_compat_l; lra).
      replace (INR s ^ 2 * u * (22 + 9 * D)) with (((21 + 9 * D) * INR s ^ 2 + INR s ^ 2) * u) by ring.
      replace ((21 + 9 * D) * K1 (nth k v 0%nat) ^ 2 * u + u) with (((21 + 9 * D) * K1 (nth k v 0%nat) ^ 2 + 1) * u) by ring.
      apply Rmult_le_compat_r; lra.
    - rewrite sumn_scal, (sumn_plus dim (fun _ => 22) (fun k => 9 * INR (nth k d 0%nat))), sumn_const, sumn_scal.
      rewrite <- Hld, sumn_nth. right. ring. }
  assert (Hsm : (22 * INR dim + 9 * INR (list_sum d)) * INR s ^ 2 * u <= 1/2).
  { replace (1/2) with (bpow radix2 52 * u).
    2:{ unfold u. rewrite <- bpow_plus. change (bpow radix2 (52 + -53)) with (/ 2). lra. }
    apply Rmult_le_compat_r; [lra|]. apply Rle_trans with (2 := Hm1). pose proof (pos_INR dim). pose proof (pos_INR (list_sum d)).
    apply Rmult_le_compat_l; [lra|]. apply pow_incr. split; [apply pos_INR|]. apply le_INR. unfold s.
    destruct Hadm as (_ & Hs & _). lia. }
  destruct (prod_errS dim Fh G _ S HF HR ltac:(lra)) as (Fp & Bp & Hs0 & Ep).
  exists (val (gprod F64 dim Fh)), (prodn dim G).
  split; [apply entry64_ment; [exact Ee|exact Fp]|]. split; [exact Er|].
  rewrite ES in Bp, Ep. split; [exact Bp|].
  apply Rle_trans with (1 := Ep). pose proof (Rle_trans _ _ _ (Rabs_pos _) Bp) as Hsz.
  match type of Hs0 with 0 <= ?e => assert (H2 : exp e <= 1 + 2 * e) by (apply exp_lin; lra) end.
  replace (2 * (22 * INR dim + 9 * INR (list_sum d)) * INR s ^ 2 * size_n dim x0 xf d v * u)
    with (2 * ((22 * INR dim + 9 * INR (list_sum d)) * INR s ^ 2 * u) * size_n dim x0 xf d v) by ring.
  apply Rmult_le_compat_r; [exact Hsz|]. lra.
Qed.
