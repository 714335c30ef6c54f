(** Forward error of the n-dimensional Chebyshev and Legendre matrices in binary64. *)
From Coq Require Import ZArith Reals Lia Lra List Arith Bool.
From Flocq Require Import Core BinarySingleNaN Relative.
From Verif Require Import Base ProofBase Numbers Numbers64 ModelBFPy ModelBFCpp SpecBasis ModelND SpecND ProofND SpecBits
  ProofH ProofBits ProofBits64 SpecNBits ProofNBits ProofNBits64 ProofErr SpecErr.
Import ListNotations.
Open Scope R_scope.

Fixpoint sumn (n : nat) (e : nat -> R) : R := match n with O => 0 | S n' => sumn n' e + e n' end.

Lemma exp_lin x : 0 <= x <= 1/2 -> exp x <= 1 + 2 * x.
Proof.
  intros Hx. pose proof (exp_ineq1_le (- x)) as H. rewrite exp_Ropp in H. pose proof (exp_pos x) as Hp.
  apply Rmult_le_compat_r with (r := exp x) in H; [|lra]. rewrite Rinv_l in H by lra. nra.
Qed.
Lemma exp_one x : 0 <= x -> 1 <= exp x.
Proof. intros H. pose proof (exp_ineq1_le x). lra. Qed.

Lemma prod_err n (Fh : nat -> f64) (F eps : nat -> R) :
  (forall k, (k < n)%nat -> fin (Fh k) /\ Rabs (val (Fh k) - F k) <= eps k /\ Rabs (F k) <= 1) ->
  sumn n (fun k => eps k + u) <= 1/2 ->
  fin (gprod F64 n Fh) /\ Rabs (prodn n F) <= 1 /\ 0 <= sumn n (fun k => eps k + u) /\
  Rabs (val (gprod F64 n Fh) - prodn n F) <= exp (sumn n (fun k => eps k + u)) - 1.
Proof.
  pose proof u_pos as Hu.
  induction n as [|n IH]; intros H HS.
  - cbn [gprod prodn sumn]. destruct isint_one as [F1 V1]. split; [exact F1|]. rewrite Rabs_R1.
    split; [lra|]. split; [lra|]. rewrite V1, exp_0. replace (IZR 1 - 1) with 0 by ring. rewrite Rabs_R0. lra.
  - cbn [gprod prodn sumn] in *. destruct (H n ltac:(lia)) as (Fn & En & Bn).
    assert (He : 0 <= eps n) by (apply Rle_trans with (2 := En); apply Rabs_pos).
    destruct IH as (Ft & Bt & S0 & Et); [intros k Hk; apply H; lia|lra|].
    set (Sn := sumn n (fun k => eps k + u)) in *. set (t := gprod F64 n Fh) in *. set (p := prodn n F) in *.
    pose proof (exp_one Sn S0) as HP. set (P := exp Sn) in *.
    assert (HPe : P * (1 + eps n) * (1 + u) <= exp (Sn + (eps n + u))).
    { rewrite exp_plus, exp_plus. fold P. rewrite Rmult_assoc. apply Rmult_le_compat_l; [lra|].
      apply Rmult_le_compat; try lra; apply exp_ineq1_le. }
    assert (HB : exp (Sn + (eps n + u)) <= 2).
    { apply Rle_trans with (1 := exp_lin (Sn + (eps n + u)) ltac:(lra)). lra. }
    assert (Hth : Rabs (val t) <= P).
    { replace (val t) with ((val t - p) + p) by ring. apply Rle_trans with (1 := Rabs_triang _ _). lra. }
    assert (Hfh : Rabs (val (Fh n)) <= 1 + eps n).
    { replace (val (Fh n)) with ((val (Fh n) - F n) + F n) by ring. apply Rle_trans with (1 := Rabs_triang _ _). lra. }
    assert (Hpr : Rabs (val t * val (Fh n)) <= P * (1 + eps n)).
    { rewrite Rabs_mult. apply Rmult_le_compat; try apply Rabs_pos; assumption. }
    assert (HB1 : 1 <= P * (1 + eps n)) by nra.
    assert (HB2 : P * (1 + eps n) <= 2) by nra.
    destruct (mul_ok t (Fh n) Ft Fn) as [Fm Vm].
    { apply Rle_trans with (1 := Hpr). pose proof c60 as H6. unfold C60 in H6. lra. }
    split; [exact Fm|]. split.
    { rewrite Rabs_mult. rewrite <- (Rmult_1_r 1). apply Rmult_le_compat; try apply Rabs_pos; assumption. }
    split; [lra|]. rewrite Vm.
    pose proof (rnd_err _ _ Hpr HB1) as Er.
    replace (rnd (val t * val (Fh n)) - p * F n) with
      ((rnd (val t * val (Fh n)) - val t * val (Fh n)) + (val t * (val (Fh n) - F n) + (val t - p) * F n)) by ring.
    apply Rle_trans with (1 := Rabs_triang _ _).
    assert (H2 : Rabs (val t * (val (Fh n) - F n) + (val t - p) * F n) <= P * eps n + (P - 1) * 1).
    { apply Rle_trans with (1 := Rabs_triang _ _). rewrite !Rabs_mult.
      apply Rplus_le_compat; apply Rmult_le_compat; try apply Rabs_pos; lra. }
    lra.
Qed.

Lemma sumn_const n c : sumn n (fun _ => c) = INR n * c.
Proof. induction n as [|n IH]; cbn [sumn]; [cbn; ring|]. rewrite IH, S_INR. ring. Qed.
Lemma sumn_plus n a b : sumn n (fun k => a k + b k) = sumn n a + sumn n b.
Proof. induction n as [|n IH]; cbn [sumn]; [ring|]. rewrite IH. ring. Qed.
Lemma sumn_scal n c a : sumn n (fun k => c * a k) = c * sumn n a.
Proof. induction n as [|n IH]; cbn [sumn]; [ring|]. rewrite IH. ring. Qed.
Lemma sumn_sq (g : nat -> nat) n :
  sumn n (fun k => INR (g k) ^ 2) <= INR (list_sum (map g (seq 0 n))) ^ 2.
Proof.
  induction n as [|n IH]; [cbn; lra|]. cbn [sumn]. rewrite seq_S, map_app, list_sum_app. cbn [map list_sum fold_right].
  rewrite Nat.add_0_r, plus_INR. cbn [Nat.add]. pose proof (pos_INR (g n)). pose proof (pos_INR (list_sum (map g (seq 0 n)))). nra.
Qed.

Lemma nHgen {T} (A : Ops T) be E f dim x0 xf nC m z0 zf B x d full n : args_n f dim x0 xf nC m ->
  nd_dom A E f = Some (z0, zf) -> gnb dim m (md nC) x0 (nd_c A z0 zf x0 xf) z0 B ->
  shaped x dim n -> (dim <= length d)%nat -> (forall k, (k < dim)%nat -> small_ints A (nth k d 0%nat)) ->
  nd_H A E be f B x d full = Some (gndmat A E f dim m (md nC) x0 (nd_c A z0 zf x0 xf) z0 x d full).
Proof.
  intros (Hf & Hd1 & Hm & H0 & Hxf & HC) Hdom Hg Hx Hd Hs. destruct be; cbn [nd_H].
  - eapply gpy_nH; eassumption.
  - eapply gcpp_nH; eassumption.
Qed.

Lemma eps_bound k : INR k * (10 * u) + (15 * u + 2 * (10 * u)) * (INR k * (INR k - 1) / 2) <= 18 * u * INR k ^ 2.
Proof.
  pose proof u_pos as Hu. replace (INR k * (10 * u) + (15 * u + 2 * (10 * u)) * (INR k * (INR k - 1) / 2))
    with (u * (10 * INR k + 35 * (INR k * (INR k - 1) / 2))) by field.
  replace (18 * u * INR k ^ 2) with (u * (18 * INR k ^ 2)) by ring. apply Rmult_le_compat_l; [lra|].
  destruct k as [|k]; [cbn; lra|]. assert (1 <= INR (S k)) by (rewrite S_INR; pose proof (pos_INR k); lra). nra.
Qed.

Lemma gprod_R n F G : (forall k, (k < n)%nat -> F k = G k) -> gprod ROps n F = prodn n G.
Proof.
  induction n as [|n IH]; intros H; [reflexivity|]. cbn [gprod prodn]. rewrite IH by (intros; apply H; lia).
  rewrite H by lia. reflexivity.
Qed.

Lemma nerr be E f dim x0 xf nC m full n x : f = CP \/ f = LeP -> args_n f dim x0 xf nC m ->
  (Z.of_nat m <= 2 ^ 22)%Z -> (Z.of_nat dim <= 2 ^ 50)%Z ->
  (forall k, (k < dim)%nat -> usable_domain (nth k x0 (f64_int 0)) (nth k xf (f64_int 0)) /\
     val (nth k x0 (f64_int 0)) < val (nth k xf (f64_int 0))) ->
  shaped x dim n ->
  (forall k j t, ment x k j = Some t -> fin t /\ val (nth k x0 (f64_int 0)) <= val t <= val (nth k xf (f64_int 0))) ->
  exists B Br M Mr idx, mkn64 be E f x0 xf nC m = Some B /\ mkn be f (map val x0) (map val xf) nC m = Some Br /\
    Hn64 be E f B x (repeat 0%nat dim) full = Some M /\
    Hn be f Br (vmat x) (repeat 0%nat dim) full = Some Mr /\
    NoDup idx /\ (forall v, In v idx <-> admissible dim m nC full v) /\
    shaped M n (length idx) /\ shaped Mr n (length idx) /\
    forall i v j, nth_error idx i = Some v -> (j < n)%nat -> exists a w,
      entry64 M j i = Some a /\ ment Mr j i = Some w /\
      Rabs (a - w) <= 2 * (INR dim + 18 * INR (list_sum v) ^ 2) * u.
Proof.
  intros Hcl Ha Hmb Hdb Hu Hx Hin.
  assert (Har : args_n f dim (map val x0) (map val xf) nC m).
  { destruct Ha as (H1 & H2 & H3 & H4 & H5 & H6). repeat split; try assumption; try apply H6; rewrite map_length; assumption. }
  destruct (ninit F64 E be _ _ _ _ _ _ Ha) as (z0 & zf & B & Hdom & EB & Hg).
  destruct (ninit ROps RFun be _ _ _ _ _ _ Har) as (z0r & zfr & Br & Hdomr & EBr & Hgr).
  pose proof Ha as (Hf & Hd1 & Hm & H0 & Hxf & HC).
  assert (Hxr : shaped (vmat x) dim n).
  { destruct Hx as (A1 & A2 & A3 & A4). repeat split; cbn; [exact A1|exact A2|rewrite map_length; exact A3|].
    intros r Hr. apply in_map_iff in Hr as (r' & <- & Hr'). rewrite map_length. apply A4, Hr'. }
  assert (Hn0 : forall k, nth k (repeat 0%nat dim) 0%nat = 0%nat) by (intros k; apply nth_repeat).
  exists B, Br. eexists; eexists. exists (idxs dim m (md nC) full).
  split; [exact EB|]. split; [exact EBr|].
  split. { apply (nHgen F64 be E f dim x0 xf nC m z0 zf B x _ full n Ha Hdom Hg Hx); [rewrite repeat_length; lia|].
    intros k Hk. rewrite Hn0. apply small_ints64. reflexivity. }
  split. { apply (nHgen ROps be RFun f dim _ _ nC m z0r zfr Br (vmat x) _ full n Har Hdomr Hgr Hxr); [rewrite repeat_length; lia|].
    intros k Hk. rewrite Hn0. split; [intros; lia|]. cbn [ROps omul onat o1]. ring. }
  split; [apply idxs_nodup|]. split; [intros v; apply idxs_in; assumption|].
  split; [apply gndmat_shaped, Hx|]. split; [apply gndmat_shaped, Hxr|].
  intros i v j Hi Hj.
  pose proof (gndmat_ent F64 E f dim m (md nC) x0 (nd_c F64 z0 zf x0 xf) z0 x (repeat 0%nat dim) full n j i v Hx Hj Hi) as Ee.
  pose proof (gndmat_ent ROps RFun f dim m (md nC) (map val x0) (nd_c ROps z0r zfr (map val x0) (map val xf)) z0r (vmat x) (repeat 0%nat dim) full n j i v Hxr Hj Hi) as Er.
  assert (Hadm : admissible dim m nC full v).
  { apply idxs_in; [exact Hm|exact HC|]. apply nth_error_In with i, Hi. }
  set (X := fun k => nth j (nth k (md x) []) (o0 F64)).
  assert (HX : forall k, (k < dim)%nat -> inside (nth k x0 (f64_int 0)) (nth k xf (f64_int 0)) (X k) /\
     nth j (nth k (md (vmat x)) []) (o0 ROps) = val (X k)).
  { intros k Hk. destruct (shaped_ent x dim n k j (o0 F64) Hx Hk Hj) as (row & Erow & Hl & He). split.
    - apply (Hin k j). unfold ment. rewrite Erow. exact He.
    - unfold X, vmat. cbn [md]. rewrite (nth_indep (map (map val) (md x)) [] (map val [])) by (rewrite map_length; destruct Hx as (_ & _ & -> & _); exact Hk).
      rewrite map_nth. assert (Hjl : (j < length (nth k (md x) []))%nat).
      { destruct Hx as (_ & _ & L3 & L4). rewrite L4 by (apply nth_In; lia). exact Hj. }
      rewrite (nth_indep (map val _) (o0 ROps) (val (o0 F64))) by (rewrite map_length; exact Hjl). apply map_nth. }
  set (Fh := fun k => gndcol F64 E f x0 (nd_c F64 z0 zf x0 xf) z0 k (X k) (nth k (repeat 0%nat dim) 0%nat) (nth k v 0%nat)).
  set (G := fun k => pR f (zex (val (nth k x0 (f64_int 0))) (val (nth k xf (f64_int 0))) (val (X k))) (nth k v 0%nat)).
  assert (EG : gndterm ROps RFun f dim (map val x0) (nd_c ROps z0r zfr (map val x0) (map val xf)) z0r
                 (fun k => nth j (nth k (md (vmat x)) []) (o0 ROps)) (repeat 0%nat dim) v = prodn dim G).
  { unfold gndterm. assert (Hk : forall k, (k < dim)%nat -> gndcol ROps RFun f (map val x0) (nd_c ROps z0r zfr (map val x0) (map val xf)) z0r k
        (nth j (nth k (md (vmat x)) []) (o0 ROps)) (nth k (repeat 0%nat dim) 0%nat) (nth k v 0%nat) = G k).
    { intros k Hk. destruct (HX k Hk) as [_ ->]. unfold gndcol. rewrite Hn0. cbn [opow]. cbn [ROps omul o1]. rewrite Rmult_1_r.
      unfold gz. rewrite nd_c_nth by (rewrite ?map_length; lia).
      rewrite (nth_indep (map val x0) (o0 ROps) (val (f64_int 0))) by (rewrite map_length; lia).
      rewrite (nth_indep (map val xf) (o0 ROps) (val (f64_int 0))) by (rewrite map_length; lia). rewrite !map_nth.
      destruct (Hu k Hk) as [_ Hlt]. unfold G.
      assert (Ez : oadd ROps (omul ROps (osub ROps (val (X k)) (val (nth k x0 (f64_int 0))))
          (odiv ROps (osub ROps zfr z0r) (osub ROps (val (nth k xf (f64_int 0))) (val (nth k x0 (f64_int 0)))))) z0r
          = zex (val (nth k x0 (f64_int 0))) (val (nth k xf (f64_int 0))) (val (X k))).
      { revert Hlt. generalize (val (nth k x0 (f64_int 0))) (val (nth k xf (f64_int 0))) (val (X k)). intros p0 pf px Hlt.
        unfold zex, SpecBasis.zmap. destruct Hcl as [-> | ->]; cbn in Hdomr; injection Hdomr as <- <-; cbn; field; lra. }
      rewrite Ez. destruct Hcl as [-> | ->]; reflexivity. }
    apply gprod_R, Hk. }
  rewrite EG in Er.
  assert (HF : forall k, (k < dim)%nat -> fin (Fh k) /\ Rabs (val (Fh k) - G k) <= 18 * u * INR (nth k v 0%nat) ^ 2 /\ Rabs (G k) <= 1).
  { intros k Hk. destruct (Hu k Hk) as [Hus Hlt]. destruct (HX k Hk) as [HXk _].
    assert (Hka : (nth k v 0 < m)%nat) by (apply (adm_lt dim m nC full); assumption).
    destruct (zof_ok _ _ Hus Hlt _ HXk) as (Fz & _ & Hz).
    destruct (col_err f _ (zex (val (nth k x0 (f64_int 0))) (val (nth k xf (f64_int 0))) (val (X k))) (10 * u) (nth k v 0%nat) Hcl Fz Hz) as [Fc Ec].
    { apply zex_rng; [exact Hlt|apply HXk]. } { apply zof_err; assumption. } { lra. } { lia. }
    destruct (mul_one _ Fc) as [F1 V1].
    assert (Eh : Fh k = omul F64 (gt F64 f (zof (nth k x0 (f64_int 0)) (nth k xf (f64_int 0)) (X k)) 0 (nth k v 0%nat)) (o1 F64)).
    { unfold Fh, gndcol. rewrite Hn0, gcol_gt by exact Hcl. cbn [opow]. unfold gz. rewrite nd_c_nth by lia.
      destruct Hcl as [-> | ->]; cbn in Hdom; injection Hdom as <- <-; reflexivity. }
    rewrite Eh. split; [exact F1|]. rewrite V1. split.
    - apply Rle_trans with (1 := Ec). apply eps_bound.
    - apply pR_bound; [exact Hcl|]. apply zex_rng; [exact Hlt|apply HXk]. }
  assert (Hsum : sumn dim (fun k => 18 * u * INR (nth k v 0%nat) ^ 2 + u) <= (INR dim + 18 * INR (list_sum v) ^ 2) * u).
  { rewrite (sumn_plus dim (fun k => 18 * u * INR (nth k v 0%nat) ^ 2) (fun _ => u)), sumn_const, sumn_scal.
    pose proof (sumn_sq (fun k => nth k v 0%nat) dim) as Hq. destruct Hadm as (Hvl & _).
    rewrite <- Hvl in Hq at 2. rewrite sum_nth in Hq. pose proof u_pos. nra. }
  assert (Hsm : (INR dim + 18 * INR (list_sum v) ^ 2) * u <= 1/2).
  { assert (Hu53 : u * 9007199254740992 = 1).
    { unfold u. change 9007199254740992 with (bpow radix2 53). rewrite <- bpow_plus. reflexivity. }
    assert (D1 : INR dim <= 1125899906842624) by (rewrite INR_IZR_INZ; apply IZR_le; lia).
    assert (D2 : INR (list_sum v) <= 4194304).
    { rewrite INR_IZR_INZ; apply IZR_le. destruct Hadm as (_ & Hs & _). lia. }
    pose proof (pos_INR (list_sum v)) as Hp. pose proof u_pos as Hup.
    assert (D3 : INR (list_sum v) ^ 2 <= 4194304 * 4194304) by nra.
    apply Rle_trans with ((1125899906842624 + 18 * (4194304 * 4194304)) * u); [apply Rmult_le_compat_r; lra|lra]. }
  destruct (prod_err dim Fh G _ HF ltac:(lra)) as (Fp & _ & Hs0 & Ep).
  exists (val (gprod F64 dim Fh)), (prodn dim G).
  split; [apply entry64_ment; [exact Ee|exact Fp]|]. split; [exact Er|].
  apply Rle_trans with (1 := Ep). match type of Hs0 with 0 <= ?e => assert (H2 : exp e <= 1 + 2 * e) by (apply exp_lin; lra) end. lra.
Qed.
