(** Bounds of binary64 computations, and the ELM cells. *)
From Coq Require Import ZArith Reals Lia Lra List Arith Bool.
From Flocq Require Import Core BinarySingleNaN Relative.
From Verif Require Import Base ProofBase Numbers64 ModelBFPy ModelBFCpp ProofTab ProofBFPy ProofBFCpp SpecBasis ProofH
  SpecBits ProofBits ProofBits64 ModelELM SpecELM ProofELM SpecELM64 ProofELM64.
Import ListNotations.
Open Scope R_scope.

Definition bnd (x : f64) (e : Z) : Prop := fin x /\ Rabs (val x) <= bpow radix2 e.

Lemma bnd_le x e f : bnd x e -> (e <= f)%Z -> bnd x f.
Proof. intros [F H] L. split; [exact F|]. eapply Rle_trans; [exact H|]. apply bpow_le, L. Qed.
Lemma rnd_bnd x e : (-1074 <= e <= 1023)%Z -> Rabs x <= bpow radix2 e -> Rabs (rnd x) <= bpow radix2 e.
Proof.
  intros He H. apply abs_round_le_generic; [apply (fexp_correct 53 1024 _)|apply valid_rnd_N|apply gen_bpow; lia|exact H].
Qed.
Lemma rnd_ovf x e : (-1074 <= e <= 1023)%Z -> Rabs x <= bpow radix2 e -> Rlt_bool (Rabs (rnd x)) (bpow radix2 1024) = true.
Proof.
  intros He H. apply Rlt_bool_true. eapply Rle_lt_trans; [apply (rnd_bnd _ e He H)|]. apply bpow_lt. lia.
Qed.
Lemma sum_bnd a b e f : Rabs a <= bpow radix2 e -> Rabs b <= bpow radix2 f -> Rabs a + Rabs b <= bpow radix2 (Z.max e f + 1).
Proof.
  intros Ha Hb. rewrite bpow_plus. change (bpow radix2 1) with 2.
  assert (bpow radix2 e <= bpow radix2 (Z.max e f)) by (apply bpow_le; lia).
  assert (bpow radix2 f <= bpow radix2 (Z.max e f)) by (apply bpow_le; lia). lra.
Qed.
Lemma bnd_add x y e f : bnd x e -> bnd y f -> (-1074 <= Z.max e f + 1 <= 1023)%Z -> bnd (oadd F64 x y) (Z.max e f + 1).
Proof.
  intros [Fx Hx] [Fy Hy] L. pose proof (Bplus_correct 53 1024 _ _ mode_NE x y Fx Fy) as C.
  assert (H : Rabs (val x + val y) <= bpow radix2 (Z.max e f + 1)).
  { eapply Rle_trans; [apply Rabs_triang|]. apply sum_bnd; assumption. }
  unfold val in *. rewrite (rnd_ovf _ _ L H) in C. destruct C as (C1 & C2 & _).
  split; [exact C2|]. unfold val. cbn [F64 oadd]. rewrite C1. apply (rnd_bnd _ _ L H).
Qed.
Lemma bnd_sub x y e f : bnd x e -> bnd y f -> (-1074 <= Z.max e f + 1 <= 1023)%Z -> bnd (osub F64 x y) (Z.max e f + 1).
Proof.
  intros [Fx Hx] [Fy Hy] L. pose proof (Bminus_correct 53 1024 _ _ mode_NE x y Fx Fy) as C.
  assert (H : Rabs (val x - val y) <= bpow radix2 (Z.max e f + 1)).
  { eapply Rle_trans; [apply Rabs_triang|]. rewrite Rabs_Ropp. apply sum_bnd; assumption. }
  unfold val in *. rewrite (rnd_ovf _ _ L H) in C. destruct C as (C1 & C2 & _).
  split; [exact C2|]. unfold val. cbn [F64 osub]. rewrite C1. apply (rnd_bnd _ _ L H).
Qed.
Lemma bnd_mul x y e f : bnd x e -> bnd y f -> (-1074 <= e + f <= 1023)%Z -> bnd (omul F64 x y) (e + f).
Proof.
  intros [Fx Hx] [Fy Hy] L. pose proof (Bmult_correct 53 1024 _ _ mode_NE x y) as C.
  assert (H : Rabs (val x * val y) <= bpow radix2 (e + f)).
  { rewrite Rabs_mult, bpow_plus. apply Rmult_le_compat; try apply Rabs_pos; assumption. }
  unfold val in *. rewrite (rnd_ovf _ _ L H) in C. destruct C as (C1 & C2 & _). unfold fin in *. rewrite Fx, Fy in C2.
  split; [exact C2|]. unfold val. cbn [F64 omul]. rewrite C1. apply (rnd_bnd _ _ L H).
Qed.
Lemma bnd_opp x e : bnd x e -> bnd (oopp F64 x) e.
Proof.
  intros [Fx Hx]. split; [unfold fin in *; cbn [F64 oopp]; rewrite is_finite_Bopp; exact Fx|].
  unfold val in *. cbn [F64 oopp]. rewrite B2R_Bopp, Rabs_Ropp. exact Hx.
Qed.
Lemma bnd_one : bnd (o1 F64) 0.
Proof. destruct isint_one as [F V]. split; [exact F|]. rewrite V, Rabs_R1. right. reflexivity. Qed.
Lemma bnd_zero : bnd (o0 F64) 0.
Proof. split; [reflexivity|]. unfold val. cbn. rewrite Rabs_R0. lra. Qed.
Lemma bnd_pow x e n : bnd x e -> (0 <= e)%Z -> (e * Z.of_nat n <= 1023)%Z -> bnd (opow F64 x n) (e * Z.of_nat n).
Proof.
  intros Hx He. induction n as [|n IH]; intros L.
  - rewrite Z.mul_0_r. apply bnd_one.
  - cbn [opow]. replace (e * Z.of_nat (S n))%Z with (e + e * Z.of_nat n)%Z by lia.
    apply bnd_mul; [exact Hx|apply IH; lia|lia].
Qed.
Lemma lit_int p : (Z.pos p < 2 ^ 53)%Z -> isint (lit F64 p) (Z.pos p).
Proof.
  assert (H2 : isint (oadd F64 (o1 F64) (o1 F64)) 2) by (apply (isint_add _ _ 1 1); [apply isint_one|apply isint_one|reflexivity]).
  induction p as [p IH|p IH|]; intros L; cbn [lit].
  - replace (Z.pos p~1) with (1 + 2 * Z.pos p)%Z by lia. apply isint_add; [apply isint_one| |lia].
    apply isint_mul; [exact H2|apply IH; lia|lia].
  - replace (Z.pos p~0) with (2 * Z.pos p)%Z by lia. apply isint_mul; [exact H2|apply IH; lia|lia].
  - apply isint_one.
Qed.
Lemma bnd_lit p : (Z.pos p <= 2 ^ 19)%Z -> bnd (lit F64 p) 19.
Proof.
  intros L. destruct (lit_int p) as [F V]; [lia|]. split; [exact F|]. rewrite V, Rabs_pos_eq by (apply IZR_le; lia).
  change (bpow radix2 19) with (IZR (2 ^ 19)). apply IZR_le, L.
Qed.

(** quotients with a denominator that is infinite or at least 1 *)
Definition big1 (u : f64) : Prop := u = infinite \/ fin u /\ 1 <= val u.
Lemma big1_exp e : (e = infinite \/ fin e /\ 0 <= val e) -> big1 (oadd F64 (o1 F64) e).
Proof.
  intros [-> |[Fe He]]; [left; reflexivity|]. destruct isint_one as [F1 V1].
  pose proof (Bplus_correct 53 1024 _ _ mode_NE (o1 F64) e F1 Fe) as C. unfold val in *. rewrite V1 in C.
  destruct (Rlt_bool _ _).
  - right. destruct C as (C1 & C2 & _). split; [exact C2|]. unfold val. change (oadd F64 (o1 F64) e) with (Bplus mode_NE (o1 F64) e). rewrite C1.
    rewrite <- (rnd_int 1) at 1 by reflexivity. apply rnd_le. cbn [IZR IPR]; lra.
  - left. destruct C as (C1 & _). change (oadd F64 (o1 F64) e) with (Bplus mode_NE (o1 F64) e).
    destruct (Bplus mode_NE (o1 F64) e); try discriminate C1. injection C1 as ->. reflexivity.
Qed.
Lemma bnd_quot x u e : bnd x e -> (-1074 <= e <= 1023)%Z -> big1 u -> bnd (odiv F64 x u) e.
Proof.
  intros [Fx Hx] L [-> |[Fu Hu]].
  - destruct x; try discriminate Fx; (split; [reflexivity|unfold val; cbn; rewrite Rabs_R0; apply bpow_ge_0]).
  - pose proof (Bdiv_correct 53 1024 _ _ mode_NE x u ltac:(unfold val in *; lra)) as C.
    assert (H : Rabs (val x / val u) <= bpow radix2 e).
    { unfold Rdiv. rewrite Rabs_mult, Rabs_inv, (Rabs_pos_eq (val u)) by lra.
      assert (0 < / val u <= 1). { split; [apply Rinv_0_lt_compat; lra|]. rewrite <- Rinv_1. apply Rinv_le_contravar; lra. }
      pose proof (Rabs_pos (val x)). nra. }
    unfold val in *. rewrite (rnd_ovf _ _ L H) in C. destruct C as (C1 & C2 & _). unfold fin in *. rewrite Fx in C2.
    split; [exact C2|]. unfold val. cbn [F64 odiv]. rewrite C1. apply (rnd_bnd _ _ L H).
Qed.

Ltac bz := vm_compute; try (split; discriminate); try discriminate.
Ltac bb := lazymatch goal with
  | |- bnd (oadd F64 _ _) _ => eapply bnd_add; [bb|bb|bz]
  | |- bnd (osub F64 _ _) _ => eapply bnd_sub; [bb|bb|bz]
  | |- bnd (omul F64 _ _) _ => eapply bnd_mul; [bb|bb|bz]
  | |- bnd (opow F64 _ _) _ => eapply bnd_pow; [bb|bz|bz]
  | |- bnd (oopp F64 _) _ => eapply bnd_opp; bb
  | |- bnd (lit F64 _) _ => eapply bnd_lit; bz
  | |- bnd (o1 F64) _ => apply bnd_one
  | |- bnd (o0 F64) _ => apply bnd_zero
  | |- bnd _ _ => eassumption
  end.
Ltac bbt := eapply bnd_le; [bb|bz].

Lemma cell_bnd E f d w b z : libm_ok E -> (d <= 8)%nat -> bnd w 40 -> bnd b 40 -> bnd z 2 ->
  bnd (gcell F64 E f d w b z) 500.
Proof.
  intros HE Hd Hw Hb Hz.
  assert (Hv : bnd (oadd F64 (omul F64 w z) b) 43) by bbt.
  assert (Hn : bnd (osub F64 (omul F64 (oopp F64 w) z) b) 43) by bbt.
  destruct (HE _ (proj1 Hv)) as (_ & Ht & Hs & Hc). destruct (HE _ (proj1 Hn)) as (He & _).
  change 1 with (bpow radix2 0) in Ht, Hs, Hc.
  change (bnd (ftanh E (oadd F64 (omul F64 w z) b)) 0) in Ht. change (bnd (fsin E (oadd F64 (omul F64 w z) b)) 0) in Hs.
  change (bnd (fcos E (oadd F64 (omul F64 w z) b)) 0) in Hc.
  destruct (HE _ (proj1 (bnd_opp _ _ Hv))) as (He' & _).
  assert (Hq : bnd (gsig F64 E w b z) 0) by (apply bnd_quot; [apply bnd_one|lia|apply big1_exp, He]).
  assert (Hq' : bnd (odiv F64 (o1 F64) (oadd F64 (o1 F64) (fexp E (oopp F64 (oadd F64 (omul F64 w z) b))))) 0)
    by (apply bnd_quot; [apply bnd_one|lia|apply big1_exp, He']).
  assert (Hsw : bnd (odiv F64 (omul F64 (oadd F64 (omul F64 w z) b) (o1 F64)) (oadd F64 (o1 F64) (fexp E (osub F64 (omul F64 (oopp F64 w) z) b)))) 43)
    by (apply bnd_quot; [bbt|lia|apply big1_exp, He]).
  destruct f; cbn [gcell].
  - destruct (d =? 0)%nat; [destruct (fgt0 E _)|destruct (d =? 1)%nat; [destruct (negb _)|]]; bbt.
  - revert Hq. generalize (gsig F64 E w b z). intros s Hq.
    do 9 (destruct d as [|d]; [cbn [cpp_sigmoid_case]; bbt|]). lia.
  - revert Ht. generalize (ftanh E (oadd F64 (omul F64 w z) b)). intros s Ht.
    do 9 (destruct d as [|d]; [cbn [cpp_tanh_case]; bbt|]). lia.
  - revert Hs Hc. generalize (fsin E (oadd F64 (omul F64 w z) b)) (fcos E (oadd F64 (omul F64 w z) b)). intros s c Hs Hc.
    do 9 (destruct d as [|d]; [cbn [Nat.modulo Nat.divmod fst snd Nat.sub]; bbt|]). lia.
  - destruct d as [|d]; [cbn [Nat.eqb]; bbt|]. cbn [Nat.eqb].
    revert Hv Hq'. generalize (odiv F64 (o1 F64) (oadd F64 (o1 F64) (fexp E (oopp F64 (oadd F64 (omul F64 w z) b))))) (oadd F64 (omul F64 w z) b).
    intros s v Hv Hq'.
    do 8 (destruct d as [|d]; [cbn [cpp_swish_case]; bbt|]). lia.
Qed.

(** ** the mapped point *)
Definition ecoef (x0 xf : f64) : f64 := odiv F64 (osub F64 (o1 F64) (o0 F64)) (width x0 xf).
Lemma domain_ordw x0 xf : moderate_domain x0 xf -> ordw x0 xf /\ val x0 < val xf.
Proof.
  intros (F0 & Ff & H1 & H2). pose proof (bpow_gt_0 radix2 (-40)). split; [|lra].
  split; [exact F0|split; [exact Ff|]]. rewrite Rabs_pos_eq by lra.
  assert (bpow radix2 (-1021) <= bpow radix2 (-40)) by (apply bpow_le; lia).
  assert (bpow radix2 1000 <= bpow radix2 1022) by (apply bpow_le; lia). lra.
Qed.
Lemma one_sub : isint (osub F64 (o1 F64) (o0 F64)) 1.
Proof. apply (isint_sub _ _ 1 0); [apply isint_one|split; [reflexivity|reflexivity]|reflexivity]. Qed.
Lemma ecoef_ok x0 xf : moderate_domain x0 xf -> exists e, bnd (ecoef x0 xf) (1 - e) /\ bnd (width x0 xf) e /\ bnd (ecoef x0 xf) 40.
Proof.
  intros HD. destruct (domain_ordw _ _ HD) as [Ho Hl]. destruct (width_ok _ _ Ho) as (Fw & Vw & _).
  pose proof (width_pos _ _ Ho Hl) as Pw. destruct HD as (_ & _ & H1 & H2).
  assert (Bw : bpow radix2 (-40) <= val (width x0 xf) <= bpow radix2 1000).
  { rewrite Vw. apply rnd_range; [apply gen_bpow; lia|apply gen_bpow; lia|split; assumption]. }
  set (W := val (width x0 xf)) in *.
  destruct (mag radix2 W) as [e He]. specialize (He ltac:(lra)). rewrite Rabs_pos_eq in He by lra.
  assert (-40 < e)%Z by (apply (lt_bpow radix2); lra).
  assert (e - 1 <= 1000)%Z by (apply (le_bpow radix2); lra).
  destruct one_sub as [F1 V1].
  assert (Q : forall g, (-1074 <= g <= 1023)%Z -> Rabs (1 / W) <= bpow radix2 g -> bnd (ecoef x0 xf) g).
  { intros g Hg Hq. pose proof (Bdiv_correct 53 1024 _ _ mode_NE (osub F64 (o1 F64) (o0 F64)) (width x0 xf)) as C.
    fold (val (width x0 xf)) in C. fold (val (osub F64 (o1 F64) (o0 F64))) in C. rewrite V1 in C. fold W in C.
    specialize (C ltac:(lra)). rewrite (rnd_ovf _ _ Hg Hq) in C. destruct C as (C1 & C2 & _).
    unfold fin in F1. rewrite F1 in C2. split; [exact C2|]. unfold val, ecoef. cbn [F64 odiv]. rewrite C1. apply (rnd_bnd _ _ Hg Hq). }
  assert (R : forall g, bpow radix2 (- g) <= W -> Rabs (1 / W) <= bpow radix2 g).
  { intros g Hg. unfold Rdiv. rewrite Rmult_1_l, Rabs_inv, Rabs_pos_eq by lra.
    rewrite <- (Z.opp_involutive g), (bpow_opp _ (- g)). apply Rinv_le_contravar; [apply bpow_gt_0|exact Hg]. }
  exists e. split; [|split].
  - apply Q; [lia|]. apply R. replace (- (1 - e))%Z with (e - 1)%Z by lia. lra.
  - split; [exact Fw|]. fold W. rewrite Rabs_pos_eq; lra.
  - apply Q; [lia|]. apply R. exact (proj1 Bw).
Qed.
Definition emap (x0 xf x : f64) : f64 := oadd F64 (omul F64 (osub F64 x x0) (ecoef x0 xf)) (o0 F64).
Lemma emap_bnd x0 xf x : moderate_domain x0 xf -> in_domain x0 xf x -> bnd (emap x0 xf x) 2.
Proof.
  intros HD Hx. destruct (domain_ordw _ _ HD) as [Ho Hl]. destruct (dist_ok _ _ Ho Hl x Hx) as (Fd & _ & Hd).
  destruct (ecoef_ok _ _ HD) as (e & Hc & [Fw Hw] & _).
  assert (Bd : bnd (osub F64 x x0) e).
  { split; [exact Fd|]. rewrite Rabs_pos_eq by lra. eapply Rle_trans; [apply Hd|]. eapply Rle_trans; [apply Rle_abs|exact Hw]. }
  unfold emap. pose proof (bnd_mul _ _ _ _ Bd Hc) as Hp. replace (e + (1 - e))%Z with 1%Z in Hp by lia.
  specialize (Hp ltac:(lia)). eapply bnd_le; [eapply bnd_add; [exact Hp|apply bnd_zero|bz]|bz].
Qed.

Lemma compiled_finite E f w b x0 xf nC xs d (full : bool) M jvp : libm_ok E -> (d <= 8)%nat ->
  length b = length w -> valid_nC nC (length w) ->
  (forall v, In v w -> moderate v) -> (forall v, In v b -> moderate v) -> moderate_domain x0 xf ->
  (forall x, In x xs -> in_domain x0 xf x) ->
  HE64 jvp Cpp E f w b x0 xf nC xs d full = Some M -> all_finite M.
Proof.
  intros HE Hd Hb Hv Hw Hbs HD Hx. unfold HE64.
  rewrite (gecpp_H F64 E f w b (elm_init F64 x0 xf nC (length w)) xs d full);
    [|destruct f; cbn; lia|exact Hb|reflexivity|exact Hv].
  intros [= <-]. intros row v. cbn [emat md]. intros Hrow Hvv.
  apply in_map_iff in Hrow. destruct Hrow as (x & <- & Hxx). apply in_map_iff in Hvv. destruct Hvv as (k & <- & Hk).
  destruct (ecoef_ok _ _ HD) as (e & _ & _ & Hc).
  assert (Hkm : (k < length w)%nat).
  { destruct full; [apply in_seq in Hk; cbn in Hk; lia|]. apply filter_In in Hk. destruct Hk as [Hk _]. apply in_seq in Hk. cbn in Hk. lia. }
  assert (Hwk : bnd (nth k w (o0 F64)) 40) by (apply Hw, nth_In, Hkm).
  assert (Hbk : bnd (nth k b (o0 F64)) 40) by (apply Hbs, nth_In; lia).
  change (b_c (elm_init F64 x0 xf nC (length w))) with (ecoef x0 xf).
  change (zmap F64 (elm_init F64 x0 xf nC (length w)) x) with (emap x0 xf x).
  assert (Hp : bnd (opow F64 (ecoef x0 xf) d) 320).
  { eapply bnd_le; [apply (bnd_pow _ 40 d Hc); lia|lia]. }
  pose proof (cell_bnd E f d _ _ _ HE Hd Hwk Hbk (emap_bnd _ _ x HD (Hx x Hxx))) as Hcell.
  apply (bnd_mul _ _ _ _ Hcell Hp). lia.
Qed.

(** ** Python *)
Lemma mul_one_r (x : f64) : omul F64 x (o1 F64) = x.
Proof.
  destruct isint_one as [F1 V1]. destruct x as [s|s| |s m e He]; try reflexivity; try (destruct s; reflexivity).
  pose proof (Bmult_correct 53 1024 _ _ mode_NE (B754_finite s m e He) (o1 F64)) as C.
  unfold val in V1. rewrite V1, Rmult_1_r in C. change (round radix2 (SpecFloat.fexp 53 1024) (round_mode mode_NE)) with rnd in C.
  rewrite rnd_gen in C by apply generic_format_B2R.
  rewrite Rlt_bool_true in C by apply abs_B2R_lt_emax. destruct C as (C1 & C2 & C3).
  assert (F : is_finite (Bmult mode_NE (B754_finite s m e He) (o1 F64)) = true) by (rewrite C2, F1; reflexivity).
  apply B2R_Bsign_inj; [exact F|reflexivity|exact C1|]. cbn [F64 omul].
  rewrite C3 by (destruct (Bmult _ _ _); [reflexivity|reflexivity|discriminate F|reflexivity]).
  cbn. destruct s; reflexivity.
Qed.
Lemma mul_one_l (x : f64) : omul F64 (o1 F64) x = x.
Proof.
  destruct isint_one as [F1 V1]. destruct x as [s|s| |s m e He]; try reflexivity; try (destruct s; reflexivity).
  pose proof (Bmult_correct 53 1024 _ _ mode_NE (o1 F64) (B754_finite s m e He)) as C.
  unfold val in V1. rewrite V1, Rmult_1_l in C. change (round radix2 (SpecFloat.fexp 53 1024) (round_mode mode_NE)) with rnd in C.
  rewrite rnd_gen in C by apply generic_format_B2R.
  rewrite Rlt_bool_true in C by apply abs_B2R_lt_emax. destruct C as (C1 & C2 & C3).
  assert (F : is_finite (Bmult mode_NE (o1 F64) (B754_finite s m e He)) = true) by (rewrite C2, F1; reflexivity).
  apply B2R_Bsign_inj; [exact F|reflexivity|exact C1|]. cbn [F64 omul].
  rewrite C3 by (destruct (Bmult _ _ _); [reflexivity|reflexivity|discriminate F|reflexivity]).
  cbn. destruct s; reflexivity.
Qed.

Section PyAny.
Context {T : Type} (A : Ops T) (E : Fun T) (jvp : (T -> T) -> T -> T -> T).
Definition pcell (f : elm) (d : nat) (w b z : T) : T :=
  match f with
  | ReLU => if (d =? 0)%nat then (if fgt0 E (oadd A (omul A w z) b) then oadd A (omul A w z) b else o0 A)
            else omul A w (if fgt0 E (oadd A (omul A w z) b) then o1 A else o0 A)
  | _ => py_recurse A jvp d (py_act A E f w b) z
  end.
Lemma combine_seq (g : T -> T -> T) (w b : list T) (z : T) : length b = length w ->
  map (fun wb => g (fst wb) (snd wb)) (combine w b) = map (fun k => g (nth k w z) (nth k b z)) (seq 0 (length w)).
Proof.
  revert b. induction w as [|x w IH]; intros [|y b] Hl; try discriminate Hl; [reflexivity|].
  cbn [combine map length seq fst snd nth]. f_equal. rewrite (IH b) by (injection Hl; auto).
  rewrite <- seq_shift, map_map. reflexivity.
Qed.
Lemma gepy_H f w b B xs d (full : bool) : supported Py f d -> length b = length w -> b_m B = length w -> valid_nC (b_nC B) (b_m B) ->
  py_elm_H A E jvp f w b B xs d full =
    Some (emat A B (fun k z => pcell f d (nth k w (o0 A)) (nth k b (o0 A)) z) (if full then seq 0 (b_m B) else keptc (b_nC B) (b_m B)) xs d).
Proof.
  intros Hs Hb HB Hv. unfold py_elm_H, py_H_with. rewrite HB in *.
  assert (Hh : forall zs, py_elm_hint A E jvp f (length w) w b zs d =
    Some (Mat (length zs) (length w) (map (fun z => map (fun k => pcell f d (nth k w (o0 A)) (nth k b (o0 A)) z) (seq 0 (length w))) zs))).
  { intros zs. destruct f; cbn [py_elm_hint];
      [|unfold py_rows; do 2 f_equal; apply map_ext; intros z;
        apply (combine_seq (fun wk bk => py_recurse A jvp d (py_act A E _ wk bk) z)); exact Hb ..].
    unfold py_relu_hint, py_rows, pcell. cbn in Hs.
    destruct (Nat.eqb_spec d 0) as [->|Hd].
    - do 2 f_equal. apply map_ext. intros z.
      apply (combine_seq (fun wk bk => if fgt0 E (oadd A (omul A wk z) bk) then oadd A (omul A wk z) bk else o0 A)). exact Hb.
    - replace d with 1%nat by lia. cbn [Nat.eqb]. do 2 f_equal. apply map_ext. intros z.
      apply (combine_seq (fun wk bk => omul A wk (if fgt0 E (oadd A (omul A wk z) bk) then o1 A else o0 A))). exact Hb. }
  rewrite Hh. cbn [bind]. unfold mat_scale. cbn [mr mc md]. rewrite map_length, !map_map.
  assert (Ht : forall l : list nat,
    map (fun x => map (fun e => omul A e (opow A (b_c B) d)) (map (fun k => pcell f d (nth k w (o0 A)) (nth k b (o0 A))
       (oadd A (omul A (osub A x (b_x0 B)) (b_c B)) (b_z0 B))) l)) xs =
    map (fun x => map (fun k => omul A (pcell f d (nth k w (o0 A)) (nth k b (o0 A)) (zmap A B x)) (opow A (b_c B) d)) l) xs).
  { intros l. apply map_ext. intros x. rewrite map_map. reflexivity. }
  rewrite Ht. unfold emat.
  destruct full; cbn [negb andb]; [rewrite seq_length; reflexivity|].
  destruct (0 <? length (b_nC B))%nat eqn:En.
  - rewrite <- (map_map (fun x k => omul A (pcell f d (nth k w (o0 A)) (nth k b (o0 A)) (zmap A B x)) (opow A (b_c B) d))
       (fun g => map g (seq 0 (length w)))).
    rewrite gdelete by apply Hv. rewrite map_map. reflexivity.
  - destruct (b_nC B) as [|i l] eqn:Ei; [|discriminate En]. rewrite keptc_nil, seq_length. reflexivity.
Qed.
End PyAny.

Lemma cell0 E f w b z jvp : pcell F64 E jvp f 0 w b z = gcell F64 E f 0 w b z.
Proof.
  destruct f; cbn [pcell gcell Nat.eqb py_recurse py_act cpp_sigmoid_case cpp_tanh_case Nat.modulo Nat.divmod fst snd Nat.sub opow];
    try reflexivity.
  - rewrite mul_one_l. reflexivity.
  - rewrite mul_one_r. reflexivity.
Qed.
Lemma order0 E jvp f w b x0 xf nC xs (full : bool) : length b = length w -> valid_nC nC (length w) ->
  HE64 jvp Py E f w b x0 xf nC xs 0 full = HE64 jvp Cpp E f w b x0 xf nC xs 0 full.
Proof.
  intros Hb Hv. unfold HE64.
  rewrite (gepy_H F64 E jvp f w b (elm_init F64 x0 xf nC (length w)) xs 0 full);
    [|destruct f; cbn; auto with arith|exact Hb|reflexivity|exact Hv].
  rewrite (gecpp_H F64 E f w b (elm_init F64 x0 xf nC (length w)) xs 0 full);
    [|destruct f; cbn; auto with arith|exact Hb|reflexivity|exact Hv].
  unfold emat. do 2 f_equal. apply map_ext. intros x. apply map_ext. intros k. rewrite cell0. reflexivity.
Qed.

Lemma inf_mul (x : f64) : fin x -> omul F64 x infinite = B754_nan \/ exists s, omul F64 x infinite = B754_infinity s.
Proof. destruct x as [s|s| |s m e He]; intros F; try discriminate F; [left; reflexivity|right; eexists; reflexivity]. Qed.
Lemma tangent_nan E w b z : fin w -> fexp E (exponent w b z) = infinite -> sigmoid_tangent E w b z = B754_nan.
Proof.
  intros Fw He. unfold sigmoid_tangent. fold (exponent w b z). rewrite He.
  change (oadd F64 (o1 F64) infinite) with infinite.
  change (odiv F64 (o1 F64) (omul F64 infinite infinite)) with (o0 F64).
  assert (F : fin (oopp F64 w)) by (unfold fin in *; cbn [F64 oopp]; rewrite is_finite_Bopp; exact Fw).
  rewrite (mul_one_r (oopp F64 w)), mul_one_r.
  destruct (inf_mul _ F) as [-> |[s ->]]; [reflexivity|destruct s; reflexivity].
Qed.
Lemma nan_mul (x : f64) : omul F64 B754_nan x = B754_nan. Proof. destruct x; reflexivity. Qed.

Lemma python_nan E jvp w b x0 xf nC x k : exp_overflows E -> length b = length w -> valid_nC nC (length w) -> (k < length w)%nat ->
  let wk := nth k w (o0 F64) in let bk := nth k b (o0 F64) in let z := mapped x0 xf x in
  fin wk -> fin (exponent wk bk z) -> 710 <= val (exponent wk bk z) ->
  jvp (py_act F64 E Sigmoid wk bk) z (o1 F64) = sigmoid_tangent E wk bk z ->
  exists M, HE64 jvp Py E Sigmoid w b x0 xf nC [x] 1 true = Some M /\ ment M 0 k = Some B754_nan.
Proof.
  intros Ho Hb Hv Hk wk bk z Fw Fe He Hj. unfold HE64.
  rewrite (gepy_H F64 E jvp Sigmoid w b (elm_init F64 x0 xf nC (length w)) [x] 1 true);
    [|exact I|exact Hb|reflexivity|exact Hv].
  eexists. split; [reflexivity|]. unfold ment. cbn [emat md map nth_error bind].
  change (b_m (elm_init F64 x0 xf nC (length w))) with (length w).
  rewrite (map_nth_error _ k (seq 0 (length w)) (d := k)) by (rewrite nth_error_seq; destruct (Nat.ltb_spec k (length w)); [reflexivity|lia]).
  change (zmap F64 (elm_init F64 x0 xf nC (length w)) x) with z.
  cbn [pcell py_recurse egrad1]. unfold egrad1. fold wk bk. rewrite Hj, tangent_nan; [|exact Fw|apply Ho; assumption].
  reflexivity.
Qed.
Lemma left_exponent x0 xf w b : moderate_domain x0 xf -> bnd w 40 -> bnd b 40 ->
  fin (exponent w b (mapped x0 xf x0)) /\ val (exponent w b (mapped x0 xf x0)) = - val b.
Proof.
  intros HD Hw Hb. pose proof HD as (F0 & _). destruct (ecoef_ok _ _ HD) as (e & _ & _ & Fc & _).
  assert (H0 : isint (osub F64 x0 x0) 0).
  { pose proof (Bminus_correct 53 1024 _ _ mode_NE x0 x0 F0 F0) as C.
    replace (B2R x0 - B2R x0) with 0 in C by ring. change (round radix2 (SpecFloat.fexp 53 1024) (round_mode mode_NE)) with rnd in C.
    rewrite rnd_0, Rabs_R0, Rlt_bool_true in C by apply bpow_gt_0. destruct C as (C1 & C2 & _). split; [exact C2|exact C1]. }
  assert (M0 : forall x y, fin x -> isint y 0 -> isint (omul F64 x y) 0).
  { intros x y Fx [Fy Vy]. pose proof (Bmult_correct 53 1024 _ _ mode_NE x y) as C. unfold val in Vy. rewrite Vy, Rmult_0_r in C.
    change (round radix2 (SpecFloat.fexp 53 1024) (round_mode mode_NE)) with rnd in C.
    rewrite rnd_0, Rabs_R0, Rlt_bool_true in C by apply bpow_gt_0. destruct C as (C1 & C2 & _). unfold fin in *. rewrite Fx, Fy in C2.
    split; [exact C2|exact C1]. }
  assert (N0 : forall x y, isint x 0 -> fin y -> isint (omul F64 x y) 0).
  { intros x y [Fx Vx] Fy. pose proof (Bmult_correct 53 1024 _ _ mode_NE x y) as C. unfold val in Vx. rewrite Vx, Rmult_0_l in C.
    change (round radix2 (SpecFloat.fexp 53 1024) (round_mode mode_NE)) with rnd in C.
    rewrite rnd_0, Rabs_R0, Rlt_bool_true in C by apply bpow_gt_0. destruct C as (C1 & C2 & _). unfold fin in *. rewrite Fx, Fy in C2.
    split; [exact C2|exact C1]. }
  assert (Hz : isint (mapped x0 xf x0) 0).
  { unfold mapped. apply (isint_add _ _ 0 0); [apply N0; [exact H0|exact Fc]|split; reflexivity|reflexivity]. }
  destruct (M0 (oopp F64 w) _ (proj1 (bnd_opp _ _ Hw)) Hz) as [Fm Vm].
  pose proof (Bminus_correct 53 1024 _ _ mode_NE _ b Fm (proj1 Hb)) as C. unfold val in Vm. rewrite Vm in C.
  replace (IZR 0 - B2R b) with (- B2R b) in C by (cbn; ring).
  assert (G : generic_format radix2 fexp64 (- B2R b)) by (apply generic_format_opp, generic_format_B2R).
  change (round radix2 (SpecFloat.fexp 53 1024) (round_mode mode_NE)) with rnd in C.
  rewrite (rnd_gen _ G), Rabs_Ropp, Rlt_bool_true in C by apply abs_B2R_lt_emax.
  destruct C as (C1 & C2 & _). split; [exact C2|exact C1].
Qed.
