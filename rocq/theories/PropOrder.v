(** C105: [H] answers a derivative order exactly if it is one. *)
From Coq Require Import Reals Arith Lia Lra List Bool ZArith.
From Coquelicot Require Import Coquelicot.
From Verif Require Import Base ProofBase Numbers ModelBFPy ModelBFCpp ProofTab SpecBasis ProofH ModelELM SpecELM ProofELM
  ModelOrder SpecOrder ProofOrder.
Import ListNotations.
Open Scope R_scope.

(** natural numbers within reach: derivatives, and the columns removed as described by C13 *)
Theorem C105_orders_partial lim be f x0 xf nC m xs d : (1 <= m)%nat -> (f = FS \/ m <= 2 \/ d <= lim)%nat ->
  (exists M, H1z lim be f x0 xf nC m xs (Z.of_nat d) true = Some M /\ shaped M (length xs) m /\
    forall k, (k < m)%nat -> exists y : R -> R,
      (forall t, result_entry (H1z lim be f x0 xf nC m [t] 0 true) 0 k (y t)) /\
      forall j x, nth_error xs j = Some x -> exists v, ment M j k = Some v /\ is_derive_n y d x v) /\
  (valid_nC nC m -> exists M Mc, H1z lim be f x0 xf nC m xs (Z.of_nat d) true = Some M /\ H1z lim be f x0 xf nC m xs (Z.of_nat d) false = Some Mc /\
    columns_removed m nC M Mc).
Proof.
  intros Hm H. split.
  - rewrite H1z_nat by assumption. destruct (H1_derivs be f x0 xf nC m Hm xs d) as (M & EM & Hs & Hk). exists M. split; [exact EM|]. split; [exact Hs|].
    intros k Hk'. destruct (Hk k Hk') as (y & H0 & Hd). exists y. split; [|exact Hd]. intros t. destruct (H0 t) as (M0 & E0 & V0). exists M0. split; [|exact V0].
    change 0%Z with (Z.of_nat 0). rewrite H1z_nat; [exact E0|exact Hm|]. right. right. lia.
  - intros Hv. rewrite !H1z_nat by assumption. destruct (H1_removed be f x0 xf nC m xs d Hm Hv) as (M & Mc & E & Ec & HR & _).
    exists M, Mc. repeat split; try assumption; apply HR.
Qed.
Print Assumptions C105_orders_partial.

Theorem C105_elm_orders_partial lim jvp be f w b x0 xf nC xs d : (be = Cpp \/ f = ReLU \/ d <= lim)%nat -> jvp_ok jvp -> supported be f d ->
  length b = length w -> x0 <> xf ->
  exists M, HEz lim jvp be f w b x0 xf nC xs (Z.of_nat d) true = Some M /\
    neuron_matrix (match f with ReLU => off_kink w b x0 xf | _ => everywhere end) f w b x0 xf xs d M.
Proof.
  intros H Hj Hs Hb Hx. rewrite HEz_nat by exact H. destruct f; [apply c12_any; assumption|..]; apply c10_11; try assumption; split; try discriminate; destruct be; cbn in *; auto.
Qed.
Print Assumptions C105_elm_orders_partial.

(** three or more polynomials, and the differentiated networks of the Python classes: no
    matrix for a negative order, nor for one beyond the room for nested calls *)
Theorem C105_rejected_partial lim d : (d < 0 \/ Z.of_nat lim < d)%Z ->
  (forall be f x0 xf nC m xs full, f <> FS -> (3 <= m)%nat -> xs <> [] -> H1z lim be f x0 xf nC m xs d full = None) /\
  (forall jvp f w b x0 xf nC xs full, f <> ReLU -> HEz lim jvp Py f w b x0 xf nC xs d full = None).
Proof. intros Hd. split; intros; [apply H1z_none; assumption|apply HEz_none; assumption]. Qed.
Print Assumptions C105_rejected_partial.

(** one or two polynomials: a negative order is answered, with the values divided by powers of
    the slope of the map of the domain *)
Theorem C105_few_refuted lim be f x0 xf nC m xs n : f <> FS -> (1 <= m <= 2)%nat ->
  exists M0 M, H1z lim be f x0 xf nC m xs 0 true = Some M0 /\ H1z lim be f x0 xf nC m xs (- Z.of_nat n) true = Some M /\ shaped M (length xs) m /\
  forall j k v, ment M0 j k = Some v -> ment M j k = Some (v / speed f x0 xf ^ n).
Proof.
  intros Hf Hm. set (B := fam_init ROps RFun f x0 xf nC m). eexists. eexists. split; [apply H1z_few; [exact Hf|exact Hm|lia]|]. split; [apply H1z_few; [exact Hf|exact Hm|lia]|].
  fold B. split; [pose proof (zmat_shaped B (fun k => col f k 0) (opowz ROps (speed f x0 xf) (- Z.of_nat n)) xs) as Hsh; unfold B at 2 in Hsh; rewrite fam_init_m in Hsh; exact Hsh|].
  intros j k v. rewrite !zmat_ent. destruct (nth_error xs j) as [x|]; [|discriminate]. destruct (k <? b_m B)%nat; [|discriminate].
  intros E. injection E as <-. f_equal. rewrite opowz_neg. cbn [opowz ROps o1]. unfold Rdiv. ring.
Qed.
Print Assumptions C105_few_refuted.

(** Fourier series: Python answers order [-n] with [n]-fold antiderivatives, save for the
    constant function; C++ does too if [n mod 4] is 0 or 1, and otherwise answers something else *)
Theorem C105_fourier_refuted lim x0 xf nC m n : x0 <> xf -> (2 <= m)%nat -> (1 <= n)%nat ->
  (forall be xs, exists M, H1z lim be FS x0 xf nC m xs (- Z.of_nat n) true = Some M /\ shaped M (length xs) m /\
     forall j, (j < length xs)%nat -> ment M j 0 = Some 0) /\
  (forall k, (1 <= k < m)%nat -> exists y : R -> R,
     (forall t, result_entry (H1z lim Py FS x0 xf nC m [t] (- Z.of_nat n) true) 0 k (y t)) /\
     forall x, exists v, result_entry (H1z lim Py FS x0 xf nC m [x] 0 true) 0 k v /\ is_derive_n y n x v) /\
  ((n mod 4 <= 1)%nat -> forall xs, H1z lim Cpp FS x0 xf nC m xs (- Z.of_nat n) true = H1z lim Py FS x0 xf nC m xs (- Z.of_nat n) true) /\
  ((2 <= n mod 4)%nat -> H1z lim Cpp FS x0 xf nC m [x0] (- Z.of_nat n) true <> H1z lim Py FS x0 xf nC m [x0] (- Z.of_nat n) true).
Proof.
  intros Hx Hm Hn. set (B := fam_init ROps RFun FS x0 xf nC m).
  pose proof (speed_nz FS x0 xf Hx) as Hc.
  assert (Ec : b_c B = speed FS x0 xf) by apply speed_c. split; [|split; [|split]].
  - intros be xs. rewrite H1z_fs by lia. eexists. split; [reflexivity|]. split; [apply zmat_shaped|]. intros j Hj.
    rewrite zmat_ent. fold B. destruct (nth_error xs j) as [x|] eqn:E; [|apply nth_error_None in E; lia]. destruct (Nat.ltb_spec 0 (b_m B)) as [_|H]; [|change (b_m B) with m in H; lia].
    f_equal. unfold fsz. destruct (Z.eqb_spec (- Z.of_nat n) 0); [lia|]. ring.
  - intros k Hk. assert (Hlt : (k <? b_m B)%nat = true) by (apply Nat.ltb_lt; change (b_m B) with m; lia).
    exists (fun t => fsz ((- Z.of_nat n) mod 4) (- Z.of_nat n) k ((t - b_x0 B) * b_c B + b_z0 B) * opowz ROps (b_c B) (- Z.of_nat n)). split.
    + intros t. eexists. split; [apply H1z_fs; lia|]. rewrite zmat_ent. fold B. cbn [nth_error rem_of]. rewrite Hlt, Ec. reflexivity.
    + intros x. exists (fsz 0 0 k ((x - b_x0 B) * b_c B + b_z0 B)). split.
      * eexists. split; [apply H1z_fs; lia|]. rewrite zmat_ent. fold B. cbn [nth_error rem_of]. rewrite Hlt. f_equal. change (0 mod 4)%Z with 0%Z. cbn [opowz ROps o1]. ring.
      * apply fsz_antiderivative; [lia|]. rewrite Ec. exact Hc.
  - intros H4 xs. rewrite !H1z_fs by lia. f_equal. apply zmat_ext. intros k z. apply fsz_branch, H4.
  - intros H4 E. rewrite !H1z_fs in E by lia. apply (f_equal (fun o => match o with Some M => ment M 0 1 | None => None end)) in E. rewrite !zmat_ent in E. fold B in E. cbn [nth_error rem_of] in E.
    assert (Hlt : (1 <? b_m B)%nat = true) by (apply Nat.ltb_lt; change (b_m B) with m; lia). rewrite Hlt in E.
    assert (Ez : (x0 - b_x0 B) * b_c B + b_z0 B = - PI) by (cbn; ring). rewrite Ez in E. injection E as E.
    apply Rmult_eq_reg_r in E; [apply (fsz_apart n H4 E)|]. rewrite opowz_neg. apply Rinv_neq_0_compat, pow_nonzero, Hc.
Qed.
Print Assumptions C105_fourier_refuted.

(** random bases: every class but the differentiated Python ones lets a negative order through.
    ReLU answers zeros (Python of transposed shape), the C++ sigmoid and tanh the values themselves,
    the C++ sine the antiderivative only if [n mod 4] is 0 or 1, and the C++ swish reads memory
    that was never written. *)
Theorem C105_elm_refuted lim jvp w b x0 xf nC xs n : (1 <= n)%nat -> length b = length w -> x0 <> xf ->
  (exists M, HEz lim jvp Cpp ReLU w b x0 xf nC xs (- Z.of_nat n) true = Some M /\ shaped M (length xs) (length w) /\
     forall j k v, ment M j k = Some v -> v = 0) /\
  (exists M, HEz lim jvp Py ReLU w b x0 xf nC xs (- Z.of_nat n) true = Some M /\ shaped M (length w) (length xs) /\
     forall j k v, ment M j k = Some v -> v = 0) /\
  (forall f, f = Sigmoid \/ f = Tanh -> exists M, HEz lim jvp Cpp f w b x0 xf nC xs (- Z.of_nat n) true = Some M /\ shaped M (length xs) (length w) /\
     forall j k x, nth_error xs j = Some x -> (k < length w)%nat -> ment M j k = Some (neuron f w b x0 xf k x * (xf - x0) ^ n)) /\
  (exists M, HEz lim jvp Cpp Sin w b x0 xf nC xs (- Z.of_nat n) true = Some M /\ shaped M (length xs) (length w) /\
     forall j k x, nth_error xs j = Some x -> (k < length w)%nat ->
       let u := nth k w 0 * ((x - x0) / (xf - x0)) + nth k b 0 in
       ment M j k = Some ((if (n mod 4 =? 0)%nat then sin u else - cos u) / nth k w 0 ^ n * (xf - x0) ^ n)) /\
  (w <> [] -> xs <> [] -> HEz lim jvp Cpp Swish w b x0 xf nC xs (- Z.of_nat n) true = None).
Proof.
  intros Hn Hb Hx. set (B := elm_init ROps x0 xf nC (length w)).
  assert (Hd : xf - x0 <> 0) by lra.
  assert (Es : opowz ROps (/ (xf - x0)) (- Z.of_nat n) = (xf - x0) ^ n).
  { rewrite opowz_neg. rewrite pow_inv. apply Rinv_inv. }
  split; [|split; [|split; [|split]]].
  - rewrite HEz_relu_cpp by assumption. eexists. split; [reflexivity|]. split; [apply zmat_shaped|]. intros j k v. rewrite zmat_ent.
    destruct (nth_error xs j); [|discriminate]. destruct (k <? _)%nat; [|discriminate]. intros E. injection E as <-. ring.
  - rewrite HEz_relu_py by assumption. eexists. split; [reflexivity|]. split.
    + repeat split; cbn [mr mc md]; [apply repeat_length|]. intros row Hr. apply repeat_spec in Hr as ->. apply repeat_length.
    + intros j k v. unfold ment. cbn [md]. destruct (nth_error _ j) as [row|] eqn:Er; [|discriminate]. apply nth_error_In, repeat_spec in Er as ->.
      intros E. apply nth_error_In, repeat_spec in E as ->. ring.
  - intros f Hf. rewrite HEz_untabulated by assumption. eexists. split; [reflexivity|]. split; [apply zmat_shaped|]. intros j k x Hj Hk.
    rewrite zmat_ent, Hj, elm_z, elm_init_m, Es. destruct (Nat.ltb_spec k (length w)); [|lia]. do 2 f_equal. unfold ez0, ecol, neuron. cbn [pow].
    rewrite Rmult_1_l, gact_0 by (destruct Hf; subst f; discriminate). reflexivity.
  - rewrite HEz_sin by assumption. eexists. split; [reflexivity|]. split; [apply zmat_shaped|]. intros j k x Hj Hk u.
    rewrite zmat_ent, Hj, elm_z, elm_init_m, Es. destruct (Nat.ltb_spec k (length w)); [|lia]. do 2 f_equal. unfold sinz. fold u. unfold Rdiv. destruct (_ =? 0)%nat; ring.
  - intros. apply HEz_swish; assumption.
Qed.
Print Assumptions C105_elm_refuted.

(** the two backends at order -2 of the first sine, at the left end of the domain *)
Example C105_case : exists M M', H1z 20 Py FS 0 1 [] 3 [0] (-2) true = Some M /\ H1z 20 Cpp FS 0 1 [] 3 [0] (-2) true = Some M' /\ M' <> M /\
  H1z 20 Cpp CP 0 1 [] 3 [0] (-2) true = None /\ H1z 20 Py CP 0 1 [] 3 [0] 21 true = None.
Proof.
  destruct (C105_fourier_refuted 20 0 1 [] 3 2 ltac:(lra) ltac:(lia) ltac:(lia)) as (H1 & _ & _ & H4).
  change (- Z.of_nat 2)%Z with (-2)%Z in *. specialize (H4 ltac:(cbn; lia)).
  destruct (H1 Py [0]) as (M & EM & _), (H1 Cpp [0]) as (M' & EM' & _). exists M, M'. rewrite EM, EM' in H4.
  split; [exact EM|]. split; [exact EM'|]. split; [intros E; apply H4; rewrite E; reflexivity|].
  split; apply C105_rejected_partial; try discriminate; lia.
Qed.
