(** Separable functions are bounded on boxes, and combinations of them depend on the coefficients
    uniformly (C101). *)
From Coq Require Import Reals Arith Lia Lra List.
From Coquelicot Require Import Coquelicot.
From Verif Require Import Base Numbers SpecBasis ModelND SpecND SpecNColl ModelMtfc ModelPde SpecPde ProofPde SpecPdeNl.
Import ListNotations.
Open Scope R_scope.

Lemma smooth_bounded g a b : a <= b -> smooth g -> exists M, 0 <= M /\ forall t, a <= t <= b -> Rabs (g t) <= M.
Proof.
  intros Hab Hg.
  destruct (continuity_ab_maj (fun t => Rabs (g t)) a b Hab) as (m & Hm & _).
  { intros t _. apply (continuity_pt_comp g Rabs); [|apply Rcontinuity_abs].
    apply continuity_pt_filterlim. apply (ex_derive_continuous g). apply (Hg 1%nat t). }
  exists (Rabs (g m)). split; [apply Rabs_pos|]. intros t Ht. apply Hm, Ht.
Qed.
Section Box.
Variables (dim : nat) (x0 xf : list R).
Hypothesis Hx : forall k, (k < dim)%nat -> nth k x0 0 < nth k xf 0.
Notation sep := (separable dim).
Notation box := (in_box dim x0 xf).
Lemma prod_bounded n (g : nat -> R -> R) : (n <= dim)%nat -> (forall k, smooth (g k)) ->
  exists M, 0 <= M /\ forall X, box X -> Rabs (prodn n (fun k => g k (X k))) <= M.
Proof.
  intros Hn Hg. induction n as [|n IH].
  - exists 1. split; [lra|]. intros X _. cbn. rewrite Rabs_R1. lra.
  - destruct IH as (M & HM & H); [lia|]. destruct (smooth_bounded (g n) (nth n x0 0) (nth n xf 0)) as (M' & HM' & H').
    + specialize (Hx n Hn). lra.
    + apply Hg.
    + exists (M * M'). split; [apply Rmult_le_pos; assumption|]. intros X HX. cbn [prodn]. rewrite Rabs_mult.
      apply Rmult_le_compat; try apply Rabs_pos; [apply H, HX|apply H', HX; lia].
Qed.
Lemma sep_bounded z : sep z -> exists M, 0 <= M /\ forall X, box X -> Rabs (z X) <= M.
Proof.
  induction 1 as [z H|z g Hg H|z a b _ (Ma & Ha0 & Ha) _ (Mb & Hb0 & Hb) H].
  - exists 0. split; [lra|]. intros X _. rewrite H, Rabs_R0. lra.
  - destruct (prod_bounded dim g (le_n _) Hg) as (M & HM & HB). exists M. split; [exact HM|]. intros X HX. rewrite H. apply HB, HX.
  - exists (Ma + Mb). split; [lra|]. intros X HX. rewrite H. eapply Rle_trans; [apply Rabs_triang|]. apply Rplus_le_compat; [apply Ha, HX|apply Hb, HX].
Qed.
Lemma pdiff_sep d : forall k z, (k + length d <= dim)%nat -> sep z -> sep (pdiff k d z).
Proof.
  induction d as [|e d IH]; intros k z Hk Hz; [exact Hz|]. cbn [length] in Hk. cbn [pdiff]. apply IH; [lia|]. apply part_sep; [lia|exact Hz].
Qed.
Lemma comb_bounded (W : list (pt -> R)) : (forall g, In g W -> sep g) ->
  exists K, 0 <= K /\ forall a a' e, (forall i, (i < length W)%nat -> Rabs (a i - a' i) <= e) -> forall X, box X ->
    Rabs (row_comb a (map (fun g => g X) W) - row_comb a' (map (fun g => g X) W)) <= K * e.
Proof.
  induction W as [|g W IH]; intros Hs.
  - exists 0. split; [lra|]. intros a a' e _ X _. cbn. rewrite Rminus_eq_0, Rabs_R0. lra.
  - destruct IH as (K & HK & H); [intros; apply Hs; right; assumption|].
    destruct (sep_bounded g) as (M & HM & HB); [apply Hs; left; reflexivity|].
    exists (M + K). split; [lra|]. intros a a' e Ha X HX. cbn [map row_comb].
    replace (_ - _) with ((a 0%nat - a' 0%nat) * g X + (row_comb (fun i => a (S i)) (map (fun g => g X) W) - row_comb (fun i => a' (S i)) (map (fun g => g X) W))) by ring.
    eapply Rle_trans; [apply Rabs_triang|]. rewrite Rmult_plus_distr_r. apply Rplus_le_compat.
    + rewrite Rabs_mult, Rmult_comm. apply Rmult_le_compat; try apply Rabs_pos; [apply HB, HX|apply Ha; cbn; lia].
    + apply H; [|exact HX]. intros i Hi. apply Ha. cbn. lia.
Qed.
Lemma pde_one d z X : pde [(fun _ => 1, d)] z X = pdiff 0 d z X.
Proof. cbn. ring. Qed.
End Box.
