(** C73: at enough collocation points the columns of the basis matrix are independent. *)
From Coq Require Import Reals Arith List Bool ZArith Lra Lia QArith.
From Coquelicot Require Import Coquelicot.
From Verif Require Import Base Numbers ModelBFPy SpecBasis ModelELM SpecELM ModelUtfc SpecUtfc ProofUtfc SpecColl ProofColl.
Import ListNotations.
Open Scope R_scope.

(** ** C73, Chebyshev and Legendre.  At the object's own points the columns of the matrix of the
    d-th derivatives are independent, when there are as many points as functions of degree [d] or
    more and the functions of lower degree, whose d-th derivative is zero, are removed; *)
Theorem C73_polynomial : forall jvp be f N nC deg x0 xf w b u l d full,
  jvp_ok jvp -> f <> FS -> (2 <= N)%nat -> x0 < xf -> mk be (UB f) N nC deg x0 xf w b = Some u ->
  utfc_nC nC = Some l -> (full = false -> valid_nC l (S deg)) ->
  (forall k, (k < d)%nat -> full = false /\ In (Z.of_nat k) l) -> (S deg - d <= N)%nat ->
  exists M, utfc_H ROps RFun jvp u (u_x u) d full = Some M /\ independent_columns M.
Proof.
  intros jvp be f N nC deg x0 xf w b u l d full Hj Hf HN Hx Hu El Hv Hd Hle.
  pose proof (c18_points _ _ _ _ _ _ _ _ _ _ HN (Rlt_not_eq _ _ Hx) Hu) as Ex.
  apply (c73_poly jvp Hj be f N nC deg x0 xf w b u l d full); try assumption; [lra| |]; rewrite Ex.
  - replace N with (S (N - 1)) at 2 by lia. apply points_nodup, Hx.
  - rewrite map_length, seq_length. exact Hle.
Qed.
Print Assumptions C73_polynomial.

(** for the full matrix of values, exactly when there are as many points as functions; *)
Theorem C73_polynomial_iff : forall jvp be f N nC deg x0 xf w b u,
  jvp_ok jvp -> f <> FS -> (2 <= N)%nat -> x0 < xf -> mk be (UB f) N nC deg x0 xf w b = Some u ->
  exists M, utfc_H ROps RFun jvp u (u_x u) 0 true = Some M /\ (independent_columns M <-> (deg + 1 <= N)%nat).
Proof.
  intros jvp be f N nC deg x0 xf w b u Hj Hf HN Hx Hu.
  destruct (mk_inv _ _ _ _ _ _ _ _ _ _ Hu) as (l & _ & _ & El & _).
  assert (Hne : x0 <> xf) by lra.
  destruct (uH_family jvp Hj be f N nC deg x0 xf w b u l 0 true (u_x u) Hu Hne El ltac:(discriminate)) as (M & EM & _).
  exists M. split; [exact EM|]. split.
  - intros Hi. destruct (Nat.le_gt_cases (deg + 1) N) as [H|H]; [exact H|exfalso].
    apply (c73_poly_few jvp Hj be f N nC deg x0 xf w b u l (u_x u) M Hu Hf Hne El); try assumption.
    rewrite (c18_points _ _ _ _ _ _ _ _ _ _ HN Hne Hu), map_length, seq_length. lia.
  - intros Hle. destruct (C73_polynomial jvp be f N nC deg x0 xf w b u l 0 true Hj Hf HN Hx Hu El ltac:(discriminate) ltac:(lia) ltac:(lia)) as (M' & EM' & HI).
    assert (E : M' = M) by congruence. rewrite <- E. exact HI.
Qed.
Print Assumptions C73_polynomial_iff.

(** ** C73, Fourier.  The first and the last point are the same angle and equally spaced points
    cannot tell high frequencies from low ones; *)
Theorem C73_fourier : forall jvp be N nC deg x0 xf w b u l full,
  jvp_ok jvp -> (2 <= N)%nat -> x0 < xf -> mk be (UB FS) N nC deg x0 xf w b = Some u ->
  utfc_nC nC = Some l -> (full = false -> valid_nC l (S deg)) -> (2 * ((deg + 1) / 2) + 2 <= N)%nat ->
  exists M, utfc_H ROps RFun jvp u (u_x u) 0 full = Some M /\ independent_columns M.
Proof.
  intros jvp be N nC deg x0 xf w b u l full Hj HN Hx Hu El Hv Hle.
  apply (c73_fs jvp Hj be N nC deg x0 xf w b u l full); try assumption; [lra|].
  replace (S deg) with (deg + 1)%nat by lia. lia.
Qed.
Print Assumptions C73_fourier.
(** so as many points as functions are never enough. *)
Theorem C73_fourier_iff : forall jvp be N nC deg x0 xf w b u,
  jvp_ok jvp -> (2 <= N)%nat -> x0 < xf -> mk be (UB FS) N nC deg x0 xf w b = Some u ->
  exists M, utfc_H ROps RFun jvp u (u_x u) 0 true = Some M /\
    (independent_columns M <-> (2 * ((deg + 1) / 2) + 2 <= N)%nat).
Proof.
  intros jvp be N nC deg x0 xf w b u Hj HN Hx Hu.
  destruct (mk_inv _ _ _ _ _ _ _ _ _ _ Hu) as (l & _ & _ & El & _).
  assert (Hne : x0 <> xf) by lra.
  destruct (uH_family jvp Hj be FS N nC deg x0 xf w b u l 0 true (u_x u) Hu Hne El ltac:(discriminate)) as (M & EM & _).
  exists M. split; [exact EM|]. split.
  - intros Hi. destruct (Nat.le_gt_cases (2 * ((deg + 1) / 2) + 2) N) as [H|H]; [exact H|exfalso].
    apply (c73_fs_few jvp Hj be N nC deg x0 xf w b u l M Hu Hne HN El); try assumption.
    replace (S deg) with (deg + 1)%nat by lia. lia.
  - intros Hle. destruct (C73_fourier jvp be N nC deg x0 xf w b u l true Hj HN Hx Hu El ltac:(discriminate) Hle) as (M' & EM' & HI).
    assert (E : M' = M) by congruence. rewrite <- E. exact HI.
Qed.
Print Assumptions C73_fourier_iff.

(** three points carry three Chebyshev polynomials, and the second derivatives of the last two need
    two; three Fourier functions need four points *)
Definition cjvp (g : R -> R) (z t : R) : R := Derive g z * t.
Lemma cjvp_ok : jvp_ok cjvp.
Proof. intros g z l t H. unfold cjvp. rewrite (is_derive_unique _ _ _ H). reflexivity. Qed.
Example C73_case : exists u M u' M' v, mk Py (UB CP) 3 (NcInt 0) 2 0 4 [] [] = Some u /\
  utfc_H ROps RFun cjvp u (u_x u) 0 true = Some M /\ independent_columns M /\
  mk Cpp (UB LeP) 2 (NcList [1; 0]%Z) 3 0 4 [] [] = Some u' /\
  utfc_H ROps RFun cjvp u' (u_x u') 2 false = Some M' /\ independent_columns M' /\ ment M' 0 1 = Some v.
Proof.
  destruct (mk_some Py (UB CP) 3 (NcInt 0) [] 2 0 4 [] [] eq_refl ltac:(cbn; lia)
    ltac:(intros i []) ltac:(left; reflexivity) ltac:(lia)) as (u & Hu).
  destruct (C73_polynomial_iff cjvp Py CP 3 (NcInt 0) 2 0 4 [] [] u cjvp_ok ltac:(discriminate) ltac:(lia) ltac:(lra) Hu) as (M & EM & HM).
  destruct (mk_some Cpp (UB LeP) 2 (NcList [1; 0]%Z) [1; 0]%Z 3 0 4 [] [] eq_refl ltac:(cbn; lia)
    ltac:(intros i [<-|[<-|[]]]; lia) ltac:(right; left; reflexivity) ltac:(lia)) as (u' & Hu').
  assert (Hv : valid_nC [1; 0]%Z 4).
  { split; [repeat constructor; cbn; intuition lia|]. intros i [<-|[<-|[]]]; lia. }
  destruct (C73_polynomial cjvp Cpp LeP 2 (NcList [1; 0]%Z) 3 0 4 [] [] u' [1; 0]%Z 2 false cjvp_ok ltac:(discriminate) ltac:(lia) ltac:(lra) Hu' eq_refl)
    as (M' & EM' & HM').
  - intros _. exact Hv.
  - intros [|[|k]] Hk; [split; [reflexivity|cbn; auto]|split; [reflexivity|cbn; auto]|lia].
  - lia.
  - destruct (uH_family cjvp cjvp_ok Cpp LeP 2 (NcList [1; 0]%Z) 3 0 4 [] [] u' [1; 0]%Z 2 false (u_x u') Hu' ltac:(lra) eq_refl (fun _ => Hv))
      as (M2 & E2 & _ & Emd & _ & EB).
    assert (M2 = M') by congruence; subst M2.
    exists u, M, u', M'. eexists. split; [exact Hu|]. split; [exact EM|]. split; [apply HM; lia|].
    split; [exact Hu'|]. split; [exact EM'|]. split; [exact HM'|].
    unfold ment. rewrite Emd, (c18_points _ _ _ _ _ _ _ _ _ _ (le_n 2) (Rlt_not_eq 0 4 ltac:(lra)) Hu').
    unfold uks. rewrite EB. reflexivity.
Qed.
Example C73_fourier_case : exists u M u' M', mk Py (UB FS) 3 (NcInt 0) 2 0 4 [] [] = Some u /\
  utfc_H ROps RFun cjvp u (u_x u) 0 true = Some M /\ ~ independent_columns M /\
  mk Py (UB FS) 4 (NcInt 0) 2 0 4 [] [] = Some u' /\
  utfc_H ROps RFun cjvp u' (u_x u') 0 true = Some M' /\ independent_columns M'.
Proof.
  destruct (mk_some Py (UB FS) 3 (NcInt 0) [] 2 0 4 [] [] eq_refl ltac:(cbn; lia)
    ltac:(intros i []) ltac:(right; right; reflexivity) ltac:(lia)) as (u & Hu).
  destruct (mk_some Py (UB FS) 4 (NcInt 0) [] 2 0 4 [] [] eq_refl ltac:(cbn; lia)
    ltac:(intros i []) ltac:(right; right; reflexivity) ltac:(lia)) as (u' & Hu').
  destruct (C73_fourier_iff cjvp Py 3 (NcInt 0) 2 0 4 [] [] u cjvp_ok ltac:(lia) ltac:(lra) Hu) as (M & EM & HM).
  destruct (C73_fourier_iff cjvp Py 4 (NcInt 0) 2 0 4 [] [] u' cjvp_ok ltac:(lia) ltac:(lra) Hu') as (M' & EM' & HM').
  exists u, M, u', M'. split; [exact Hu|]. split; [exact EM|]. split; [intros H; apply HM in H; cbn in H; lia|].
  split; [exact Hu'|]. split; [exact EM'|]. apply HM'. cbn. lia.
Qed.
