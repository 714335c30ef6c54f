(** C89: at a grid with enough points on every axis the columns of the multivariate matrix are
    independent. *)
From Coq Require Import Reals Arith List Bool ZArith Lra Lia.
From Coquelicot Require Import Coquelicot.
From Verif Require Import Base Numbers ModelBFPy SpecBasis ModelELM SpecELM ModelND SpecND ModelNELM SpecNELM
  ModelUtfc SpecUtfc ModelMtfc SpecMtfc ProofMtfc ProofMtfc3 PropMtfc SpecColl SpecNColl ProofNColl PropNELM.
Import ListNotations.
Open Scope R_scope.

(** ** C89.  The functions are products of one function per variable; the matrix of their values at
    the object's own points has independent columns when every axis has enough points for its own
    functions, whatever constraints removed columns; *)
Theorem C89_grid_rank : forall jvpn be f n nC deg dim x0 xf w b u (full : bool), jvpn_ok jvpn ->
  mkm be (MB f) n nC deg dim x0 xf w b = Some u -> argsm (MB f) nC deg dim x0 xf w b ->
  (forall k, (k < dim)%nat -> nth k x0 0 < nth k xf 0 /\ (2 <= nth k n 0)%nat /\ enough f deg (nth k n 0%nat)) ->
  exists M, mtfc_H ROps RFun jvpn u (m_x u) (repeat 0%nat dim) full = Some M /\ independent_columns M.
Proof.
  intros jvpn be f n nC deg dim x0 xf w b u full Hj Hu Ha H.
  apply (grid_independent jvpn Hj be f n nC deg dim x0 xf w b u Hu Ha); intros k Hk; apply (H k Hk).
Qed.
Print Assumptions C89_grid_rank.

(** and the full matrix needs enough points on every axis: more points elsewhere do not help. *)
Theorem C89_grid_rank_iff : forall jvpn be f n nC deg dim x0 xf w b u, jvpn_ok jvpn ->
  mkm be (MB f) n nC deg dim x0 xf w b = Some u -> argsm (MB f) nC deg dim x0 xf w b ->
  (forall k, (k < dim)%nat -> nth k x0 0 < nth k xf 0 /\ (2 <= nth k n 0)%nat) ->
  exists M, mtfc_H ROps RFun jvpn u (m_x u) (repeat 0%nat dim) true = Some M /\
    (independent_columns M <-> forall k, (k < dim)%nat -> enough f deg (nth k n 0%nat)).
Proof.
  intros jvpn be f n nC deg dim x0 xf w b u Hj Hu Ha H.
  assert (Hx : forall k, (k < dim)%nat -> nth k x0 0 < nth k xf 0) by (intros k Hk; apply (H k Hk)).
  assert (Hn : forall k, (k < dim)%nat -> (2 <= nth k n 0)%nat) by (intros k Hk; apply (H k Hk)).
  destruct (g_rows jvpn Hj be f n nC deg dim x0 xf w b u Hu Ha Hx Hn true) as (M & EM & _).
  exists M. split; [exact EM|]. split.
  - apply (grid_necessary jvpn Hj be f n nC deg dim x0 xf w b u Hu Ha Hx Hn M EM).
  - intros He. destruct (grid_independent jvpn Hj be f n nC deg dim x0 xf w b u Hu Ha Hx Hn true He) as (M' & EM' & HI).
    assert (E : M' = M) by congruence. rewrite <- E. exact HI.
Qed.
Print Assumptions C89_grid_rank_iff.

(** six functions of degree two in two variables at a 3 by 3 grid; not at a 2 by 9 grid, which has
    eighteen points; Fourier functions need a 4 by 4 grid *)
Definition cjvpn (g : list R -> R) (z t : list R) : R := Derive (fun s => g (line z t s)) 0.
Lemma two_lt (P : nat -> Prop) : P 0%nat -> P 1%nat -> forall k, (k < 2)%nat -> P k.
Proof. intros H0 H1 [|[|k]] Hk; [exact H0|exact H1|lia]. Qed.
Lemma mkm_two be f a c : offeredm (MB f) -> (2 <= a)%nat -> (2 <= c)%nat -> (Z.of_nat (a * (c * 1)) < 2147483648)%Z ->
  exists u, mkm be (MB f) [a; c] (MList [EInt 0; EInt 1]) 2 2 [0; 0] [1; 4] [] [] = Some u.
Proof.
  intros Hf H1 H2 H3.
  destruct (C26_mtfc_named_functions cjvpn jvpn_ok_case be f [a; c] (MList [EInt 0; EInt 1]) [EInt 0; EInt 1] 2 2 [0; 0] [1; 4] [] [] Hf) as (u & Hu & _);
    [lia|reflexivity|reflexivity|reflexivity|exact H3|apply two_lt; assumption|reflexivity|reflexivity| |exists u; exact Hu].
  intros e [<-|[<-|[]]]; (split; [intros (x & Hx); discriminate|cbn; lia]).
Qed.
Example C89_case : exists u M u' M' v Mv v' Mv',
  mkm Py (MB CP) [3; 3]%nat (MList [EInt 0; EInt 1]) 2 2 [0; 0] [1; 4] [] [] = Some u /\
  mtfc_H ROps RFun cjvpn u (m_x u) [0; 0]%nat true = Some M /\ mr M = 9%nat /\ mc M = 6%nat /\ independent_columns M /\
  mkm Py (MB CP) [2; 9]%nat (MList [EInt 0; EInt 1]) 2 2 [0; 0] [1; 4] [] [] = Some u' /\
  mtfc_H ROps RFun cjvpn u' (m_x u') [0; 0]%nat true = Some M' /\ mr M' = 18%nat /\ ~ independent_columns M' /\
  mkm Cpp (MB FS) [3; 3]%nat (MList [EInt 0; EInt 1]) 2 2 [0; 0] [1; 4] [] [] = Some v /\
  mtfc_H ROps RFun cjvpn v (m_x v) [0; 0]%nat true = Some Mv /\ ~ independent_columns Mv /\
  mkm Cpp (MB FS) [4; 4]%nat (MList [EInt 0; EInt 1]) 2 2 [0; 0] [1; 4] [] [] = Some v' /\
  mtfc_H ROps RFun cjvpn v' (m_x v') [0; 0]%nat true = Some Mv' /\ independent_columns Mv'.
Proof.
  assert (Hargs : forall f, argsm (MB f) (MList [EInt 0; EInt 1]) 2 2 [0; 0] [1; 4] [] []) by (intros; split; [lia|exact I]).
  assert (H : forall be f a c u, offeredm (MB f) -> (2 <= a)%nat -> (2 <= c)%nat ->
    mkm be (MB f) [a; c] (MList [EInt 0; EInt 1]) 2 2 [0; 0] [1; 4] [] [] = Some u ->
    exists M, mtfc_H ROps RFun cjvpn u (m_x u) [0; 0]%nat true = Some M /\ mr M = (a * (c * 1))%nat /\ mc M = 6%nat /\
      (independent_columns M <-> enough f 2 a /\ enough f 2 c)).
  { intros be f a c u Hf Ha Hc Hu.
    destruct (C89_grid_rank_iff cjvpn be f [a; c] (MList [EInt 0; EInt 1]) 2 2 [0; 0] [1; 4] [] [] u jvpn_ok_case Hu (Hargs f)) as (M & EM & HM).
    - apply two_lt; cbn; (split; [lra|assumption]).
    - exists M. split; [exact EM|].
      destruct (c19 be (MB f) [a; c] (MList [EInt 0; EInt 1]) 2 2 [0; 0] [1; 4] [] [] u Hu) as (_ & HL & Hrow). { apply two_lt; cbn; lra. }
      assert (Hsh : shaped (Mat 2 (product [a; c]) (m_x u)) 2 (product [a; c])).
      { repeat split; cbn [mr mc md]; [exact HL|]. intros r Hr. apply In_nth_error in Hr as (k & Hk).
        assert (k < 2)%nat by (rewrite <- HL; apply nth_error_Some; congruence).
        destruct (Hrow k H) as (row & Er & El & _). congruence. }
      destruct (mtfc_H_ok cjvpn be (MB f) [a; c] (MList [EInt 0; EInt 1]) 2 2 [0; 0] [1; 4] [] [] u [0; 0]%nat true (product [a; c])
        (Mat 2 (product [a; c]) (m_x u)) jvpn_ok_case Hu (Hargs f)) as (EH & _); [split; [reflexivity|exact I]|exact Hsh|].
      cbn [md] in EH. assert (E : Some M = Some (mmat (MB f) 2 2 [0; 0] [1; 4] [] [] (mK (MB f) 2 2 (MList [EInt 0; EInt 1]) true) [0; 0]%nat
        (product [a; c]) (Mat 2 (product [a; c]) (m_x u)))) by (rewrite <- EM; exact EH).
      injection E as ->. split; [reflexivity|]. split; [reflexivity|].
      rewrite HM. split; [intros Hk; split; [apply (Hk 0%nat)|apply (Hk 1%nat)]; lia|]. intros [H0 H1]. apply two_lt; assumption. }
  destruct (mkm_two Py CP 3 3 ltac:(cbn; auto) ltac:(lia) ltac:(lia) ltac:(lia)) as (u & Hu).
  destruct (mkm_two Py CP 2 9 ltac:(cbn; auto) ltac:(lia) ltac:(lia) ltac:(lia)) as (u' & Hu').
  destruct (mkm_two Cpp FS 3 3 ltac:(cbn; auto) ltac:(lia) ltac:(lia) ltac:(lia)) as (v & Hv).
  destruct (mkm_two Cpp FS 4 4 ltac:(cbn; auto) ltac:(lia) ltac:(lia) ltac:(lia)) as (v' & Hv').
  destruct (H Py CP 3%nat 3%nat u) as (M & EM & Hr & Hc & HM); [cbn; auto|lia|lia|exact Hu|].
  destruct (H Py CP 2%nat 9%nat u') as (M' & EM' & Hr' & Hc' & HM'); [cbn; auto|lia|lia|exact Hu'|].
  destruct (H Cpp FS 3%nat 3%nat v) as (N & EN & _ & _ & HN); [cbn; auto|lia|lia|exact Hv|].
  destruct (H Cpp FS 4%nat 4%nat v') as (N' & EN' & _ & _ & HN'); [cbn; auto|lia|lia|exact Hv'|].
  exists u, M, u', M', v, N, v', N'. repeat (split; [assumption|]).
  split; [apply HM; cbn; lia|]. repeat (split; [assumption|]).
  split; [intros K; apply HM' in K; cbn in K; lia|]. repeat (split; [assumption|]).
  split; [intros K; apply HN in K; cbn in K; lia|]. repeat (split; [assumption|]). apply HN'. cbn. lia.
Qed.
