(** An example for C101: z_xy + z z_y = 1 + x^2 (1 + y), z(0, y) = 0, z(x, 0) = x. *)
From Coq Require Import Reals Arith Lia Lra List ZArith.
From Coquelicot Require Import Coquelicot.
From Verif Require Import Base Numbers ModelBFPy SpecBasis SpecNELM ProofIndep ModelELM ModelND SpecND ProofND ProofND2 ModelNELM ModelUtfc SpecUtfc ModelMtfc SpecMtfc ProofMtfc ProofMtfc2 ProofMtfc3
  SpecNColl ProofNColl ModelOde SpecOde ModelPde SpecPde ProofPde ProofPde2 ProofPde3 ModelPdeNl SpecPdeNl.
Import ListNotations.
Open Scope R_scope.

Definition ex_ca : list ((pt -> R) * list nat) := [(fun _ => 1, [])].
Definition ex_cb : list ((pt -> R) * list nat) := [(fun _ => 1, [0; 1]%nat)].
Definition ex_q (X : pt) : R := 1 + X 0%nat * X 0%nat * (1 + X 1%nat).
Notation ex_nC := (MList [EInt 1; EInt 1]).
Notation exZ := (Z CP ex_nC 2 2 [0; 0] [1; 1] ex_css ex_phis).
Definition W11 (X : pt) : R := 4 * (X 0%nat * X 1%nat).
Lemma ex_W11 X : stages 0 ex_phis (map (map zero_val) ex_css) (G CP 2 [0; 0] [1; 1] [1; 1]%nat) X = W11 X.
Proof.
  assert (E : forall X, G CP 2 [0; 0] [1; 1] [1; 1]%nat X = (2 * X 0%nat - 1) * (2 * X 1%nat - 1)).
  { intros Y. rewrite G_prod. cbn. unfold ndcol, nd_ci. cbn. field. }
  rewrite (stages_ext _ _ 0 _ _ E). unfold W11. cbn. unfold stage, corr, imposed. cbn. unfold upd. cbn. ring.
Qed.
Lemma ex_form be n u a : mkm be (MB CP) n ex_nC 2 2 [0; 0] [1; 1] [] [] = Some u -> exists c, forall X, exZ a X = X 0%nat + c * (X 0%nat * X 1%nat).
Proof.
  intros Hu. exists (4 * a 3%nat). intros X. rewrite Z_comb by (try exact ex_consistent; lia).
  assert (mK (MB CP) 2 2 ex_nC false = [[1; 0]; [2; 0]; [0; 1]; [1; 1]; [0; 2]]%nat) as -> by (vm_compute; reflexivity).
  cbn [map row_comb]. rewrite ex_W11.
  assert (R0' : forall v k cs, nth_error ex_css k = Some cs -> (nth k v 0 < length cs)%nat -> stages 0 ex_phis (map (map zero_val) ex_css) (G CP 2 [0; 0] [1; 1] v) X = 0).
  { intros v k cs Hk Hv. refine (o_redundant be CP n ex_nC 2 2 [0; 0] [1; 1] [] [] u ex_css ex_phis Hu _ _ _ ex_consistent ex_switchings v k cs _ Hk Hv X); [lia|reflexivity| |discriminate].
    intros i Hi; destruct i as [|[|i]]; cbn; try lra; lia. }
  rewrite (R0' [1; 0]%nat 1%nat _ eq_refl), (R0' [2; 0]%nat 1%nat _ eq_refl), (R0' [0; 1]%nat 0%nat _ eq_refl), (R0' [0; 2]%nat 0%nat _ eq_refl) by (cbn; lia).
  unfold W11. cbn. unfold stage, corr, imposed. cbn. unfold upd. cbn. ring.
Qed.
Lemma ex_parts (a c : R) X z : (forall X, z X = a * X 0%nat + c * (X 0%nat * X 1%nat)) ->
  pde ex_co z X = c /\ pde ex_ca z X = a * X 0%nat + c * (X 0%nat * X 1%nat) /\ pde ex_cb z X = c * X 0%nat.
Proof.
  intros E. split; [|split].
  - rewrite (pde_ext ex_co z _ X E). cbn [pde ex_co pdiff Derive_n].
    rewrite (Derive_ext _ (fun t => a + c * t)).
    + rewrite (is_derive_unique _ _ c); [ring|]. auto_derive; [exact I|ring].
    + intros t. unfold upd. cbn. apply is_derive_unique. auto_derive; [exact I|ring].
  - rewrite (pde_ext ex_ca z _ X E). cbn. ring.
  - rewrite (pde_ext ex_cb z _ X E). cbn [pde ex_cb pdiff Derive_n].
    rewrite (is_derive_unique _ _ (c * X 0%nat)); [ring|]. unfold upd. cbn. auto_derive; [exact I|ring].
Qed.
Lemma ex_nl_solved X : pnl ex_co ex_ca ex_cb (mpoly_at 2 ex_sol) X = ex_q X.
Proof.
  destruct (ex_parts 1 1 X (mpoly_at 2 ex_sol)) as (E1 & E2 & E3); [intros Y; rewrite ex_sol_at; ring|].
  unfold pnl, ex_q. rewrite E1, E2, E3. ring.
Qed.
Lemma ex_origin be u : mkm be (MB CP) [3; 3]%nat ex_nC 2 2 [0; 0] [1; 1] [] [] = Some u ->
  (0 < m_N u)%nat /\ forall k, (k < 2)%nat -> point_of (m_x u) 0 k = 0.
Proof.
  intros Hu. destruct (c19 be (MB CP) [3; 3]%nat ex_nC 2 2 [0; 0] [1; 1] [] [] u Hu) as (HN & _ & Hx).
  { intros [|[|k]] Hk; cbn; try lra. lia. }
  assert (H3 : (0 < product [3; 3]%nat)%nat) by (cbn; lia).
  split; [rewrite HN; exact H3|]. intros k Hk. destruct (Hx k Hk) as (row & E & _ & Hr). specialize (Hr 0%nat H3).
  unfold point_of. rewrite (nth_error_nth _ _ _ E), (nth_error_nth _ _ _ Hr).
  assert (E0 : cgl 0 1 2 0 = 0).
  { unfold cgl. replace (PI * INR 0 / INR 2) with 0 by (cbn; field). rewrite cos_0. field. }
  destruct k as [|[|k]]; [exact E0|exact E0|lia].
Qed.
Lemma ex_isolated jvpn be u : jvpn_ok jvpn -> mkm be (MB CP) [3; 3]%nat ex_nC 2 2 [0; 0] [1; 1] [] [] = Some u ->
  pisolated (fun z => exists xi, surface jvpn u 2 ex_css ex_phis xi z) ex_co ex_ca ex_cb (m_x u) (m_N u) (mpoly_at 2 ex_sol).
Proof.
  intros Hj Hu z (xi & Hz) Hl.
  assert (Ez : forall X, z X = exZ xi X) by (apply (surface_Z jvpn Hj be CP [3; 3]%nat ex_nC 2 2 [0; 0] [1; 1] [] [] u ex_css ex_phis Hu); [lia|reflexivity|exact Hz]).
  destruct (ex_form be _ u xi Hu) as (c & Ec). destruct (ex_origin be u Hu) as [H0 HX]. specialize (Hl 0%nat H0).
  set (X := point_of (m_x u) 0) in *. pose proof (HX 0%nat ltac:(lia)) as E0. pose proof (HX 1%nat ltac:(lia)) as E1.
  destruct (ex_parts 1 1 X (mpoly_at 2 ex_sol)) as (P1 & P2 & P3); [intros Y; rewrite ex_sol_at; ring|].
  destruct (ex_parts 0 (c - 1) X (fun Y : pt => z Y - mpoly_at 2 ex_sol Y)) as (V1 & V2 & V3); [intros Y; rewrite ex_sol_at, Ez, Ec; ring|].
  unfold pnl_lin in Hl. rewrite P2, P3, V1, V2, V3, E0, E1 in Hl. assert (c = 1) by lra. subst c.
  intros Y. rewrite Ez, Ec, ex_sol_at. ring.
Qed.
Lemma ex_orders : orders_fit 2 ex_co /\ orders_fit 2 ex_ca /\ orders_fit 2 ex_cb.
Proof. split; [|split]; intros a d [[= _ <-]|[]]; cbn; lia. Qed.
