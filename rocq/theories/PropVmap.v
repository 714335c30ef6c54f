(** C59, derivatives: the derivative rule of [H] under [vmap] over the points. *)
From Coq Require Import Reals Arith List Bool ZArith Lra Lia.
From Coquelicot Require Import Coquelicot.
From Verif Require Import Base Numbers ModelBFPy ModelBFCpp SpecBasis ModelELM SpecELM ModelUtfc SpecUtfc ProofUtfc.
Import ListNotations.
Open Scope R_scope.

(** One scalar tangent for all points: row by row the mapped rule returns what the rule returns for the
    single point (C27 says that this is the derivative). *)
Theorem C59_vmap_derivative : forall jvp (Hj : jvp_ok jvp) be bs N nC deg x0 xf w b u l xs dx d full,
  mk be bs N nC deg x0 xf w b = Some u ->
  utfc_nC nC = Some l -> valid_nC l (S deg) -> can be bs d -> can be bs (d + 1) -> weights_fit bs deg w b -> dx <> 0 ->
  exists rows tans, vmap_jvp ROps RFun jvp u xs dx d full = Some (rows, tans) /\ length rows = length xs /\ length tans = length xs /\
  forall j x, nth_error xs j = Some x -> exists r t M out, nth_error rows j = Some r /\ nth_error tans j = Some t /\
    utfc_jvp ROps RFun jvp u [x] [dx] d full = Some (M, out) /\ md M = [r] /\ md out = [t].
Proof.
  intros jvp Hj be bs N nC deg x0 xf w b u l xs dx d full Hu El Hv Hc Hc1 Hw Hd.
  assert (HK : forall xs d, can be bs d -> utfc_H ROps RFun jvp u xs d full = Some (kmat (u_B u) (ucol bs w b) (uks u full) xs d)).
  { intros xs' d' Hc'. eapply uH_k; try eassumption. intros _. rewrite (mk_nC _ _ _ _ _ _ _ _ _ _ _ Hu El). exact Hv. }
  assert (Hnz : nonzero ROps RFun dx = true) by (apply nonzero_R, Hd).
  unfold vmap_jvp, vmap_H. rewrite Hnz. rewrite !HK by assumption. cbn [bind]. eexists; eexists. split; [reflexivity|].
  split; [apply map_length|]. split; [rewrite map_length; apply map_length|].
  intros j x Ex. unfold utfc_jvp. cbn [existsb]. rewrite Hnz. cbn [orb]. rewrite !HK by assumption. cbn [bind].
  unfold scale_rows. cbn [mr kmat length Nat.eqb bind md map combine].
  eexists; eexists; eexists; eexists. split; [rewrite nth_error_map, Ex; reflexivity|].
  split; [rewrite nth_error_map, nth_error_map, Ex; reflexivity|]. split; [reflexivity|]. split; reflexivity.
Qed.
Print Assumptions C59_vmap_derivative.
(** The zero tangent fails here too. *)
Theorem C59_zero_tangent_refuted : forall jvp u xs d full, vmap_jvp ROps RFun jvp u xs 0 d full = None.
Proof.
  intros. unfold vmap_jvp. destruct (nonzero ROps RFun 0) eqn:E; [|reflexivity]. apply nonzero_R in E. exfalso. apply E. reflexivity.
Qed.
Print Assumptions C59_zero_tangent_refuted.
