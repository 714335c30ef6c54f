(** C36, C37: partial evaluation and its use by the solvers. *)
From Coq Require Import List Arith Lia Sorted.
From Verif Require Import Base ModelPe SpecPe ProofPe.
Import ListNotations.

(** C36, for positions listed in increasing order: the new function of the remaining
    arguments is the old one with each constant in its place.  Missing: other orders. *)
Theorem C36_pe_ascending_partial : forall X Y (args : list X) (consts : list nat) (f : list X -> Y),
  ascending consts -> below (length args) consts ->
  exists g, pe args consts f = Some g /\
    forall rest, length rest = length args - length consts -> g rest = Some (f (fill consts 0 args rest)).
Proof. exact @pe_asc. Qed.
Print Assumptions C36_pe_ascending_partial.
Example C36_ex : exists g, pe [10; 11; 12; 13] [1; 3] (fun l => l) = Some g /\ g [7; 8] = Some [7; 11; 8; 13].
Proof. eexists. split; [vm_compute; reflexivity|vm_compute; reflexivity]. Qed.

(** ... and of any two positions given larger first (other than with position 0), the
    smaller one is missed: the argument before it is fixed in its stead. *)
Theorem C36_any_order_refuted : forall X Y (args : list X) k1 k2 (f : list X -> Y),
  1 <= k2 -> k2 < k1 -> k1 < length args ->
  exists g, pe args [k1; k2] f = Some g /\
    forall rest, length rest = length args - 2 -> g rest = Some (f (fill [k2 - 1; k1] 0 args rest)).
Proof. exact @pe_desc2. Qed.
Print Assumptions C36_any_order_refuted.
Example C36_refuted_ex : exists g, pe [10; 11; 12; 13] [3; 1] (fun l => l) = Some g /\
  g [7; 8] = Some [10; 7; 8; 13] /\ fill [3; 1] 0 [10; 11; 12; 13] [7; 8] = [7; 11; 8; 13].
Proof. eexists. repeat split; vm_compute; reflexivity. Qed.

(** C37, wiring: on a list in increasing order of positions from 1 on, the solvers evaluate
    the caller's function at the unknowns and the caller's arguments.  Missing: other orders,
    and the list given is not left alone (below). *)
Theorem C37_wiring_partial : forall X Y (xi : X) (args : list X) (consts : list nat) (g : list X -> Y),
  ascending consts -> List.Forall (fun k => 1 <= k <= length args) consts ->
  exists w, wire xi args consts g = Some w /\ forall x, wired_eval w x = Some (g (x :: args)).
Proof.
  intros X Y xi args consts g Ha Hb. destruct (wire_asc xi args consts g Ha Hb) as (w & E & H & _). eauto.
Qed.
Print Assumptions C37_wiring_partial.
Example C37_ex : exists w, wire 0 [11; 12; 13] [1; 3] (fun l => l) = Some w /\ wired_eval w 7 = Some [7; 11; 12; 13] /\ w_args w = [12].
Proof. eexists. repeat split; vm_compute; reflexivity. Qed.

(** The caller's list is reversed in place, so with two or more positions it is changed. *)
Theorem C37_list_changed_refuted : forall X Y (xi : X) (args : list X) (consts : list nat) (g : list X -> Y),
  ascending consts -> List.Forall (fun k => 1 <= k <= length args) consts ->
  exists w, wire xi args consts g = Some w /\ w_consts w = rev consts /\
    (2 <= length consts -> w_consts w <> consts).
Proof.
  intros X Y xi args consts g Ha Hb. destruct (wire_asc xi args consts g Ha Hb) as (w & E & _ & Hc & _).
  exists w. split; [assumption|]. split; [assumption|]. rewrite Hc. intros Hl Hr.
  destruct consts as [|a consts]; cbn in Hl; [lia|]. destruct (exists_last (l := consts)) as (l & z & ->).
  { destruct consts; [cbn in Hl; lia|discriminate]. }
  cbn in Hr. rewrite rev_app_distr in Hr. cbn in Hr. injection Hr as Hz _. subst z.
  apply StronglySorted_inv in Ha. destruct Ha as [_ Hf]. apply Forall_app in Hf. destruct Hf as [_ Hf]. inversion Hf; lia.
Qed.
Print Assumptions C37_list_changed_refuted.

(** Reusing the list object: after a first call with positions k2 < k1, the second call
    gives the caller's function arguments in the wrong places. *)
Theorem C37_reuse_refuted : forall X Y (xi : X) (args : list X) k1 k2 (g : list X -> Y),
  1 <= k2 -> k2 < k1 -> k1 <= length args ->
  exists w, wire xi args [k2; k1] g = Some w /\
  exists w', wire xi args (w_consts w) g = Some w' /\
    forall x, wired_eval w' x = Some (g (fill [k2 - 1; k1] 0 (xi :: args) (x :: drop [k2; k1] 1 args))).
Proof.
  intros X Y xi args k1 k2 g H1 H2 H3.
  destruct (wire_asc xi args [k2; k1] g) as (w & E & _ & Hc & _).
  - repeat constructor; assumption.
  - apply Forall_forall. cbn. intros; lia.
  - exists w. split; [assumption|]. rewrite Hc. apply wire_desc2; assumption.
Qed.
Print Assumptions C37_reuse_refuted.
(** e.g. the unknowns are then passed as the first argument and held fixed themselves *)
Example C37_reuse_ex : forall X (xi x a b c : X), exists w w',
  wire xi [a; b; c] [1; 2] (fun l => l) = Some w /\ wire xi [a; b; c] (w_consts w) (fun l => l) = Some w' /\
  wired_eval w x = Some [x; a; b; c] /\ wired_eval w' x = Some [xi; x; b; c].
Proof. intros. do 2 eexists. repeat split; vm_compute; reflexivity. Qed.
