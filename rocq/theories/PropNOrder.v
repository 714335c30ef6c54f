(** C114: n-dimensional bases and orders that are any integers. *)
From Coq Require Import Reals Arith Lia Lra List Bool ZArith.
From Coquelicot Require Import Coquelicot.
From Verif Require Import Base Numbers ModelBFPy ModelBFCpp SpecBasis ProofH ModelND SpecND ProofND ProofND2 ModelOrder SpecOrder ProofOrder
  ModelNOrder SpecNOrder ProofNOrder.
From Coq Require Import QArith.
Import ListNotations.
Open Scope R_scope.

(** an answer exactly if the one-dimensional class answers in every dimension, and then products
    of its answers *)
Theorem C114_products lim be f dim x0 xf nC m full : n_args f dim x0 xf nC m ->
  exists B idx, mkn be f x0 xf nC m = Some B /\ NoDup idx /\ (forall v, In v idx <-> admissible dim m nC full v) /\
  forall n x d, shaped x dim n -> given be dim d ->
    ((forall k, (k < dim)%nat -> exists t, along lim be f x0 xf m d k t <> None) ->
       exists M, Hnz lim be f B x d full = Some M /\ products lim be f x0 xf m dim idx x d n M) /\
    ((1 <= n)%nat -> (exists k t, (k < dim)%nat /\ along lim be f x0 xf m d k t = None) -> Hnz lim be f B x d full = None).
Proof.
  intros Hargs. destruct (mkn_ok be _ _ _ _ _ _ Hargs) as (B & EB & HB). pose proof Hargs as (Hf & Hd & Hm & H0 & Hxf & HC).
  exists B, (idxs dim m (md nC) full). split; [exact EB|]. split; [apply idxs_nodup|].
  split; [intros v; apply idxs_in; assumption|]. intros n x d Hx Ho. split.
  - intros Ha. assert (Hall : all_answered lim f m dim d).
    { intros k Hk. destruct (Ha k Hk) as (t & Ht). exact (proj1 (H1z_answered_iff lim be f _ _ _ m _ t Hm) Ht). }
    eexists. split; [apply (Hnz_ok lim be f dim x0 xf nC m B x d full n); assumption|]. apply nz_products; assumption.
  - intros Hn (k & t & Hk & Ht). destruct n as [|n]; [lia|].
    destruct (answered_dec lim f m (nth k d 0%Z)) as [Ha|(H1 & H2 & H3)].
    + exfalso. apply (H1z_answered_iff lim be f (nth k x0 0) (nth k xf 0) [] m _ t Hm) in Ha. exact (Ha Ht).
    + apply (Hnz_none lim be f dim x0 xf nC m B x d full n k); assumption.
Qed.
Print Assumptions C114_products.

(** orders 0, 1, 2, ... up to the room for nested calls: the mixed partial derivatives *)
Theorem C114_partials_partial lim be f dim x0 xf nC m full : n_args f dim x0 xf nC m ->
  exists B, mkn be f x0 xf nC m = Some B /\
  partial_matrices (fun x d => Hnz lim be f B x (map Z.of_nat d) full) dim (advertised B full)
    (fun d => orders_ok be dim d /\ forall k, (k < dim)%nat -> (f = FS \/ m <= 2 \/ nth k d 0 <= lim)%nat).
Proof. apply nz_partials. Qed.
Print Assumptions C114_partials_partial.

(** a negative order, or one beyond the room, in any one dimension: no matrix for three or more
    polynomials per dimension *)
Theorem C114_rejected_partial lim be f dim x0 xf nC m full n x d k : n_args f dim x0 xf nC m -> f <> FS -> (3 <= m)%nat ->
  shaped x dim (S n) -> (k < dim)%nat -> (nth k d 0 < 0 \/ Z.of_nat lim < nth k d 0)%Z ->
  exists B, mkn be f x0 xf nC m = Some B /\ Hnz lim be f B x d full = None.
Proof.
  intros Hargs Hf Hm Hx Hk Hd. destruct (mkn_ok be _ _ _ _ _ _ Hargs) as (B & EB & HB). exists B. split; [exact EB|].
  apply (Hnz_none lim be f dim x0 xf nC m B x d full n k); assumption.
Qed.
Print Assumptions C114_rejected_partial.

(** one or two polynomials per dimension: negative orders are answered, with the values divided
    by powers of the slopes of the maps of the domains *)
Theorem C114_few_refuted lim be f dim x0 xf nC m full n x ns : n_args f dim x0 xf nC m -> f <> FS -> (m <= 2)%nat ->
  shaped x dim n -> length ns = dim ->
  exists B M0 M, mkn be f x0 xf nC m = Some B /\ Hnz lim be f B x (repeat 0%Z dim) full = Some M0 /\
    Hnz lim be f B x (map (fun n => - Z.of_nat n)%Z ns) full = Some M /\ shaped M n (advertised B full) /\
    forall j i v, ment M0 j i = Some v ->
      ment M j i = Some (v / prodn dim (fun k => speed f (nth k x0 0) (nth k xf 0) ^ nth k ns 0%nat)).
Proof.
  intros Hargs Hf Hm Hx Hl. destruct (mkn_ok be _ _ _ _ _ _ Hargs) as (B & EB & HB). pose proof Hargs as (Hb & Hd & Hm1 & H0 & Hxf & HC).
  exists B. eexists. eexists. split; [exact EB|].
  split; [apply (Hnz_ok lim be f dim x0 xf nC m B x _ full n); try assumption; [right; rewrite repeat_length; lia|intros k Hk; right; left; exact Hm]|].
  split; [apply (Hnz_ok lim be f dim x0 xf nC m B x _ full n); try assumption; [right; rewrite map_length; lia|intros k Hk; right; left; exact Hm]|].
  split.
  { rewrite (nbo_num _ _ _ _ _ _ _ HB). pose proof Hx as (_ & <- & _). apply nz_mat_shaped. }
  intros j i v. rewrite !nz_mat_ent. destruct (j <? mc x)%nat; [|discriminate]. destruct (nth_error _ i) as [w|]; [|discriminate].
  intros E. injection E as <-. f_equal. unfold zterm. rewrite <- prodn_div. apply prodn_ext. intros k Hk.
  rewrite nth_map_opp, nth_repeat. unfold zdcol. rewrite opowz_neg, <- (nd_ci_speed f x0 xf k Hb).
  assert (Ez : forall d z, zcol be f d (nth k w 0%nat) z = col f (nth k w 0%nat) (Z.to_nat d) z) by (intros; destruct f; try reflexivity; congruence).
  rewrite !Ez. replace (Z.to_nat (- Z.of_nat (nth k ns 0%nat))) with 0%nat by lia. cbn [opowz ROps o1 Z.to_nat]. unfold Rdiv. ring.
Qed.
Print Assumptions C114_few_refuted.

(** Fourier series: the backends agree if no order is -2 or -3 modulo -4, and answer order [-n] in
    the first dimension differently if [n mod 4] is 2 or 3 *)
Theorem C114_fourier_refuted lim dim x0 xf nC m full : n_args FS dim x0 xf nC m ->
  exists Bp Bc, mkn Py FS x0 xf nC m = Some Bp /\ mkn Cpp FS x0 xf nC m = Some Bc /\
  (forall n x d, shaped x dim n -> (dim <= length d)%nat ->
     (forall k, (k < dim)%nat -> (0 <= nth k d 0)%Z \/ exists p, nth k d 0%Z = (- Z.of_nat p)%Z /\ (p mod 4 <= 1)%nat) ->
     exists M, Hnz lim Py FS Bp x d full = Some M /\ Hnz lim Cpp FS Bc x d full = Some M) /\
  (full = true -> (2 <= m)%nat -> nth 0 x0 0 <> nth 0 xf 0 -> forall p, (2 <= p mod 4)%nat ->
     let x := one_point dim (fun k => nth k x0 0) in let d := (- Z.of_nat p)%Z :: repeat 0%Z (dim - 1) in
     exists M M', Hnz lim Py FS Bp x d full = Some M /\ Hnz lim Cpp FS Bc x d full = Some M' /\ M <> M').
Proof.
  intros Hargs. destruct (mkn_ok Py _ _ _ _ _ _ Hargs) as (Bp & EBp & HBp). destruct (mkn_ok Cpp _ _ _ _ _ _ Hargs) as (Bc & EBc & HBc).
  pose proof Hargs as (Hb & Hd & Hm1 & H0 & Hxf & HC). exists Bp, Bc. split; [exact EBp|]. split; [exact EBc|].
  assert (Hall : forall d, all_answered lim FS m dim d) by (intros d k Hk; left; reflexivity). split.
  - intros n x d Hx Hl Ho. eexists. split; [apply (Hnz_ok lim Py FS dim x0 xf nC m Bp x d full n); try assumption; [right; exact Hl|apply Hall]|].
    rewrite (Hnz_ok lim Cpp FS dim x0 xf nC m Bc x d full n); try assumption; [|left; reflexivity|apply Hall].
    f_equal. unfold nz_mat. f_equal. apply map_ext. intros j. apply map_ext. intros v. unfold zterm. apply prodn_ext. intros k Hk.
    unfold zdcol. f_equal. cbn [zcol rem_of]. destruct (Ho k Hk) as [Hp|(p & Ep & Hp)].
    + rewrite Z.rem_mod_nonneg by lia. reflexivity.
    + rewrite Ep. apply fsz_branch, Hp.
  - intros -> Hm Hne p Hp x d. pose proof (one_point_shaped dim (fun k => nth k x0 0)) as Hx. fold x in Hx.
    eexists. eexists. split; [apply (Hnz_ok lim Py FS dim x0 xf nC m Bp x d true 1); try assumption; [right; cbn; rewrite repeat_length; lia|apply Hall]|].
    split; [apply (Hnz_ok lim Cpp FS dim x0 xf nC m Bc x d true 1); try assumption; [left; reflexivity|apply Hall]|].
    destruct dim as [|dim]; [lia|]. set (v := 1%nat :: repeat 0%nat dim).
    assert (Hv : In v (idxs (S dim) m (md nC) true)).
    { apply idxs_in; try assumption. split; [cbn; rewrite repeat_length; reflexivity|]. split; [|left; reflexivity].
      unfold v. rewrite lsum_cons. assert (E0 : forall q, list_sum (repeat 0%nat q) = 0%nat) by (induction q; [reflexivity|exact IHq]). rewrite E0. lia. }
    apply In_nth_error in Hv as (i & Hi). intros E. apply (f_equal (fun M => ment M 0 i)) in E. revert E. rewrite !nz_mat_ent, Hi. change (mc x) with 1%nat. change (0 <? 1)%nat with true. cbv iota.
    intros E. injection E as E. revert E. unfold zterm.
    assert (Er : forall k, (1 <= k)%nat -> nth k d 0%Z = 0%Z /\ nth k v 0%nat = 0%nat).
    { intros [|k] Hk; [lia|]. unfold d, v. cbn [nth Nat.sub]. split; apply nth_repeat. }
    assert (E1 : forall be k, (1 <= k < S dim)%nat -> zdcol be FS x0 xf k (nth 0 (nth k (md x) []) 0) (nth k d 0%Z) (nth k v 0%nat) = 1).
    { intros be k Hk. destruct (Er k ltac:(lia)) as [-> ->]. unfold zdcol. cbn [zcol fsz Z.eqb opowz ROps o1]. ring. }
    rewrite !prodn_first by (intros k Hk; apply E1, Hk). cbv beta. change (nth 0 [nth 0 x0 0] 0) with (nth 0 x0 0). change (nth 0 d 0%Z) with (- Z.of_nat p)%Z. change (nth 0 v 0%nat) with 1%nat. unfold zdcol. cbn [zcol rem_of].
    replace ((nth 0 x0 0 - nth 0 x0 0) * nd_ci FS x0 xf 0 + nd_z0 FS) with (- PI) by (unfold nd_z0; ring).
    intros E. apply (fsz_apart p Hp). symmetry. apply Rmult_eq_reg_r in E; [exact E|].
    rewrite opowz_neg. apply Rinv_neq_0_compat, pow_nonzero. rewrite nd_ci_speed by exact Hb. apply speed_nz, Hne.
Qed.
Print Assumptions C114_fourier_refuted.

(** two dimensions, two Chebyshev polynomials each, on intervals of lengths 1 and 4 (slopes 2 and
    1/2): orders -1 and -2 divide by 2 and by 1/4; with three polynomials order -1 is refused, and
    order 3 with room for two nested calls *)
Definition HnzQ lim be f x0 xf nC m x d full :=
  match nd_init QOps QFun be f x0 xf nC m with Some B => nd_Hz QOps QFun lim be f B x d full | None => None end.
Example C114_case :
  let H m lim be := HnzQ lim be CP [(-1)#2; (-2)]%Q [1#2; 2]%Q (Mat 2 1 [[-1]; [-1]]%Z) m (Mat 2 1 [[3]; [10]])%Q in
  (forall be, H 2%nat 5%nat be [0; 0]%Z true = Some (Mat 1 3 [[1; 6; 5]])%Q /\
              H 2%nat 5%nat be [(-1); (-2)]%Z true = Some (Mat 1 3 [[2; 12; 10]])%Q /\
              H 3%nat 5%nat be [0; (-1)]%Z true = None /\ H 3%nat 2%nat be [3; 0]%Z true = None /\
              H 3%nat 2%nat be [2; 0]%Z true = Some (Mat 1 6 [[0; 0; 16; 0; 0; 0]])%Q).
Proof. intros H be. destruct be; repeat split; vm_compute; reflexivity. Qed.
