(** Python rows, whole matrices and mixed partials of the n-dimensional ELM bases. *)
From Coq Require Import List Arith ZArith Bool Reals Lra Lia Permutation Sorting.Sorted.
From Coquelicot Require Import Coquelicot.
From Verif Require Import Base Numbers ModelBFPy ModelBFCpp SpecBasis ProofBase ProofTab ProofBFCpp ProofH
  ModelELM SpecELM ProofELM ModelND SpecND ProofND ProofND2 ModelNELM SpecNELM ProofNELM.
Import ListNotations.
Open Scope R_scope.

Lemma nth_map_seq {Y} (F : nat -> Y) n i d : (i < n)%nat -> nth i (map F (seq 0 n)) d = F i.
Proof.
  intros Hi. rewrite (nth_indep _ d (F 0%nat)) by (rewrite map_length, seq_length; exact Hi).
  rewrite (map_nth F), seq_nth by exact Hi. reflexivity.
Qed.
Lemma combine_app' {X Y} (a a' : list X) (b b' : list Y) : length a = length b ->
  combine (a ++ a') (b ++ b') = (combine a b ++ combine a' b')%list.
Proof. revert b; induction a as [|x a IH]; intros [|y b] H; try discriminate; cbn; [reflexivity|]. rewrite IH by (cbn in H; lia). reflexivity. Qed.
Lemma pydot_seq n F G : py_ne_dot ROps (map F (seq 0 n)) (map G (seq 0 n)) = sumn n (fun i => F i * G i).
Proof.
  unfold py_ne_dot. induction n as [|n IH]; [reflexivity|].
  rewrite !seq_S, !map_app, combine_app' by (rewrite !map_length; reflexivity).
  rewrite fold_left_app, IH. reflexivity.
Qed.
Lemma list_seq (z : list R) n : length z = n -> z = map (fun i => nth i z 0) (seq 0 n).
Proof. intros <-. symmetry. rewrite <- (map_id z) at 2. apply (map_seq_nth (fun v => v) z 0). Qed.
Lemma pydot_ok n z G : length z = n -> py_ne_dot ROps z (map G (seq 0 n)) = sumn n (fun i => nth i z 0 * G i).
Proof. intros H. rewrite (list_seq z n H) at 1. apply pydot_seq. Qed.
Lemma prodn_first n F : prodn (S n) F = F 0%nat * prodn n (fun i => F (S i)).
Proof. induction n as [|n IH]; [cbn; ring|]. change (prodn (S (S n)) F) with (prodn (S n) F * F (S n)). rewrite IH. cbn [prodn]. ring. Qed.
Lemma sumn_delta n j (W : nat -> R) : sumn n (fun i => (if (i =? j)%nat then 1 else 0) * W i) = if (j <? n)%nat then W j else 0.
Proof.
  induction n as [|n IH]; [reflexivity|]. cbn [sumn]. rewrite IH.
  destruct (Nat.eqb_spec n j), (Nat.ltb_spec j n), (Nat.ltb_spec j (S n)); try lia; subst; ring.
Qed.
Lemma sumn_lin n F G t : sumn n (fun i => F i + t * G i) = sumn n F + t * sumn n G.
Proof. induction n as [|n IH]; cbn; [ring|]. rewrite IH. ring. Qed.

Lemma nG_deriv f s u : (f = ReLU -> u <> 0) -> is_derive (nG f s) u (nG f (S s) u).
Proof.
  intros Hu. destruct f; cbn [nG]; try (apply gact_deriv; discriminate).
  specialize (Hu eq_refl).
  destruct (Rlt_dec 0 u) as [P|P].
  - destruct s as [|[|s]].
    + apply (is_derive_ext_loc (fun u => u)).
      * assert (L : locally u (fun v => 0 < v)) by (apply (open_gt 0), P). revert L. apply filter_imp.
        intros v Hv. cbn. destruct (Rlt_dec 0 v); [reflexivity|contradiction].
      * cbn. destruct (Rlt_dec 0 u); [|contradiction]. apply @is_derive_id.
    + apply (is_derive_ext_loc (fun _ => 1)).
      * assert (L : locally u (fun v => 0 < v)) by (apply (open_gt 0), P). revert L. apply filter_imp.
        intros v Hv. cbn. destruct (Rlt_dec 0 v); [reflexivity|contradiction].
      * cbn. apply is_derive_Reals, derivable_pt_lim_const.
    + cbn. apply is_derive_Reals, derivable_pt_lim_const.
  - assert (N : u < 0) by lra. apply (is_derive_ext_loc (fun _ => 0)).
    + assert (L : locally u (fun v => v < 0)) by (apply (open_lt 0), N). revert L. apply filter_imp.
      intros v Hv. destruct s as [|[|s]]; cbn; [destruct (Rlt_dec 0 v); [lra|reflexivity]| |reflexivity].
      destruct (Rlt_dec 0 v); [lra|reflexivity].
    + replace (rG (S s) u) with 0.
      * apply is_derive_Reals, derivable_pt_lim_const.
      * destruct s; cbn; [destruct (Rlt_dec 0 u); [lra|reflexivity]|reflexivity].
Qed.

Section Py.
Context (jvpn : (list R -> R) -> list R -> list R -> R) (Hj : jvpn_ok jvpn).
Context (f : elm) (dim : nat) (W : nat -> R) (bk : R) (Hf : smooth f).

Definition Uz (z : list R) : R := sumn dim (fun i => nth i z 0 * W i) + bk.
Definition rep (g : list R -> R) (p : R) (s : nat) : Prop := forall z, length z = dim -> g z = p * nG f s (Uz z).

Lemma line_len z e t : length e = length z -> length (line z e t) = length z.
Proof. intros H. unfold line. rewrite map_length, combine_length, H. apply Nat.min_id. Qed.
Lemma line_nth z e t i : length e = length z -> (i < length z)%nat ->
  nth i (line z e t) 0 = nth i z 0 + t * nth i e 0.
Proof.
  revert e i; induction z as [|a z IH]; intros [|b e] i H Hi; try (cbn in *; lia).
  destruct i; cbn; [reflexivity|]. apply IH; cbn in *; lia.
Qed.

Lemma egradn_rep g p s j : (j < dim)%nat -> rep g p s -> rep (egradn ROps jvpn g j) (p * W j) (S s).
Proof.
  intros Hjd Hg z Hz. unfold egradn. cbn [ROps o0 o1].
  set (e := map (fun i => if (i =? j)%nat then 1 else 0) (seq 0 (length z))).
  assert (He : length e = length z) by (unfold e; rewrite map_length, seq_length; reflexivity).
  apply Hj; [exact He|].
  apply (is_derive_ext (fun t => p * nG f s (Uz z + t * W j))).
  - intros t. rewrite Hg by (rewrite line_len; assumption). f_equal. f_equal. unfold Uz.
    rewrite (sumn_ext dim (fun i => nth i (line z e t) 0 * W i)
      (fun i => nth i z 0 * W i + t * ((if (i =? j)%nat then 1 else 0) * W i))).
    + rewrite sumn_lin, sumn_delta. destruct (Nat.ltb_spec j dim); [ring|lia].
    + intros i Hi. rewrite line_nth by (try exact He; lia). unfold e.
      rewrite (nth_map_seq (fun i => if (i =? j)%nat then 1 else 0)) by lia. ring.
  - replace (p * W j * nG f (S s) (Uz z)) with (p * (W j * nG f (S s) (Uz z + 0 * W j)))
      by (replace (Uz z + 0 * W j) with (Uz z) by ring; ring).
    apply is_derive_scal.
    apply (is_derive_comp (nG f s) (fun t => Uz z + t * W j)).
    + apply nG_deriv. intros E. contradiction (Hf E).
    + auto_derive; [exact I|ring].
Qed.
Lemma nrecurse_rep n : forall g p s j, (j < dim)%nat -> rep g p s ->
  rep (py_nrecurse ROps jvpn g n j) (p * W j ^ n) (s + n)%nat.
Proof.
  induction n as [|n IH]; intros g p s j Hjd Hg; cbn [py_nrecurse].
  - cbn [pow]. rewrite Rmult_1_r, Nat.add_0_r. exact Hg.
  - replace (p * W j ^ S n) with (p * W j * W j ^ n) by (cbn; ring).
    replace (s + S n)%nat with (S s + n)%nat by lia. apply IH; [exact Hjd|]. apply egradn_rep; assumption.
Qed.
Lemma nloop_rep d : forall g p s i0, (i0 + length d <= dim)%nat -> rep g p s ->
  rep (py_nloop ROps jvpn g i0 d) (p * prodn (length d) (fun i => W (i0 + i)%nat ^ nth i d 0%nat)) (s + list_sum d).
Proof.
  induction d as [|a d IH]; intros g p s i0 Hd Hg; cbn [py_nloop].
  - cbn [length prodn list_sum fold_right]. rewrite Rmult_1_r, Nat.add_0_r. exact Hg.
  - rewrite lsum_cons. cbn [length] in *. rewrite prodn_first. cbn [nth]. rewrite Nat.add_0_r.
    rewrite <- Rmult_assoc, Nat.add_assoc.
    replace (prodn (length d) (fun i => W (i0 + S i)%nat ^ nth i d 0%nat))
      with (prodn (length d) (fun i => W (S i0 + i)%nat ^ nth i d 0%nat)).
    + apply IH; [lia|]. apply nrecurse_rep; [lia|exact Hg].
    + apply prodn_ext. intros i _. do 2 f_equal. lia.
Qed.
End Py.

Lemma cl_nth_g dim (c : nat -> R) cl i : cl = map c (seq 0 dim) -> (i < dim)%nat -> nth_error cl i = Some (c i).
Proof. intros -> Hi. rewrite nth_error_map_seq. apply Nat.ltb_lt in Hi. rewrite Hi. reflexivity. Qed.
Section Rows.
Context (jvpn : (list R -> R) -> list R -> list R -> R) (Hj : jvpn_ok jvpn).
Context (dim m : nat) (w b : list R) (c : nat -> R) (cl : list R) (o : orders).
Context (Hw : length w = (dim * m)%nat) (Hb : length b = m) (Hd : (length (ord_list o) <= dim)%nat).
Context (Hc : cl = map c (seq 0 dim)).

Lemma wcol_ok k : (k < m)%nat -> py_ne_wcol dim m w k = Some (map (fun i => nth (i * m + k) w 0) (seq 0 dim)).
Proof. intros Hk. apply mapM_some_map. intros i Hi%in_seq. apply nth_error_nth'. nia. Qed.
Lemma dark2_ok : py_ne_dark2 ROps cl (ord_list o) = Some (prodn dim (fun i => c i ^ nth i (ord_list o) 0%nat)).
Proof.
  unfold py_ne_dark2. rewrite <- (prodn_orders dim (ord_list o) c Hd).
  apply (for_acc (fun i => prodn i (fun i => c i ^ nth i (ord_list o) 0%nat))).
  intros i Hi. rewrite (cl_nth_g dim c cl _ Hc) by lia. rewrite (nth_error_nth' (ord_list o) 0%nat) by exact Hi.
  cbn [bind]. rewrite opow_R. reflexivity.
Qed.
Lemma dot_comm k (Z : nat -> R) : (k < m)%nat ->
  py_ne_dot ROps (map Z (seq 0 dim)) (map (fun i => nth (i * m + k) w 0) (seq 0 dim)) + nth k b 0 = nu dim m w b k Z.
Proof. intros Hk. rewrite pydot_seq. unfold nu. f_equal. apply sumn_ext. intros; ring. Qed.
Lemma nact_rep f wf bk : smooth f ->
  rep f dim wf bk (py_nact ROps RFun f (map wf (seq 0 dim)) bk) 1 0.
Proof.
  intros Hf z Hz. rewrite Rmult_1_l.
  assert (E : nG f 0 (Uz dim wf bk z) = act f (py_ne_dot ROps z (map wf (seq 0 dim)) + bk)).
  { replace (nG f 0) with (gact f 0) by (destruct f; [congruence|reflexivity..]).
    rewrite gact_0 by exact Hf. unfold Uz. rewrite pydot_ok by exact Hz. reflexivity. }
  rewrite E. destruct f; [congruence| | | |]; cbn [py_nact]; litR; try reflexivity. apply act_sig'.
Qed.
Lemma smooth_row f Z : smooth f ->
  py_nsmooth_row ROps RFun jvpn f dim m cl w b (ord_list o) (map Z (seq 0 dim)) =
  Some (map (fun k => nent f dim m w b c (ord_list o) k Z) (seq 0 m)).
Proof.
  intros Hf. unfold py_nsmooth_row. rewrite dark2_ok. cbn [bind].
  apply mapM_some_map. intros k Hk%in_seq. rewrite wcol_ok by lia. rewrite (nth_error_nth' b 0) by lia. cbn [bind].
  f_equal. unfold nent.
  rewrite (nloop_rep jvpn Hj f dim (fun i => nth (i * m + k) w 0) (nth k b 0) Hf (ord_list o) _ 1 0 0 Hd
     (nact_rep f _ _ Hf)) by (rewrite map_length, seq_length; reflexivity).
  change (ROps.(omul)) with Rmult.
  rewrite (prodn_ext (length (ord_list o)) _ (fun i => nth (i * m + k) w 0 ^ nth i (ord_list o) 0%nat)) by reflexivity.
  rewrite (prodn_orders dim (ord_list o) (fun i => nth (i * m + k) w 0) Hd).
  change (0 + list_sum (ord_list o))%nat with (list_sum (ord_list o)).
  unfold Uz, nu. rewrite (sumn_ext dim (fun i => nth i (map Z (seq 0 dim)) 0 * nth (i * m + k) w 0)
    (fun i => nth (i * m + k) w 0 * Z i)); [ring|].
  intros i Hi. rewrite nth_map_seq by exact Hi. ring.
Qed.

Lemma first_one_ok d : forall i, list_sum d = 1%nat -> exists h, first_one i d = Some (i + h)%nat /\
  (h < length d)%nat /\ nth h d 0%nat = 1%nat.
Proof.
  induction d as [|a d IH]; intros i Hs; [discriminate|]. rewrite lsum_cons in Hs. cbn [first_one].
  destruct (Nat.eqb_spec a 1) as [->|N].
  - exists 0%nat. rewrite Nat.add_0_r. cbn. repeat split; lia.
  - destruct (IH (S i)) as (h & E & Hh & En); [lia|]. exists (S h). rewrite E. cbn. repeat split; [f_equal; lia|lia|exact En].
Qed.
Lemma relu_row Z : nsupported Py ReLU o ->
  py_nrelu_row ROps RFun dim m cl w b o (map Z (seq 0 dim)) =
  Some (map (fun k => nent ReLU dim m w b c (ord_list o) k Z) (seq 0 m)).
Proof.
  intros Hs. unfold py_nrelu_row. destruct (Nat.ltb_spec 1 (list_sum (ord_list o))) as [L|L].
  - f_equal.
    replace (repeat (o0 ROps) m) with (map (fun _ : nat => 0) (seq 0 m)).
    + apply map_ext. intros k. unfold nent. cbn [nG]. destruct (list_sum (ord_list o)) as [|[|r]]; [lia|lia|]. cbn [rG]. ring.
    + clear. generalize 0%nat as s. induction m as [|n IH]; intros s; cbn; [reflexivity|]. f_equal. apply IH.
  - destruct (Nat.eqb_spec (list_sum (ord_list o)) 1) as [E1|N1].
    + assert (Ho : py_where1 o = first_one 0 (ord_list o)).
      { clear - Hs E1. destruct o as [d|d]; [reflexivity|]. cbn in Hs, E1. contradiction. }
      destruct (first_one_ok (ord_list o) 0 E1) as (h & Eh & Hh & En). rewrite Ho, Eh. cbn [bind plus].
      rewrite (cl_nth_g dim c cl _ Hc) by lia. cbn [bind].
      apply mapM_some_map. intros k Hk%in_seq. rewrite (nth_error_nth' w 0) by nia.
      rewrite wcol_ok by lia. rewrite (nth_error_nth' b 0) by lia. cbn [bind].
      rewrite fgt0_R. cbn [ROps oadd omul o0 o1]. rewrite dot_comm by lia. f_equal. unfold nent. rewrite E1.
      rewrite (prodn_single dim m w b (ord_list o) Hw Hb Hd h), (prodn_single dim m w b (ord_list o) Hw Hb Hd h (fun i => nth (i * m + k) w 0)) by assumption.
      cbn [nG rG]. change (0 + h)%nat with h. destruct (Rlt_dec _ _); ring.
    + assert (E0 : list_sum (ord_list o) = 0%nat) by lia.
      apply mapM_some_map. intros k Hk%in_seq. rewrite wcol_ok by lia. rewrite (nth_error_nth' b 0) by lia. cbn [bind].
      cbv zeta. rewrite fgt0_R. cbn [ROps oadd o0]. rewrite dot_comm by lia. f_equal. unfold nent. rewrite E0.
      rewrite (wprod_0 dim m w _ k E0), (cprod_0 dim c _ E0). cbn [nG rG]. destruct (Rlt_dec _ _); ring.
Qed.
Lemma py_row_ok f Z : nsupported Py f o ->
  py_nelm_row ROps RFun jvpn f dim m cl w b o (map Z (seq 0 dim)) =
  Some (map (fun k => nent f dim m w b c (ord_list o) k Z) (seq 0 m)).
Proof.
  intros Hs. destruct f; cbn [py_nelm_row]; [apply relu_row, Hs|..]; apply smooth_row; discriminate.
Qed.
End Rows.

(** ** construction *)
Record ne_ok (dim m : nat) (x0 xf : list R) (nC : list Z) (B : nbasis (T:=R)) : Prop := {
  neo_dim : nb_dim B = dim; neo_m : nb_m B = m; neo_numC : nb_numC B = ne_numC nC; neo_nC : ne_nC B = nC;
  neo_x0 : nb_x0 B = x0; neo_c : nb_c B = map (nci x0 xf) (seq 0 dim); neo_z0 : nb_z0 B = 0;
  neo_num : nb_num B = (m - ne_numC nC)%nat; neo_full : nb_numFull B = m }.

Lemma ne_c_ok x0 xf dim : length x0 = dim -> length xf = dim ->
  nd_c ROps 0 1 x0 xf = map (nci x0 xf) (seq 0 dim).
Proof.
  intros H0 Hf. apply nth_error_ext. intros i. rewrite nth_error_map_seq. unfold nd_c. rewrite nth_error_map.
  destruct (Nat.ltb_spec i dim) as [Hi|Hi].
  - rewrite (proj2 (nth_error_combine x0 xf i (nth i x0 0, nth i xf 0)%R)); [reflexivity|].
    split; apply nth_error_nth'; lia.
  - destruct (nth_error (combine x0 xf) i) eqn:E; [|reflexivity].
    assert (i < length (combine x0 xf))%nat by (apply nth_error_Some; congruence). rewrite combine_length in *. lia.
Qed.

Lemma ne_numC_all nC : (forall z, In z nC -> z = (-1)%Z) -> ne_numC nC = 0%nat.
Proof.
  intros H. unfold ne_numC. destruct (existsb _ nC) eqn:E; [|reflexivity].
  apply existsb_exists in E as (z & Hz & Ez). rewrite (H z Hz) in Ez. discriminate.
Qed.
Lemma valid_len nC m : valid_nC nC m -> (length nC <= m)%nat.
Proof.
  intros [Hnd Hr]. rewrite <- (seq_length m 0), <- (map_length Z.of_nat (seq 0 m)).
  apply NoDup_incl_length; [exact Hnd|]. intros z Hz. specialize (Hr z Hz). apply in_map_iff.
  exists (Z.to_nat z). split; [lia|]. apply in_seq. lia.
Qed.
Lemma ne_numC_valid nC m : valid_nC nC m -> ne_numC nC = length nC.
Proof.
  intros [_ Hr]. unfold ne_numC. destruct nC as [|z l]; [reflexivity|].
  assert (E : Z.eqb z (-1) = false) by (apply Z.eqb_neq; specialize (Hr z (or_introl eq_refl)); lia).
  cbn [existsb]. rewrite E. reflexivity.
Qed.
Lemma ne_all_kept nC m : (forall z, In z nC -> z = (-1)%Z) -> keptc nC m = seq 0 m.
Proof.
  intros Ha. rewrite <- (keptc_nil m). unfold keptc. apply filter_ext. intros j. f_equal.
  destruct (in_nC nC j) eqn:E; [|reflexivity]. apply in_nC_spec in E. apply Ha in E. lia.
Qed.
Lemma ne_valid_kept nC m : ne_valid nC m -> length (keptc nC m) = (m - ne_numC nC)%nat.
Proof.
  intros [Hv|Ha].
  - rewrite (ne_numC_valid nC m Hv). apply keptc_length, Hv.
  - rewrite ne_numC_all, Nat.sub_0_r, (ne_all_kept nC m Ha) by exact Ha. apply seq_length.
Qed.
Lemma ne_numC_le nC m : ne_valid nC m -> (ne_numC nC <= m)%nat.
Proof.
  intros [Hv|Ha]; [rewrite (ne_numC_valid nC m Hv); apply valid_len, Hv|rewrite ne_numC_all by exact Ha; lia].
Qed.

Lemma nelm_init_ok be dim m w b x0 xf nC : ne_args dim m w b x0 xf -> ne_valid nC m ->
  exists B, nelm_init ROps be x0 xf nC m = Some B /\ ne_ok dim m x0 xf nC B.
Proof.
  intros (Hd & Hw & Hb & H0 & Hf & Hne) Hv. pose proof (ne_numC_le nC m Hv) as Hle. apply Nat.leb_le in Hle.
  destruct be; cbn [nelm_init].
  - unfold py_nelm_init. rewrite H0, Hf, Nat.eqb_refl, Hle. cbn [andb].
    eexists; split; [reflexivity|]. constructor; try reflexivity; cbn.
    + unfold ne_nC. cbn. apply app_nil_r.
    + apply ne_c_ok; assumption.
  - unfold cpp_nelm_init. rewrite H0, Hf, Nat.leb_refl, Hle.
    replace (length nC <=? dim * length nC)%nat with true by (symmetry; apply Nat.leb_le; nia). cbn [andb].
    eexists; split; [reflexivity|]. constructor; try reflexivity; cbn.
    + unfold ne_nC. cbn. apply app_nil_r.
    + rewrite firstn_all2 by lia. apply ne_c_ok; assumption.
Qed.

(** ** matrices *)
Definition xat (x : mat R) (j i : nat) : R := nth j (nth i (md x) []) 0.
Definition zat (x0 xf : list R) (x : mat R) (j i : nat) : R := (xat x j i - nth i x0 0) * nci x0 xf i + 0.
Definition ne_mat f dim m w b x0 xf (kk : list nat) (d : list nat) (n : nat) (x : mat R) : mat R :=
  Mat n (length kk) (map (fun j => map (fun k => nent f dim m w b (nci x0 xf) d k (zat x0 xf x j)) kk) (seq 0 n)).

Definition kk (nC : list Z) (m : nat) (full : bool) : list nat := if full then seq 0 m else keptc nC m.

Lemma py_nelm_H_ok jvpn f dim m w b x0 xf nC B o full n x : jvpn_ok jvpn -> ne_args dim m w b x0 xf ->
  ne_valid nC m -> ne_ok dim m x0 xf nC B -> nsupported Py f o -> (length (ord_list o) <= dim)%nat -> shaped x dim n ->
  py_nelm_H ROps RFun jvpn f B w b x o full = Some (ne_mat f dim m w b x0 xf (kk nC m full) (ord_list o) n x).
Proof.
  intros Hj (Hdim & Hw & Hb & H0 & Hxf & Hne) Hv HB Hs Hd (Hx1 & Hx2 & Hx3 & Hx4). unfold py_nelm_H.
  rewrite (neo_dim _ _ _ _ _ _ HB), Hx1, Nat.eqb_refl, (neo_m _ _ _ _ _ _ HB), (neo_c _ _ _ _ _ _ HB), Hx2.
  rewrite (mapM_some_map _ (fun j => map (fun k => nent f dim m w b (nci x0 xf) (ord_list o) k (zat x0 xf x j)) (seq 0 m))).
  2:{ intros j Hjn%in_seq.
    assert (Ecol : mapM (fun r => nth_error r j) (md x) = Some (map (fun r => nth j r 0) (md x))).
    { apply mapM_some_map. intros r Hr. apply nth_error_nth'. rewrite Hx4 by exact Hr. lia. }
    rewrite Ecol. cbn [bind].
    assert (Ez : py_nd_z ROps B (map (fun r => nth j r 0) (md x)) = map (zat x0 xf x j) (seq 0 dim)).
    { unfold py_nd_z. rewrite (neo_x0 _ _ _ _ _ _ HB), (neo_c _ _ _ _ _ _ HB), (neo_z0 _ _ _ _ _ _ HB).
      apply nth_error_ext. intros i. rewrite nth_error_map_seq, nth_error_map.
      destruct (Nat.ltb_spec i dim) as [Hi|Hi].
      - rewrite (proj2 (nth_error_combine _ _ i (xat x j i, (nth i x0 0, nci x0 xf i)))); [reflexivity|].
        cbn [fst snd]. split.
        + rewrite nth_error_map, (nth_error_nth' _ []) by lia. reflexivity.
        + apply nth_error_combine. cbn [fst snd]. split; [apply nth_error_nth'; lia|].
          rewrite nth_error_map_seq. destruct (Nat.ltb_spec i dim); [reflexivity|lia].
      - destruct (nth_error (combine _ _) i) eqn:E; [|reflexivity].
        match type of E with nth_error ?l _ = _ => assert (Hlt : (i < length l)%nat) by (apply nth_error_Some; congruence) end.
        rewrite combine_length, map_length in Hlt. lia. }
    rewrite Ez. apply (py_row_ok jvpn Hj dim m w b (nci x0 xf) _ o Hw Hb Hd eq_refl f _ Hs). }
  cbn [bind]. cbv zeta. rewrite (neo_numC _ _ _ _ _ _ HB), (neo_nC _ _ _ _ _ _ HB).
  destruct full; cbn [negb andb kk].
  - unfold ne_mat. rewrite seq_length. reflexivity.
  - destruct (Nat.ltb_spec 0 (ne_numC nC)) as [L|L].
    + destruct Hv as [Hv|Ha]; [|rewrite ne_numC_all in L by exact Ha; lia].
      rewrite (np_delete_ok nC m n _ _ (proj2 Hv) eq_refl).
      * unfold ne_mat. do 2 f_equal. rewrite map_map. apply map_ext. intros j.
        apply map_ext_in. intros k Hk. apply keptc_in in Hk as [Hk _]. rewrite nth_map_seq by exact Hk. reflexivity.
      * intros row Hr. apply in_map_iff in Hr as (j & <- & _). eexists; reflexivity.
    + destruct Hv as [Hv|Ha].
      * rewrite (ne_numC_valid nC m Hv) in L. destruct nC; [|cbn in L; lia]. rewrite keptc_nil. unfold ne_mat. rewrite seq_length. reflexivity.
      * rewrite (ne_all_kept nC m Ha). unfold ne_mat. rewrite seq_length. reflexivity.
Qed.

Lemma ne_emit_eq nC m n mo dark F : cpp_ne_emit nC m n mo dark F = cpp_emit ROps nC m n mo 1 false dark F.
Proof.
  unfold cpp_ne_emit, cpp_emit.
  replace (for_ 0 m (fun j (s : nat * buf R) => let (i, F) := s in if in_nC nC j then Some (i, F) else
      F <- for_ 0 n (fun k F => v <- brd dark (m * k + j)%nat ;; bwr F (mo * k + i)%nat v) F ;; Some (S i, F)) (0%nat, F))
    with (for_ 0 m (fun j (s : nat * buf R) => let (i, F) := s in if in_nC nC j then Some (i, F) else
      F <- for_ 0 n (fun k F => v <- brd dark (m * k + j)%nat ;; bwr F (mo * k + i)%nat (omul ROps v 1)) F ;; Some (S i, F)) (0%nat, F));
    [reflexivity|].
  apply for_ext. intros j [i G]. destruct (in_nC nC j); [reflexivity|].
  rewrite (for_ext 0 n (fun k F => v <- brd dark (m * k + j)%nat ;; bwr F (mo * k + i)%nat (omul ROps v 1))
    (fun k F => v <- brd dark (m * k + j)%nat ;; bwr F (mo * k + i)%nat v)); [reflexivity|].
  intros k s. destruct (brd dark (m * k + j)) as [v|]; cbn [bind]; [|reflexivity].
  cbn [ROps omul]. rewrite Rmult_1_r. reflexivity.
Qed.

Lemma ne_z_ok dim m x0 xf nC B xb n (X : nat -> nat -> R) : ne_ok dim m x0 xf nC B -> length x0 = dim ->
  (forall i j, (i < dim)%nat -> (j < n)%nat -> brd xb (i * n + j) = Some (X i j)) ->
  exists z, cpp_nd_z ROps B xb n = Some z /\ zbuf dim z n (fun i j => (X i j - nth i x0 0) * nci x0 xf i + 0).
Proof.
  intros HB H0 Hx. unfold cpp_nd_z.
  rewrite (neo_dim _ _ _ _ _ _ HB), (neo_x0 _ _ _ _ _ _ HB), (neo_c _ _ _ _ _ _ HB), (neo_z0 _ _ _ _ _ _ HB).
  destruct (for_rows dim n (fun i j => (X i j - nth i x0 0) * nci x0 xf i + 0)
    (fun j k z => xv <- brd xb (j * n + k)%nat ;; x0j <- nth_error x0 j ;;
       cj <- nth_error (map (nci x0 xf) (seq 0 dim)) j ;;
       bwr z (j * n + k)%nat (oadd ROps (omul ROps (osub ROps xv x0j) cj) 0)) (bnew (n * dim))) as (z & E & Hz).
  - reflexivity.
  - intros j k b Hj Hk _. rewrite Hx by assumption. rewrite (nth_error_nth' x0 0) by lia.
    rewrite nth_error_map_seq. destruct (Nat.ltb_spec j dim); [|lia]. cbn [bind]. rewrite (Nat.mul_comm j n). reflexivity.
  - exists z. split; [exact E|]. intros i j Hi Hj. rewrite (Nat.mul_comm i n).
    apply (cols_rd z dim n n (fun i j => (X i j - nth i x0 0) * nci x0 xf i + 0)); try assumption. lia.
Qed.

Lemma cpp_nelm_nHint_ok f dim m w b x0 xf nC B d full n xb X F : ne_args dim m w b x0 xf ->
  ne_valid nC m -> ne_ok dim m x0 xf nC B -> ntab d f -> (length d <= dim)%nat ->
  (forall i j, (i < dim)%nat -> (j < n)%nat -> brd xb (i * n + j) = Some (X i j)) ->
  blen F = (length (kk nC m full) * n)%nat ->
  exists F', cpp_nelm_nHint ROps RFun f B (bof w) (bof b) xb n d (length (kk nC m full)) F full = Some F' /\
    cols F' n (length (kk nC m full)) (length (kk nC m full)) (fun j a =>
      nent f dim m w b (nci x0 xf) d (nth a (kk nC m full) 0%nat) (fun i => (X i j - nth i x0 0) * nci x0 xf i + 0)).
Proof.
  intros (Hdim & Hw & Hb & H0 & Hxf & Hne) Hv HB Ht Hd Hx HF. unfold cpp_nelm_nHint.
  destruct (ne_z_ok dim m x0 xf nC B xb n X HB H0 Hx) as (z & Ez & Hz). rewrite Ez. cbn [bind].
  rewrite (neo_dim _ _ _ _ _ _ HB), (neo_m _ _ _ _ _ _ HB), (neo_c _ _ _ _ _ _ HB), (neo_numC _ _ _ _ _ _ HB), (neo_nC _ _ _ _ _ _ HB).
  assert (Hint : forall F, blen F = (m * n)%nat -> nhint_res dim m w b (nci x0 xf) (map (nci x0 xf) (seq 0 dim)) d f z n F
     (fun i j => (X i j - nth i x0 0) * nci x0 xf i + 0)).
  { intros F0 HF0. apply nhint_ok; try assumption. reflexivity. }
  assert (Hall : (if ((ne_numC nC =? 0)%nat || full)%bool then kk nC m full = seq 0 m else kk nC m full = keptc nC m /\ valid_nC nC m)).
  { destruct full; [rewrite orb_true_r; reflexivity|]. rewrite orb_false_r. cbn [kk].
    destruct (Nat.eqb_spec (ne_numC nC) 0) as [E|E].
    - destruct Hv as [Hv|Ha]; [|apply ne_all_kept, Ha]. rewrite (ne_numC_valid nC m Hv) in E.
      destruct nC; [apply keptc_nil|discriminate].
    - destruct Hv as [Hv|Ha]; [split; [reflexivity|exact Hv]|]. rewrite ne_numC_all in E by exact Ha. congruence. }
  destruct ((ne_numC nC =? 0)%nat || full)%bool.
  - rewrite Hall in *. rewrite seq_length in *.
    destruct (Hint F HF) as (F' & E & H). exists F'. split; [exact E|].
    apply (cols_ext _ _ _ _ _ _ H). intros j k Hj Hk. rewrite seq_nth by exact Hk. reflexivity.
  - destruct Hall as [Ek Hv']. rewrite Ek in *. clear Ek.
    destruct (Hint (bnew (m * n)) eq_refl) as (dk & E & H). rewrite E. cbn [bind]. rewrite ne_emit_eq.
    destruct (cpp_emit_part nC m n 1 dk F _ Hv' H HF) as (F' & E' & H'). exists F'. split; [exact E'|].
    apply (cols_ext _ _ _ _ _ _ H'). intros j a Hj Ha. apply Rmult_1_r.
Qed.

Lemma cpp_nelm_H_ok f dim m w b x0 xf nC B d full n x : ne_args dim m w b x0 xf ->
  ne_valid nC m -> ne_ok dim m x0 xf nC B -> ntab d f -> (length d <= dim)%nat -> shaped x dim n ->
  cpp_nelm_H ROps RFun f B w b x d full = Some (ne_mat f dim m w b x0 xf (kk nC m full) d n x).
Proof.
  intros Ha Hv HB Ht Hd Hx. unfold cpp_nelm_H.
  assert (Enum : (if full then nb_numFull B else nb_num B) = length (kk nC m full)).
  { destruct full; cbn [kk]; [rewrite seq_length; apply (neo_full _ _ _ _ _ _ HB)|].
    rewrite (neo_num _ _ _ _ _ _ HB), ne_valid_kept by exact Hv. reflexivity. }
  rewrite Enum. pose proof Hx as (_ & Hn & _). rewrite Hn.
  destruct (cpp_nelm_nHint_ok f dim m w b x0 xf nC B d full n (bof (concat (md x))) (fun i j => xat x j i)
     (bnew (length (kk nC m full) * n)) Ha Hv HB Ht Hd) as (F & EF & HF).
  - intros i j Hi Hj. apply (shaped_flat x dim n); assumption.
  - reflexivity.
  - rewrite EF. cbn [bind]. rewrite (buf_matrix_bmat F n _ _ (cols_bmat _ _ _ _ HF)). cbn [bind].
    unfold ne_mat. do 2 f_equal. apply map_ext. intros j.
    apply (map_seq_nth (fun k => nent f dim m w b (nci x0 xf) d k (zat x0 xf x j)) (kk nC m full) 0%nat).
Qed.

Lemma HNE_ok jvpn be f dim m w b x0 xf nC o full n x : jvpn_ok jvpn -> ne_args dim m w b x0 xf -> ne_valid nC m ->
  nsupported be f o -> (length (ord_list o) <= dim)%nat -> shaped x dim n ->
  HNE jvpn be f w b x0 xf nC m x o full = Some (ne_mat f dim m w b x0 xf (kk nC m full) (ord_list o) n x).
Proof.
  intros Hj Ha Hv Hs Hd Hx. unfold HNE. destruct (nelm_init_ok be dim m w b x0 xf nC Ha Hv) as (B & EB & HB).
  rewrite EB. destruct be; cbn [nelm_H].
  - apply (py_nelm_H_ok jvpn f dim m w b x0 xf nC B o full n x); assumption.
  - apply (cpp_nelm_H_ok f dim m w b x0 xf nC B (ord_list o) full n x); try assumption.
Qed.

(** ** mixed partials *)
Lemma nG_0 f u : nG f 0 u = act f u.
Proof.
  destruct f; cbn [nG]; try (apply gact_0; discriminate). cbn. unfold Rmax.
  destruct (Rlt_dec 0 u), (Rle_dec 0 u); lra.
Qed.
Lemma open_ok f (g : R -> R) x : continuous g x -> (f = ReLU -> g x <> 0) -> locally x (fun t => f = ReLU -> g t <> 0).
Proof.
  intros Hc Hx. destruct f; try (apply filter_forall; discriminate).
  assert (L : locally (g x) (fun u => u <> 0)) by (apply (open_neq 0), Hx, eq_refl).
  specialize (Hc _ L). unfold filtermap in Hc. revert Hc. apply (filter_imp (F := locally x)). intros t Ht _. exact Ht.
Qed.
Lemma nG_derive_n f p s a al x0 d : forall x, (f = ReLU -> a + al * (x - x0) <> 0) ->
  is_derive_n (fun t => p * nG f s (a + al * (t - x0))) d x (p * al ^ d * nG f (s + d) (a + al * (x - x0))).
Proof.
  induction d as [|d IH]; intros x Hx.
  - cbn. rewrite Nat.add_0_r, Rmult_1_r. reflexivity.
  - cbn [is_derive_n].
    apply (is_derive_ext_loc (fun t => p * al ^ d * nG f (s + d) (a + al * (t - x0)))).
    + assert (L : locally x (fun t => f = ReLU -> a + al * (t - x0) <> 0)).
      { apply (open_ok f (fun t => a + al * (t - x0))); [|exact Hx].
        apply (ex_derive_continuous (fun t => a + al * (t - x0))). exists al. auto_derive; [exact I|ring]. }
      revert L. apply filter_imp. intros t Ht. symmetry. apply is_derive_n_unique, IH, Ht.
    + replace (p * al ^ S d * nG f (s + S d) (a + al * (x - x0)))
        with (p * al ^ d * (al * nG f (S (s + d)) (a + al * (x - x0)))) by (rewrite Nat.add_succ_r; cbn [pow]; ring).
      apply is_derive_scal. apply (is_derive_comp (nG f (s + d)) (fun t => a + al * (t - x0))).
      * apply nG_deriv, Hx.
      * auto_derive; [exact I|ring].
Qed.

Lemma sumn_upd n (a x0 : nat -> R) (c : nat -> R) (X : pt) k t :
  sumn n (fun i => a i * ((upd X k t i - x0 i) * c i)) =
  sumn n (fun i => a i * ((X i - x0 i) * c i)) + (if (k <? n)%nat then a k * c k * (t - X k) else 0).
Proof.
  induction n as [|n IH]; [cbn; ring|]. cbn [sumn]. rewrite IH. unfold upd.
  destruct (Nat.eqb_spec n k), (Nat.ltb_spec k n), (Nat.ltb_spec k (S n)); try lia; subst; ring.
Qed.
Lemma narg_alt dim m w b x0 xf k X :
  narg dim m w b x0 xf k X = sumn dim (fun i => nth (i * m + k) w 0 * ((X i - nth i x0 0) * nci x0 xf i)) + nth k b 0.
Proof. unfold narg. f_equal. apply sumn_ext. intros i _. unfold nci, Rdiv. ring. Qed.
Definition nal (m : nat) (w x0 xf : list R) (k i : nat) : R := nth (i * m + k) w 0 * nci x0 xf i.
Lemma narg_upd dim m w b x0 xf k X i t : (i < dim)%nat ->
  narg dim m w b x0 xf k (upd X i t) = narg dim m w b x0 xf k X + nal m w x0 xf k i * (t - X i).
Proof.
  intros Hi. rewrite !narg_alt.
  rewrite (sumn_upd dim (fun i => nth (i * m + k) w 0) (fun i => nth i x0 0) (nci x0 xf) X i t).
  destruct (Nat.ltb_spec i dim); [unfold nal; ring|lia].
Qed.
Lemma narg_nu dim m w b x0 xf k X :
  nu dim m w b k (fun i => (X i - nth i x0 0) * nci x0 xf i + 0) = narg dim m w b x0 xf k X.
Proof. rewrite narg_alt. unfold nu. f_equal. apply sumn_ext. intros; ring. Qed.

Lemma smooth_at_iff f dim m w b x0 xf k X :
  smooth_at f dim m w b x0 xf k X <-> (f = ReLU -> narg dim m w b x0 xf k X <> 0).
Proof. destruct f; cbn; split; intros H; try exact I; try discriminate; auto. Qed.

Definition lpr (al : nat -> R) (d : list nat) (ks : list nat) : R := fold_right (fun k acc => al k ^ nth k d 0%nat * acc) 1 ks.
Definition lsm (d : list nat) (ks : list nat) : nat := fold_right (fun k acc => nth k d 0 + acc)%nat 0%nat ks.

Lemma mixed_on_ext (U : pt -> Prop) d ks : forall f f' g g', (forall X, U X -> g X = g' X) -> f = f' ->
  mixed_on U d ks f g -> mixed_on U d ks f' g'.
Proof.
  induction ks as [|k ks IH]; intros f f' g g' Hg <-; cbn.
  - intros H X HX. rewrite H, Hg by exact HX. reflexivity.
  - intros (h & H1 & H2). exists h. split; [exact H1|]. apply (IH h h g g' Hg eq_refl H2).
Qed.
Lemma mixed_nG f dim m w b x0 xf k d ks : forall p s F, (forall i, In i ks -> (i < dim)%nat) ->
  (forall X, smooth_at f dim m w b x0 xf k X -> F X = p * nG f s (narg dim m w b x0 xf k X)) ->
  mixed_on (smooth_at f dim m w b x0 xf k) d ks F
    (fun X => p * lpr (nal m w x0 xf k) d ks * nG f (s + lsm d ks) (narg dim m w b x0 xf k X)).
Proof.
  induction ks as [|i ks IH]; intros p s F Hks HF; cbn [mixed_on].
  - intros X HX. cbn. rewrite Rmult_1_r, Nat.add_0_r. apply HF, HX.
  - exists (fun X => p * nal m w x0 xf k i ^ nth i d 0%nat * nG f (s + nth i d 0%nat) (narg dim m w b x0 xf k X)).
    assert (Hi : (i < dim)%nat) by (apply Hks; left; reflexivity).
    split.
    + intros X HX. pose proof (proj1 (smooth_at_iff _ _ _ _ _ _ _ _ _) HX) as HX'.
      apply (is_derive_n_ext_loc (fun t => p * nG f s (narg dim m w b x0 xf k X + nal m w x0 xf k i * (t - X i)))).
      * assert (L : locally (X i) (fun t => f = ReLU -> narg dim m w b x0 xf k X + nal m w x0 xf k i * (t - X i) <> 0)).
        { apply (open_ok f (fun t => narg dim m w b x0 xf k X + nal m w x0 xf k i * (t - X i))).
          - apply (ex_derive_continuous (fun t => narg dim m w b x0 xf k X + nal m w x0 xf k i * (t - X i))).
            exists (nal m w x0 xf k i). auto_derive; [exact I|ring].
          - intros E. replace (narg dim m w b x0 xf k X + nal m w x0 xf k i * (X i - X i)) with (narg dim m w b x0 xf k X) by ring.
            apply HX', E. }
        revert L. apply filter_imp. intros t Ht. rewrite HF, narg_upd by first [exact Hi|apply smooth_at_iff; rewrite narg_upd by exact Hi; exact Ht].
        reflexivity.
      * apply (is_derive_n_eq _ _ _ _ _ (nG_derive_n f p s (narg dim m w b x0 xf k X) (nal m w x0 xf k i) (X i) (nth i d 0%nat) (X i)
           ltac:(intros E; replace (narg dim m w b x0 xf k X + nal m w x0 xf k i * (X i - X i)) with (narg dim m w b x0 xf k X) by ring; apply HX', E))).
        replace (narg dim m w b x0 xf k X + nal m w x0 xf k i * (X i - X i)) with (narg dim m w b x0 xf k X) by ring. reflexivity.
    + refine (mixed_on_ext _ _ _ _ _ _ _ _ eq_refl (IH (p * nal m w x0 xf k i ^ nth i d 0%nat) (s + nth i d 0%nat)%nat _ _ _)).
      * intros X _. cbn [lpr lsm fold_right]. fold (lpr (nal m w x0 xf k) d ks) (lsm d ks). rewrite Nat.add_assoc. ring.
      * intros i' Hi'. apply Hks. right. exact Hi'.
      * reflexivity.
Qed.

Lemma lpr_perm al d ks ks' : Permutation ks ks' -> lpr al d ks = lpr al d ks'.
Proof. induction 1; cbn; try ring. - fold (lpr al d l) (lpr al d l'). rewrite IHPermutation. reflexivity. - congruence. Qed.
Lemma lsm_perm d ks ks' : Permutation ks ks' -> lsm d ks = lsm d ks'.
Proof. induction 1; cbn; try lia. fold (lsm d l) (lsm d l'). lia. Qed.
Lemma lpr_app al d a b : lpr al d (a ++ b) = lpr al d a * lpr al d b.
Proof.
  induction a as [|k a IH]; [change (lpr al d []) with 1; cbn [app]; ring|].
  change (lpr al d ((k :: a) ++ b)) with (al k ^ nth k d 0%nat * lpr al d (a ++ b)).
  change (lpr al d (k :: a)) with (al k ^ nth k d 0%nat * lpr al d a). rewrite IH. ring.
Qed.
Lemma lpr_seq al d n : lpr al d (seq 0 n) = prodn n (fun i => al i ^ nth i d 0%nat).
Proof. induction n as [|n IH]; [reflexivity|]. rewrite seq_S, lpr_app, IH. change (lpr al d [0 + n]%nat) with (al n ^ nth n d 0%nat * 1). cbn [prodn]. ring. Qed.
Lemma lsm_map d ks : lsm d ks = list_sum (map (fun k => nth k d 0%nat) ks).
Proof. induction ks as [|k ks IH]; [reflexivity|]. cbn [map]. rewrite lsum_cons, <- IH. reflexivity. Qed.
Lemma lsm_seq d dim : (length d <= dim)%nat -> lsm d (seq 0 dim) = list_sum d.
Proof.
  intros Hd. rewrite lsm_map. replace dim with (length d + (dim - length d))%nat by lia.
  rewrite seq_app, map_app, list_sum_app.
  replace (map (fun k => nth k d 0%nat) (seq 0 (length d))) with d
    by (transitivity (map (fun v => v) d); [symmetry; apply map_id|symmetry; apply (map_seq_nth (fun v => v) d 0%nat)]).
  replace (list_sum (map (fun k => nth k d 0%nat) (seq (0 + length d) (dim - length d)))) with 0%nat; [lia|].
  symmetry. assert (G : forall s n, (length d <= s)%nat -> list_sum (map (fun k => nth k d 0%nat) (seq s n)) = 0%nat).
  { intros s n. revert s. induction n as [|n IH]; intros s Hs; [reflexivity|]. cbn [seq map]. rewrite lsum_cons, IH by lia.
    rewrite nth_overflow by lia. reflexivity. }
  apply G. lia.
Qed.

Lemma ne_mat_ent f dim m w b x0 xf kk d n x j a : (j < n)%nat ->
  ment (ne_mat f dim m w b x0 xf kk d n x) j a =
  option_map (fun k => nent f dim m w b (nci x0 xf) d k (zat x0 xf x j)) (nth_error kk a).
Proof.
  intros Hj. unfold ment, ne_mat. cbn [md]. rewrite nth_error_map_seq. destruct (Nat.ltb_spec j n); [|lia].
  apply nth_error_map.
Qed.
Lemma ne_mat_shaped f dim m w b x0 xf kk d n x : shaped (ne_mat f dim m w b x0 xf kk d n x) n (length kk).
Proof.
  repeat split; cbn [mr mc md ne_mat].
  - rewrite map_length, seq_length. reflexivity.
  - intros row Hr. apply in_map_iff in Hr as (j & <- & _). apply map_length.
Qed.
Lemma at_col_xat x j dim X i : at_col x j dim X -> (i < dim)%nat -> xat x j i = X i.
Proof.
  intros H Hi. specialize (H i Hi). unfold ment in H. unfold xat.
  destruct (nth_error (md x) i) as [r|] eqn:E; [|discriminate].
  rewrite (nth_error_nth _ _ [] E). apply nth_error_nth, H.
Qed.

Lemma ne_mat_neurons f dim m w b x0 xf d n x : (length d <= dim)%nat ->
  nneuron_matrix f dim m w b x0 xf n x d (ne_mat f dim m w b x0 xf (seq 0 m) d n x).
Proof.
  intros Hd. split; [pose proof (ne_mat_shaped f dim m w b x0 xf (seq 0 m) d n x) as H; rewrite seq_length in H; exact H|].
  intros k Hk.
  exists (fun X => prodn dim (fun i => nci x0 xf i ^ nth i d 0%nat) * prodn dim (fun i => nth (i * m + k) w 0 ^ nth i d 0%nat)
     * nG f (list_sum d) (narg dim m w b x0 xf k X)).
  split.
  - intros ks Hks.
    refine (mixed_on_ext _ _ _ _ _ _ _ _ eq_refl (mixed_nG f dim m w b x0 xf k d ks 1 0 _ _ _)).
    + intros X _. rewrite (lpr_perm _ _ _ _ Hks), (lsm_perm _ _ _ Hks), lpr_seq, lsm_seq by exact Hd.
      unfold nal. rewrite (prodn_ext dim _ (fun i => nth (i * m + k) w 0 ^ nth i d 0%nat * nci x0 xf i ^ nth i d 0%nat))
        by (intros; apply Rpow_mult_distr). rewrite prodn_mul. rewrite Nat.add_0_l. ring.
    + intros i Hi. apply (Permutation_in _ Hks), in_seq in Hi. lia.
    + intros X _. unfold nneuron. rewrite nG_0, Rmult_1_l. reflexivity.
  - intros j X Hj HX _. rewrite ne_mat_ent by exact Hj.
    rewrite (nth_error_nth' _ 0%nat) by (rewrite seq_length; exact Hk). rewrite seq_nth by exact Hk. cbn [option_map plus].
    f_equal. unfold nent. f_equal. f_equal. rewrite <- narg_nu. unfold nu. f_equal. apply sumn_ext. intros i Hi.
    unfold zat. rewrite (at_col_xat x j dim X i HX Hi). reflexivity.
Qed.

(** ** the theorems *)
Lemma c24 jvpn be f dim m w b x0 xf nC o n x : jvpn_ok jvpn -> ne_args dim m w b x0 xf -> ne_valid nC m ->
  nsupported be f o -> (length (ord_list o) <= dim)%nat -> shaped x dim n ->
  exists M, HNE jvpn be f w b x0 xf nC m x o true = Some M /\
    nneuron_matrix f dim m w b x0 xf n x (ord_list o) M.
Proof.
  intros Hj Ha Hv Hs Hd Hx. eexists. split; [apply (HNE_ok jvpn be f dim m w b x0 xf nC o true n x); assumption|].
  apply ne_mat_neurons, Hd.
Qed.
Lemma c24_backends jvpn f dim m w b x0 xf nC o full n x : jvpn_ok jvpn -> ne_args dim m w b x0 xf -> ne_valid nC m ->
  nsupported Py f o -> nsupported Cpp f o -> (length (ord_list o) <= dim)%nat -> shaped x dim n ->
  exists M, HNE jvpn Py f w b x0 xf nC m x o full = Some M /\ HNE jvpn Cpp f w b x0 xf nC m x o full = Some M.
Proof. intros. eexists. split; apply (HNE_ok _ _ f dim m w b x0 xf nC o full n x); assumption. Qed.

Lemma removed_in nC k : In (Z.of_nat k) (removed nC) <-> In (Z.of_nat k) nC.
Proof.
  unfold removed. rewrite filter_In. split; [tauto|]. intros H. split; [exact H|].
  destruct (Z.eqb_spec (Z.of_nat k) (-1)); [lia|reflexivity].
Qed.
Lemma removed_len nC m : ne_valid nC m -> length (removed nC) = ne_numC nC.
Proof.
  intros [Hv|Ha].
  - rewrite (ne_numC_valid nC m Hv). unfold removed. f_equal. destruct Hv as [_ Hr].
    induction nC as [|z l IH]; [reflexivity|]. cbn.
    destruct (Z.eqb_spec z (-1)) as [->|N]; [specialize (Hr _ (or_introl eq_refl)); lia|]. cbn. f_equal. apply IH.
    intros i Hi. apply Hr. right. exact Hi.
  - rewrite ne_numC_all by exact Ha. unfold removed. induction nC as [|z l IH]; [reflexivity|]. cbn.
    rewrite (Ha z (or_introl eq_refl)). cbn. apply IH. intros z' Hz'. apply Ha. right. exact Hz'.
Qed.
Lemma c24_removed jvpn be f dim m w b x0 xf nC o n x : jvpn_ok jvpn -> ne_args dim m w b x0 xf -> ne_valid nC m ->
  nsupported be f o -> (length (ord_list o) <= dim)%nat -> shaped x dim n ->
  exists M Mc, HNE jvpn be f w b x0 xf nC m x o true = Some M /\ HNE jvpn be f w b x0 xf nC m x o false = Some Mc /\
    columns_removed m (removed nC) M Mc /\ mc Mc = (m - length (removed nC))%nat.
Proof.
  intros Hj Ha Hv Hs Hd Hx. eexists; eexists.
  split; [apply (HNE_ok jvpn be f dim m w b x0 xf nC o true n x); assumption|].
  split; [apply (HNE_ok jvpn be f dim m w b x0 xf nC o false n x); assumption|]. split.
  - exists (keptc nC m). split; [apply keptc_sorted|]. split; [intros k; rewrite keptc_in, removed_in; tauto|]. split.
    + apply ne_mat_shaped.
    + intros j a. destruct (Nat.lt_ge_cases j n) as [Hjn|Hjn].
      * rewrite ne_mat_ent by exact Hjn. cbn [kk]. destruct (nth_error (keptc nC m) a) as [k|] eqn:E; [|reflexivity].
        apply nth_error_In, keptc_in in E as [Hk _]. rewrite ne_mat_ent by exact Hjn.
        rewrite (nth_error_nth' _ 0%nat) by (rewrite seq_length; exact Hk). rewrite seq_nth by exact Hk. reflexivity.
      * assert (G : forall kk a, ment (ne_mat f dim m w b x0 xf kk (ord_list o) n x) j a = None).
        { intros l a'. unfold ment, ne_mat. cbn [md]. rewrite nth_error_map_seq. destruct (Nat.ltb_spec j n); [lia|reflexivity]. }
        rewrite G. destruct (nth_error (keptc nC m) a); [rewrite G|]; reflexivity.
  - cbn [mc ne_mat kk]. rewrite ne_valid_kept, (removed_len nC m) by exact Hv. reflexivity.
Qed.
Lemma c24_xla jvpn f dim m w b x0 xf nC o full n x B M out : ne_args dim m w b x0 xf -> ne_valid nC m ->
  nsupported Cpp f o -> (length (ord_list o) <= dim)%nat -> shaped x dim n ->
  nelm_init ROps Cpp x0 xf nC m = Some B -> HNE jvpn Cpp f w b x0 xf nC m x o full = Some M ->
  blen out = (mr M * mc M)%nat ->
  exists bb, cpp_nelm_xla ROps RFun f B w b (bof (concat (md x))) (ord_list o) full (mr M) (mc M) out = Some bb /\
    buf_matrix bb (mr M) (mc M) = Some (md M).
Proof.
  intros Ha Hv Hs Hd Hx EB HM Hout. unfold HNE in HM. rewrite EB in HM. cbn [nelm_H] in HM.
  destruct (nelm_init_ok Cpp dim m w b x0 xf nC Ha Hv) as (B' & EB' & HB). rewrite EB in EB'. apply some_inj in EB'. subst B'.
  assert (Ht : ntab (ord_list o) f) by (destruct f; cbn in *; trivial).
  rewrite (cpp_nelm_H_ok f dim m w b x0 xf nC B (ord_list o) full n x) in HM by assumption. apply some_inj in HM. subst M.
  cbn [mr mc md ne_mat] in *. unfold cpp_nelm_xla.
  destruct (cpp_nelm_nHint_ok f dim m w b x0 xf nC B (ord_list o) full n (bof (concat (md x))) (fun i j => xat x j i)
     out Ha Hv HB Ht Hd) as (F & EF & HF).
  - intros i j Hi Hj. apply (shaped_flat x dim n); assumption.
  - rewrite Hout. apply Nat.mul_comm.
  - exists F. split; [exact EF|]. rewrite (buf_matrix_bmat F n _ _ (cols_bmat _ _ _ _ HF)).
    f_equal. apply map_ext. intros j.
    apply (map_seq_nth (fun k => nent f dim m w b (nci x0 xf) (ord_list o) k (zat x0 xf x j)) (kk nC m full) 0%nat).
Qed.

(** *** refutations *)
Lemma c24_untabulated jvpn f dim m w b x0 xf nC o n x : f = Sigmoid \/ f = Tanh ->
  ne_args dim m w b x0 xf -> ne_valid nC m -> (9 <= list_sum (ord_list o))%nat ->
  (length (ord_list o) <= dim)%nat -> shaped x dim n ->
  HNE jvpn Cpp f w b x0 xf nC m x o true = HNE jvpn Cpp f w b x0 xf nC m x (DArr []) true.
Proof.
  intros Hf (Hdim & Hw & Hb & H0 & Hxf & Hne) Hv H9 Hd Hx.
  unfold HNE. destruct (nelm_init_ok Cpp dim m w b x0 xf nC (conj Hdim (conj Hw (conj Hb (conj H0 (conj Hxf Hne))))) Hv) as (B & EB & HB).
  rewrite EB. cbn [nelm_H ord_list]. unfold cpp_nelm_H, cpp_nelm_nHint. rewrite orb_true_r.
  destruct (cpp_nd_z ROps B (bof (concat (md x))) (mc x)) as [z|]; [|reflexivity]. cbn [bind].
  rewrite (neo_dim _ _ _ _ _ _ HB), (neo_m _ _ _ _ _ _ HB), (neo_c _ _ _ _ _ _ HB).
  destruct (ncase_none dim m w b (ord_list o) Hw Hb Hd (list_sum (ord_list o)) H9) as (E1 & E2 & _).
  destruct Hf as [-> | ->]; cbn [cpp_nelm_hint]; unfold cpp_nsigmoid_hint, cpp_ntanh_hint;
    match goal with |- context [elm_loop m (mc x) ?b ?F] => destruct (elm_loop m (mc x) b F) as [F1|] end; cbn [bind]; try reflexivity;
    rewrite (ord_ok dim m w b (nci x0 xf) _ (ord_list o) Hw Hb Hd eq_refl); cbn [bind fst snd]; rewrite ?E1, ?E2; reflexivity.
Qed.
Lemma c24_tuple jvpn dim m w b x0 xf nC d full n x : ne_args dim m w b x0 xf -> ne_valid nC m ->
  list_sum d = 1%nat -> shaped x dim n -> (1 <= n)%nat ->
  HNE jvpn Py ReLU w b x0 xf nC m x (DTuple d) full = None.
Proof.
  intros Ha Hv Hs (Hx1 & Hx2 & Hx3 & Hx4) Hn. unfold HNE.
  destruct (nelm_init_ok Py dim m w b x0 xf nC Ha Hv) as (B & EB & HB). rewrite EB. cbn [nelm_H]. unfold py_nelm_H.
  rewrite (neo_dim _ _ _ _ _ _ HB), Hx1, Nat.eqb_refl, Hx2.
  rewrite (mapM_none _ _ 0%nat); [reflexivity|apply in_seq; lia|].
  destruct (mapM (fun r => nth_error r 0) (md x)); [|reflexivity]. cbn [bind py_nelm_row]. unfold py_nrelu_row. cbn [ord_list].
  rewrite Hs. reflexivity.
Qed.

Lemma c24_refuted jvpn f d : f = Sigmoid \/ f = Tanh -> (9 <= d)%nat ->
  exists M, HNE jvpn Cpp f [0] [1] [0] [1] [(-1)%Z] 1 (Mat 1 1 [[0]]) (DTuple [d]) true = Some M /\
    ~ nneuron_matrix f 1 1 [0] [1] [0] [1] 1 (Mat 1 1 [[0]]) [d] M.
Proof.
  intros Hf Hd.
  assert (Ha : ne_args 1 1 [0] [1] [0] [1]).
  { repeat split; try (cbn; lia). intros i Hi. replace i with 0%nat by lia. cbn. lra. }
  assert (Hv : ne_valid [(-1)%Z] 1) by (right; intros z [<-|[]]; reflexivity).
  assert (Hx : shaped (Mat 1 1 [[0]]) 1 1) by (repeat split; intros r [<-|[]]; reflexivity).
  rewrite (c24_untabulated jvpn f 1 1 [0] [1] [0] [1] [(-1)%Z] (DTuple [d]) 1 (Mat 1 1 [[0]]) Hf Ha Hv) by (try exact Hx; cbn; lia).
  pose proof (HNE_ok (fun g z t => Derive (fun s => g (line z t s)) 0) Cpp f 1 1 [0] [1] [0] [1] [(-1)%Z] (DArr []) true 1 (Mat 1 1 [[0]])) as H.
  assert (E : forall j1 j2, HNE j1 Cpp f [0] [1] [0] [1] [(-1)%Z] 1 (Mat 1 1 [[0]]) (DArr []) true =
              HNE j2 Cpp f [0] [1] [0] [1] [(-1)%Z] 1 (Mat 1 1 [[0]]) (DArr []) true) by reflexivity.
  rewrite (E jvpn (fun g z t => Derive (fun s => g (line z t s)) 0)). rewrite H; clear H E.
  - eexists. split; [reflexivity|]. intros [_ Hn].
    destruct (Hn 0%nat Nat.lt_0_1) as (g & Hg & He).
    specialize (Hg [0%nat] (Permutation_refl _)). cbn [mixed_on] in Hg. destruct Hg as (h & Hh & Eh).
    assert (Hsm : forall X, smooth_at f 1 1 [0] [1] [0] [1] 0 X) by (intros X; destruct Hf as [-> | ->]; exact I).
    set (X0 := (fun _ => 0) : pt).
    specialize (Hh X0 (Hsm _)). cbn [nth] in Hh.
    assert (E0 : h X0 = 0).
    { rewrite <- (is_derive_n_unique _ _ _ _ Hh). destruct d as [|d']; [lia|].
      rewrite (Derive_n_ext _ (fun _ => act f 1)); [apply is_derive_n_unique, is_derive_n_const_S|].
      intros t. unfold nneuron, narg. cbn. f_equal. unfold Rdiv. ring. }
    specialize (He 0%nat X0 Nat.lt_0_1). rewrite <- (Eh X0 (Hsm _)), E0 in He.
    assert (Hc : at_col (Mat 1 1 [[0]]) 0 1 X0) by (intros i Hi; replace i with 0%nat by lia; reflexivity).
    specialize (He Hc (Hsm _)). rewrite ne_mat_ent in He by lia. cbn [kk seq nth_error option_map] in He.
    apply some_inj in He. unfold nent in He. cbn [ord_list list_sum fold_right] in He.
    rewrite nG_0 in He. apply (act_pos f Hf). rewrite <- He. cbn [prodn pow nth]. unfold nu, zat, xat. cbn. rewrite !Rmult_1_l. f_equal. ring.
  - intros gg z t l _ Hl. apply is_derive_unique, Hl.
  - exact Ha.
  - exact Hv.
  - destruct Hf as [-> | ->]; cbn; lia.
  - cbn. lia.
  - exact Hx.
Qed.

Lemma c24_swish jvpn dim m w b x0 xf nC o n x : ne_args dim m w b x0 xf -> ne_valid nC m ->
  (9 <= list_sum (ord_list o))%nat -> (length (ord_list o) <= dim)%nat -> shaped x dim n -> (1 <= n)%nat -> (1 <= m)%nat ->
  HNE jvpn Cpp Swish w b x0 xf nC m x o true = None.
Proof.
  intros Ha Hv H9 Hd Hx Hn Hm. pose proof Ha as (Hdim & Hw & Hb & H0 & Hxf & Hne).
  unfold HNE. destruct (nelm_init_ok Cpp dim m w b x0 xf nC Ha Hv) as (B & EB & HB).
  rewrite EB. cbn [nelm_H]. unfold cpp_nelm_H, cpp_nelm_nHint. rewrite orb_true_r.
  destruct (cpp_nd_z ROps B (bof (concat (md x))) (mc x)) as [z|]; [|reflexivity]. cbn [bind].
  rewrite (neo_dim _ _ _ _ _ _ HB), (neo_m _ _ _ _ _ _ HB), (neo_c _ _ _ _ _ _ HB), (neo_full _ _ _ _ _ _ HB).
  destruct (ncase_none dim m w b (ord_list o) Hw Hb Hd (list_sum (ord_list o)) H9) as (_ & _ & E3).
  cbn [cpp_nelm_hint]. unfold cpp_nswish_hint.
  rewrite (ord_ok dim m w b (nci x0 xf) _ (ord_list o) Hw Hb Hd eq_refl). cbn [bind].
  destruct (Nat.eqb_spec (list_sum (ord_list o)) 0) as [E|_]; [lia|].
  match goal with |- context [elm_loop m (mc x) ?b ?F] => destruct (elm_loop m (mc x) b F) as [zi|] end; [|reflexivity]. cbn [bind].
  match goal with |- context [elm_loop m (mc x) ?b ?F] => destruct (elm_loop m (mc x) b F) as [sg|] end; [|reflexivity]. cbn [bind].
  rewrite E3. cbn [bind]. destruct Hx as (_ & Hx2 & _). rewrite Hx2.
  rewrite (buf_matrix_none _ n m 0 0); [reflexivity|lia|lia|]. unfold brd; destruct (Nat.ltb _ _); reflexivity.
Qed.
