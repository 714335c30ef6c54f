(** C82: assigning attributes of a basis object. *)
From Coq Require Import Reals Arith Lia Lra List Bool ZArith QArith.
From Coquelicot Require Import Coquelicot.
From Verif Require Import Base ProofBase Numbers ModelBFPy ModelBFCpp ProofBFPy ProofBFCpp
  SpecBasis ProofH ProofPoly ModelELM SpecELM ProofELM ModelRegistry ModelAttrs SpecAttrs ProofAttrs.
Import ListNotations.
Open Scope nat_scope.

Lemma assigned_nC f x0 xf nC m l : q_nC (assigned f x0 xf nC m l) = nC.
Proof. unfold assigned. rewrite sets_nC. apply fam_init_nC. Qed.

(** Whatever was assigned, if the attributes are in range and describe the domain map of [a, b], the
    object answers every call as one newly made for [a, b] with the first [m] functions of the family
    and the first [numC] of its removed functions. *)
Theorem C82_as_new : forall f x0 xf nC m l a b xs d full,
  let o := assigned f x0 xf nC m l in
  in_range o -> a <> b -> maps_by o (zmap f a b) ->
  obj_H ROps RFun f o xs d full = H1 Cpp f a b (firstn (Z.to_nat (q_numC o)) nC) (Z.to_nat (q_m o)) xs d full.
Proof.
  intros f x0 xf nC m l a b xs d full o Hr Hab Hmap. cbn [H1]. rewrite cpp_H_mat_eq. unfold obj_H.
  apply obj_as_new; [exact Hr|rewrite fam_init_m; reflexivity| | |].
  - rewrite fam_init_nC. unfold o. rewrite assigned_nC. reflexivity.
  - intros t. rewrite (zmap_ok f a b _ _ t Hab). apply Hmap.
  - intros z dark. rewrite fam_init_m. reflexivity.
Qed.
Print Assumptions C82_as_new.

(** The same for the ELM classes, with the first [m] weights and biases. *)
Theorem C82_elm_as_new : forall jvp f w bias x0 xf nC m l a b xs d full,
  let o := elm_assigned x0 xf nC m l in
  in_range o -> (q_m o <= Z.of_nat (length w))%Z -> length bias = length w ->
  a <> b -> maps_by o (fun t => ((t - a) / (b - a))%R) ->
  obj_elm_H ROps RFun f w bias o xs d full =
  HE jvp Cpp f (firstn (Z.to_nat (q_m o)) w) (firstn (Z.to_nat (q_m o)) bias) a b
     (firstn (Z.to_nat (q_numC o)) nC) xs d full.
Proof.
  intros jvp f w bias x0 xf nC m l a b xs d full o Hr Hw Hb Hab Hmap. cbn [HE]. rewrite cpp_elm_H_eq.
  destruct Hr as [Hm Hn].
  assert (Hlen : length (firstn (Z.to_nat (q_m o)) w) = Z.to_nat (q_m o)) by (apply firstn_length_le; lia).
  unfold obj_elm_H. apply obj_as_new; [split; assumption| | | |].
  - rewrite elm_init_m. exact Hlen.
  - cbn [elm_init basis_init b_nC]. unfold o, elm_assigned. rewrite sets_nC. reflexivity.
  - intros t. rewrite (Hmap t). cbn. field. lra.
  - intros z dark. rewrite elm_init_m, Hlen. apply elm_hint_firstn.
Qed.
Print Assumptions C82_elm_as_new.

(** Reading the weights gives the first [m]; assigning [m] new weights replaces exactly those. *)
Theorem C82_weights : forall (o : cobj R) w v, (0 <= q_m o <= Z.of_nat (length w))%Z ->
  obj_get o w = Some (firstn (Z.to_nat (q_m o)) w) /\
  (Z.of_nat (length v) = q_m o -> exists buf, obj_put o w v = Some (Stored buf) /\
     bto_list buf = Some (v ++ skipn (length v) w)).
Proof.
  intros o w v H. split; [apply get_firstn, H|]. intros Hv.
  destruct (put_ok o w v) as (buf & E & Hl & Hc); [lia|exact Hv|]. exists buf. split; [exact E|].
  assert (Hlen : length (v ++ skipn (length v) w) = length w)
    by (rewrite app_length, skipn_length; lia).
  rewrite (bto_list_holds buf (fun k => nth k (v ++ skipn (length v) w) 0%R)).
  - f_equal. rewrite Hl, <- Hlen. apply map_nth_seq.
  - intros k Hk. rewrite Hl in Hk. rewrite Hc by exact Hk. rewrite <- (nth_error_nth' _ 0%R) by lia.
    destruct (Nat.ltb_spec k (length v)) as [Hkv|Hkv].
    + rewrite nth_error_app1 by exact Hkv. reflexivity.
    + rewrite nth_error_app2 by exact Hkv. clear -Hkv. revert w k Hkv.
      induction v as [|y v IH]; intros w k Hk; cbn in *; [rewrite Nat.sub_0_r; reflexivity|].
      destruct k as [|k]; [lia|]. destruct w as [|x w]; cbn; [destruct (k - length v); reflexivity|]. apply IH. lia.
Qed.
Print Assumptions C82_weights.

(** A call compiled earlier, run after assignments: the answer is that of the object as it is now if
    the number of columns is still the one recorded at compilation ... *)
Theorem C82_compiled : forall f x0 xf nC m l cols xs d (full : bool),
  let o := assigned f x0 xf nC m l in
  in_range o -> (1 <= q_m o)%Z -> valid_nC (used_nC o) (Z.to_nat (q_m o)) ->
  Z.of_nat cols = (if full then q_m o else q_m o - q_numC o)%Z ->
  compiled_call ROps RFun f o cols xs d full = obj_H ROps RFun f o xs d full.
Proof.
  intros f x0 xf nC m l cols xs d full o Hr Hm Hv Hc.
  apply (compiled_fresh _ (col f)); [lia|intros _; split; assumption| |exact Hc].
  apply cpp_hint_ok. lia.
Qed.
Print Assumptions C82_compiled.
(** ... and otherwise there is none: cells outside the output are written, or cells of it are not. *)
Theorem C82_stale_refuted : forall f x0 xf nC m l cols xs d (full : bool),
  let o := assigned f x0 xf nC m l in
  in_range o -> valid_nC (used_nC o) (Z.to_nat (q_m o)) -> xs <> [] ->
  Z.of_nat cols <> (if full then q_m o else q_m o - q_numC o)%Z ->
  compiled_call ROps RFun f o cols xs d full = None.
Proof.
  intros f x0 xf nC m l cols xs d full o Hr Hv Hx Hc.
  apply compiled_stale; [exact Hx|apply Hr|intros _; split; assumption|exact Hc].
Qed.
Print Assumptions C82_stale_refuted.

(** Nothing stops an assignment out of range; then no matrix is returned with functions removed. *)
Theorem C82_range_refuted : forall f x0 xf nC m l xs d,
  let o := assigned f x0 xf nC m l in
  (q_numC o < 0 \/ Z.of_nat (length nC) < q_numC o)%Z -> xs <> [] ->
  obj_H ROps RFun f o xs d false = None.
Proof.
  intros f x0 xf nC m l xs d o [Hn|Hn] Hx.
  - apply obj_negative; assumption.
  - apply obj_beyond. unfold o. rewrite assigned_nC. exact Hn.
Qed.
Print Assumptions C82_range_refuted.
(** ELM objects: with [m] beyond the number of weights made by the constructor, the weights of the
    missing neurons are read (and by the setter written) outside their arrays. *)
Theorem C82_elm_range_refuted : forall f w bias x0 xf nC m l xs d full v,
  let o := elm_assigned x0 xf nC m l in
  (Z.of_nat (length w) < q_m o)%Z -> xs <> [] ->
  ((f = ReLU -> d <= 1) -> obj_elm_H ROps RFun f w bias o xs d full = None) /\
  obj_get o w = None /\ (Z.of_nat (length v) = q_m o -> obj_put o w v = None).
Proof.
  intros f w bias x0 xf nC m l xs d full v o Hm Hx. split; [|split].
  - intros Hr. apply obj_elm_beyond; assumption.
  - apply get_beyond, Hm.
  - intros Hv. apply put_beyond; assumption.
Qed.
Print Assumptions C82_elm_range_refuted.

(** After [obj.identifier = n], compiled calls of the object are served by whatever object carries
    number [n] in the registry, here another one. *)
Theorem C82_identifier_refuted : forall (P : Type) (p1 p2 : P) k1 k2 a1 a2, a1 <> a2 ->
  exists s s1 s2, reg_run reg0 [New k1 a1 p1; New k2 a2 p2] = Some s /\
  option_map o_pay (served_by s a1) = Some p1 /\
  set_identifier s a1 1 = Some s1 /\ option_map o_pay (served_by s1 a1) = Some p2 /\
  set_identifier s a1 2 = Some s2 /\ served_by s2 a1 = None.
Proof.
  intros P p1 p2 k1 k2 a1 a2 Ha.
  assert (N12 : (a1 =? a2)%nat = false) by (apply Nat.eqb_neq; exact Ha).
  assert (N21 : (a2 =? a1)%nat = false) by (apply Nat.eqb_neq; congruence).
  destruct k1, k2; cbn; unfold heap_set; rewrite ?N12, ?N21; cbn; unfold heap_set; rewrite ?N12, ?N21, ?Nat.eqb_refl; cbn;
    unfold served_by, set_identifier, dispatch, heap_set; cbn; rewrite ?N12, ?N21, ?Nat.eqb_refl; cbn;
    do 3 eexists; (split; [reflexivity|]); cbn; rewrite ?N12, ?N21, ?Nat.eqb_refl; cbn; rewrite ?N12, ?N21, ?Nat.eqb_refl; cbn;
    (split; [reflexivity|]); (split; [reflexivity|]); cbn; rewrite ?N12, ?N21, ?Nat.eqb_refl; cbn; rewrite ?N12, ?N21, ?Nat.eqb_refl; cbn;
    (split; [reflexivity|]); (split; [reflexivity|]); cbn; rewrite ?N12, ?N21, ?Nat.eqb_refl; reflexivity.
Qed.
Print Assumptions C82_identifier_refuted.

(** The Python classes take the same assignments differently: [c] cannot be assigned, the others have
    no effect, so the same program gives matrices of different shapes. *)
Theorem C82_python_refuted : forall f x0 xf nC m m' xs d, 1 <= m -> 1 <= m' -> m <> m' ->
  let B := fam_init ROps RFun f x0 xf nC m in
  exists M M', obj_H ROps RFun f (obj_set (obj_of B) (Set_m (Z.of_nat m'))) xs d true = Some M' /\
    (B' <- py_obj_set B (Set_m (Z.of_nat m')) ;; py_H ROps RFun f B' xs d true) = Some M /\
    mc M <> mc M' /\ py_obj_set B (Set_c 1%R) = None.
Proof.
  intros f x0 xf nC m m' xs d Hm Hm' Hne B.
  eexists. eexists. split.
  - unfold obj_H. apply (obj_full _ (col f)); [cbn; lia|]. cbn [q_m obj_set]. rewrite Nat2Z.id. apply cpp_hint_ok, Hm'.
  - split; [|split].
    + cbn [py_obj_set bind]. apply (H1_full Py f x0 xf nC m xs d Hm).
    + cbn [full_mat mc objB b_m obj_set q_m]. rewrite fam_init_m, Nat2Z.id. exact Hne.
    + reflexivity.
Qed.
Print Assumptions C82_python_refuted.

(** What is read back is what was assigned last, or what the constructor stored; a new object has
    the given sizes and maps the points as described by [zmap]. *)
Theorem C82_read_back : forall f x0 xf nC m l, x0 <> xf ->
  let o := assigned f x0 xf nC m l in let o0 := assigned f x0 xf nC m [] in
  q_m o = last_given (fun a => match a with Set_m v => Some v | _ => None end) l (Z.of_nat m) /\
  q_numC o = last_given (fun a => match a with Set_numC v => Some v | _ => None end) l (Z.of_nat (length nC)) /\
  q_x0 o = last_given (fun a => match a with Set_x0 v => Some v | _ => None end) l (q_x0 o0) /\
  q_c o = last_given (fun a => match a with Set_c v => Some v | _ => None end) l (q_c o0) /\
  q_z0 o = last_given (fun a => match a with Set_z0 v => Some v | _ => None end) l (q_z0 o0) /\
  maps_by o0 (zmap f x0 xf).
Proof.
  intros f x0 xf nC m l Hne. cbv zeta.
  replace (Z.of_nat m) with (q_m (assigned f x0 xf nC m [])) by (unfold assigned; cbn; rewrite fam_init_m; reflexivity).
  replace (Z.of_nat (length nC)) with (q_numC (assigned f x0 xf nC m []))
    by (unfold assigned; cbn; rewrite fam_init_nC; reflexivity).
  change (assigned f x0 xf nC m l) with (obj_sets (assigned f x0 xf nC m []) l).
  assert (Hz : maps_by (assigned f x0 xf nC m []) (zmap f x0 xf)) by (intros t; apply (zmap_ok f x0 xf nC m t Hne)).
  split; [|split; [|split; [|split; [|split; [|exact Hz]]]]]; clear Hz; generalize (assigned f x0 xf nC m []);
    (induction l as [|a l IH]; intros o; [reflexivity|]); unfold obj_sets, last_given in *; cbn [fold_left];
    rewrite IH; destruct a; reflexivity.
Qed.
Print Assumptions C82_read_back.

(** a Chebyshev object on [0, 2] without functions 0 and 1, asked to keep function 1, to use 4
    functions instead of 3, and moved to [0, 4]: the matrix of a new object on [0, 4] *)
Example C82_case :
  let o := obj_sets (obj_of (fam_init QOps QFun CP 0%Q 2%Q [0; 1]%Z 3)) [Set_numC 1; Set_m 4; Set_c (1 # 2)%Q]%Z in
  obj_H QOps QFun CP o [1; 3]%Q 1 false = H1Q Cpp CP 0%Q 4%Q [0]%Z 4 [1; 3]%Q 1 false /\
  obj_H QOps QFun CP o [1; 3]%Q 1 false <> None /\
  obj_H QOps QFun CP (obj_set o (Set_numC 3)) [1; 3]%Q 1 false = None /\
  compiled_call QOps QFun CP o 1 [1; 3]%Q 1 false = None /\
  compiled_call QOps QFun CP o 3 [1; 3]%Q 1 false = obj_H QOps QFun CP o [1; 3]%Q 1 false.
Proof. vm_compute. repeat split; discriminate. Qed.
