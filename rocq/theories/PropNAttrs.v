(** C83: assigning attributes of a compiled n-dimensional basis object. *)
From Coq Require Import Reals Arith Lia Lra List Bool ZArith QArith.
From Coquelicot Require Import Coquelicot.
From Verif Require Import Base ProofBase Numbers ModelBFPy ModelBFCpp ProofTab ProofBFPy ProofBFCpp SpecBasis
  ProofH ModelND SpecND ProofND ProofAttrs ModelNAttrs SpecNAttrs ProofNAttrs.
Import ListNotations.
Open Scope nat_scope.

(** Whatever the attributes, if they describe the object [BF.n<f>(a, b, nC, m)], including its number
    of functions, every call is answered as by that object newly made. *)
Theorem C83_as_new : forall f dim a b nC m o B x d full n,
  n_args f dim a b nC m -> n_describes o f dim a b nC m -> mkn Cpp f a b nC m = Some B ->
  n_advertised o full = Z.of_nat (advertised B full) -> shaped x dim n ->
  exists M, nobj_H ROps RFun f o x d full = Some M /\ Hn Cpp f B x d full = Some M.
Proof.
  intros f dim a b nC m o B x d full n Hargs Hd HB Hadv Hx.
  destruct (mkn_ok Cpp f dim a b nC m Hargs) as (B1 & E1 & HB1). rewrite E1 in HB. injection HB as ->.
  rewrite (nbo_num _ _ _ _ _ _ _ HB1) in Hadv.
  destruct (nobj_H_any o f dim a b nC m x d full n Hd Hargs Hx) as [H _].
  destruct H as (M & EM & HM); [lia|]. exists M. split; [exact EM|].
  rewrite Hadv, Nat2Z.id in HM. rewrite (padded_eq _ _ _ _ HM).
  apply (Hn_ok Cpp f dim a b nC m B x d full n); [exact Hargs|exact HB1|exact Hx|left; reflexivity].
Qed.
Print Assumptions C83_as_new.

(** But the number of functions is an attribute of its own.  Too large, the matrix is completed by
    columns of ones, which belong to no basis function; ... *)
Theorem C83_padding_refuted : forall f dim a b nC m o B x d full n,
  n_args f dim a b nC m -> n_describes o f dim a b nC m -> mkn Cpp f a b nC m = Some B ->
  (Z.of_nat (advertised B full) < n_advertised o full)%Z -> shaped x dim n ->
  exists M M', nobj_H ROps RFun f o x d full = Some M /\ Hn Cpp f B x d full = Some M' /\
    padded M M' n (Z.to_nat (n_advertised o full)) (advertised B full).
Proof.
  intros f dim a b nC m o B x d full n Hargs Hd HB Hadv Hx.
  destruct (mkn_ok Cpp f dim a b nC m Hargs) as (B1 & E1 & HB1). rewrite E1 in HB. injection HB as ->.
  rewrite (nbo_num _ _ _ _ _ _ _ HB1) in *.
  destruct (nobj_H_any o f dim a b nC m x d full n Hd Hargs Hx) as [H _].
  destruct H as (M & EM & HM); [lia|]. exists M, (nd_mat f dim a b nC m x d full). split; [exact EM|].
  split; [|exact HM].
  apply (Hn_ok Cpp f dim a b nC m B x d full n); [exact Hargs|exact HB1|exact Hx|left; reflexivity].
Qed.
Print Assumptions C83_padding_refuted.
(** ... too small, the call writes outside its result. *)
Theorem C83_overflow_refuted : forall f dim a b nC m o B x d full n,
  n_args f dim a b nC m -> n_describes o f dim a b nC m -> mkn Cpp f a b nC m = Some B ->
  (n_advertised o full < Z.of_nat (advertised B full))%Z -> shaped x dim (S n) ->
  nobj_H ROps RFun f o x d full = None.
Proof.
  intros f dim a b nC m o B x d full n Hargs Hd HB Hadv Hx.
  destruct (mkn_ok Cpp f dim a b nC m Hargs) as (B1 & E1 & HB1). rewrite E1 in HB. injection HB as ->.
  rewrite (nbo_num _ _ _ _ _ _ _ HB1) in *.
  destruct (nobj_H_any o f dim a b nC m x d full (S n) Hd Hargs Hx) as [_ H]. apply H; [exact Hadv|lia].
Qed.
Print Assumptions C83_overflow_refuted.

(** So [obj.m = m'] alone, on a new object, never gives the object with [m'] functions. *)
Theorem C83_m_refuted : forall f dim x0 xf nC m m' zf B x d n,
  n_args f dim x0 xf nC m -> (forall k, k < dim -> nth k x0 0%R <> nth k xf 0%R) -> 1 <= m' ->
  mkn Cpp f x0 xf nC m = Some B -> shaped x dim (S n) ->
  exists o B', nobj_set (nobj_of zf B) (NSet_m (Z.of_nat m')) = Some o /\ mkn Cpp f x0 xf nC m' = Some B' /\
    (m < m' -> nobj_H ROps RFun f o x d true = None) /\
    (m' < m -> exists M M', nobj_H ROps RFun f o x d true = Some M /\ Hn Cpp f B' x d true = Some M' /\
       mc M' < mc M /\ padded M M' (S n) (mc M) (mc M')).
Proof.
  intros f dim x0 xf nC m m' zf B x d n Hargs Hne Hm' HB Hx.
  pose proof Hargs as (Hf & Hd & Hm & H0 & H1 & HC).
  assert (Hargs' : n_args f dim x0 xf nC m') by (repeat split; try assumption; apply HC).
  destruct (mkn_ok Cpp f dim x0 xf nC m Hargs) as (B1 & E1 & HB1). rewrite E1 in HB. injection HB as ->.
  destruct (mkn_ok Cpp f dim x0 xf nC m' Hargs') as (B' & E' & HB').
  eexists. exists B'. split; [reflexivity|]. split; [exact E'|].
  pose proof (describes_m _ _ _ _ _ _ _ _ m' (fresh_describes zf _ _ _ _ _ _ _ Hargs HB1 Hne) eq_refl) as Hdes.
  set (o := NObj _ _ _ _ _ _ _ _ _ _ _) in *.
  assert (Hadv : n_advertised o true = Z.of_nat (length (idxs dim m (md nC) true))).
  { rewrite <- (nbo_num _ _ _ _ _ _ _ HB1). reflexivity. }
  destruct (nobj_H_any o f dim x0 xf nC m' x d true (S n) Hdes Hargs' Hx) as [P1 P2]. split.
  - intros Hlt. apply P2; [|lia]. rewrite Hadv. pose proof (idxs_mono dim m m' nC Hd (conj Hm Hlt) HC). lia.
  - intros Hlt. pose proof (idxs_mono dim m' m nC Hd (conj Hm' Hlt) HC) as Hmono.
    destruct P1 as (M & EM & HM); [lia|]. exists M. eexists. split; [exact EM|].
    split; [apply (Hn_ok Cpp f dim x0 xf nC m' B' x d true (S n)); [exact Hargs'|exact HB'|exact Hx|left; reflexivity]|].
    rewrite Hadv, Nat2Z.id in HM. destruct HM as (Hs1 & Hs2 & Hc).
    pose proof Hs1 as (_ & Hc1 & _). pose proof Hs2 as (_ & Hc2 & _). rewrite Hc1, Hc2.
    split; [exact Hmono|]. split; [exact Hs1|]. split; [exact Hs2|exact Hc].
Qed.
Print Assumptions C83_m_refuted.

(** A call compiled when the result had [cols] columns, run after assignments. *)
Theorem C83_compiled : forall f dim a b nC m o B x d full n cols,
  n_args f dim a b nC m -> n_describes o f dim a b nC m -> mkn Cpp f a b nC m = Some B -> shaped x dim (S n) ->
  (cols < advertised B full -> ncompiled_call ROps RFun f o cols x d full = None) /\
  (advertised B full <= cols -> exists M M', ncompiled_call ROps RFun f o cols x d full = Some M /\
     Hn Cpp f B x d full = Some M' /\ padded M M' (S n) cols (advertised B full)).
Proof.
  intros f dim a b nC m o B x d full n cols Hargs Hd HB Hx.
  destruct (mkn_ok Cpp f dim a b nC m Hargs) as (B1 & E1 & HB1). rewrite E1 in HB. injection HB as ->.
  rewrite (nbo_num _ _ _ _ _ _ _ HB1) in *. pose proof Hd as (Hd1 & Hd2 & _).
  rewrite (ncompiled_eq o f cols x d full dim m Hd1 Hd2).
  destruct (nobj_any o f dim a b nC m x d full (S n) cols Hd Hargs Hx) as [P1 P2]. split.
  - intros H. apply P2; [exact H|lia].
  - intros H. destruct (P1 H) as (M & EM & HM). exists M. eexists. split; [exact EM|]. split; [|exact HM].
    apply (Hn_ok Cpp f dim a b nC m B x d full (S n)); [exact Hargs|exact HB1|exact Hx|left; reflexivity].
Qed.
Print Assumptions C83_compiled.

(** [dim] beyond the arrays of the object, or [numC] beyond its table of removed functions while some
    function is not listed in the table: memory outside the arrays is read. *)
Theorem C83_range_refuted : forall (o : nobj R) f x d (full : bool),
  ((Z.of_nat (length (p_x0 o)) < p_dim o)%Z -> 1 <= mc x -> nobj_H ROps RFun f o x d full = None) /\
  (forall a, (0 <= p_numC o)%Z -> (Z.of_nat (blen (p_nC o)) < p_dim o * p_numC o)%Z ->
     (Z.of_nat a < p_m o)%Z -> (forall i c, brd (p_nC o) i = Some c -> c <> Z.of_nat a) ->
     nobj_H ROps RFun f o x d false = None).
Proof.
  intros o f x d full. split.
  - apply nobj_dim_beyond.
  - intros a Hc Hb Ha Hn. apply (nobj_numC_beyond o f x d a); assumption.
Qed.
Print Assumptions C83_range_refuted.

(** [obj.c = v] is accepted for every vector of the right size and stores nothing; writing into the
    array [obj.c] does change the object. *)
Theorem C83_c_refuted : forall f dim x0 xf nC m zf B nd v,
  n_args f dim x0 xf nC m -> mkn Cpp f x0 xf nC m = Some B ->
  let o := nobj_of zf B in
  exists c, nobj_get_c o = Some c /\ length c = dim /\
    (nd = 1 /\ length v = dim -> exists o', nobj_set o (NSet_c nd v) = Some o' /\ nobj_get_c o' = Some c) /\
    (nd <> 1 \/ length v <> dim -> nobj_set o (NSet_c nd v) = None) /\
    forall k u, k < dim -> exists o' c', nobj_set o (NPoke_c k u) = Some o' /\ nobj_get_c o' = Some c' /\
      length c' = dim /\ forall i, i < dim -> nth_error c' i = if i =? k then Some u else nth_error c i.
Proof.
  intros f dim x0 xf nC m zf B nd v Hargs HB o.
  destruct (mkn_ok Cpp f dim x0 xf nC m Hargs) as (B1 & E1 & HB1). rewrite E1 in HB. injection HB as ->.
  assert (Hlen : length (nb_c B) = dim) by (rewrite (nbo_c _ _ _ _ _ _ _ HB1), map_length, seq_length; reflexivity).
  assert (Hdim : nb_dim B = dim) by apply (nbo_dim _ _ _ _ _ _ _ HB1).
  assert (Hget : forall o' : nobj R, p_dim o' = Z.of_nat dim -> length (p_c o') = dim -> nobj_get_c o' = Some (p_c o')).
  { intros o' H1 H2. unfold nobj_get_c. rewrite H1. destruct (Z.ltb_spec (Z.of_nat dim) 0); [lia|].
    rewrite Nat2Z.id, <- H2. apply mapM_all. }
  exists (nb_c B). split; [apply Hget; [cbn; rewrite Hdim; reflexivity|exact Hlen]|]. split; [exact Hlen|].
  split; [|split].
  - intros [-> Hv]. exists o. cbn [nobj_set Nat.eqb negb]. unfold o at 1. cbn [nobj_of p_dim]. rewrite Hdim, Hv, Z.eqb_refl.
    split; [reflexivity|]. apply Hget; [cbn; rewrite Hdim; reflexivity|exact Hlen].
  - intros H. cbn [nobj_set]. destruct (Nat.eqb_spec nd 1) as [->|]; [|reflexivity]. destruct H as [|H]; [congruence|].
    cbn [negb]. unfold o. cbn [nobj_of p_dim]. rewrite Hdim. destruct (Z.eqb_spec (Z.of_nat (length v)) (Z.of_nat dim)); [lia|reflexivity].
  - intros k u Hk. cbn [nobj_set]. unfold o. cbn [nobj_of p_dim p_c]. rewrite Hdim, Hlen.
    destruct (Z.ltb_spec (Z.of_nat k) (Z.of_nat dim)); [|lia]. destruct (Nat.ltb_spec k dim); [|lia].
    assert (Hls : length (list_set (nb_c B) k u) = dim).
    { unfold list_set. rewrite app_length, firstn_length_le by lia. cbn [length]. rewrite skipn_length. lia. }
    eexists. exists (list_set (nb_c B) k u). split; [reflexivity|].
    split; [apply Hget; [cbn; try rewrite Hdim; reflexivity|exact Hls]|]. split; [exact Hls|].
    intros i Hi. unfold list_set. destruct (Nat.eqb_spec i k) as [->|Hne].
    + rewrite nth_error_app2; rewrite firstn_length_le by lia; [|lia]. rewrite Nat.sub_diag. reflexivity.
    + destruct (Nat.lt_ge_cases i k) as [Hik|Hik].
      * rewrite nth_error_app1 by (rewrite firstn_length_le by lia; exact Hik).
        rewrite <- (firstn_skipn k (nb_c B)) at 2. rewrite nth_error_app1 by (rewrite firstn_length_le by lia; exact Hik). reflexivity.
      * rewrite nth_error_app2; rewrite firstn_length_le by lia; [|lia].
        rewrite <- (firstn_skipn (S k) (nb_c B)) at 2. rewrite nth_error_app2; rewrite firstn_length_le by lia; [|lia].
        replace (i - k) with (S (i - S k)) by lia. reflexivity.
Qed.
Print Assumptions C83_c_refuted.

(** [obj.x0] is not the lower end of the domain: reading it on a new object reads memory never
    written, assigning it moves nothing; the same for [obj.zf]. *)
Theorem C83_x0_refuted : forall (B : nbasis (T:=R)) zf (o : nobj R) f v x d full,
  nobj_get_x0 (nobj_of zf B) = None /\
  (exists o', nobj_set o (NSet_x0 v) = Some o' /\ nobj_get_x0 o' = Some v /\ p_x0 o' = p_x0 o /\
     nobj_H ROps RFun f o' x d full = nobj_H ROps RFun f o x d full) /\
  (exists o', nobj_set o (NSet_zf v) = Some o' /\ p_zf o' = v /\
     nobj_H ROps RFun f o' x d full = nobj_H ROps RFun f o x d full).
Proof.
  intros. split; [reflexivity|]. split; eexists; (split; [reflexivity|]).
  - split; [reflexivity|]. split; reflexivity.
  - split; reflexivity.
Qed.
Print Assumptions C83_x0_refuted.

(** The Python classes: [c] and the numbers of functions cannot be assigned, [m] has no effect. *)
Theorem C83_python_refuted : forall f dim x0 xf nC m m' zf B Bp x d n v,
  n_args f dim x0 xf nC m -> (forall k, k < dim -> nth k x0 0%R <> nth k xf 0%R) -> m < m' ->
  mkn Cpp f x0 xf nC m = Some B -> mkn Py f x0 xf nC m = Some Bp -> shaped x dim (S n) -> dim <= length d ->
  py_nobj_set Bp (NSet_c 1 v) = None /\ py_nobj_set Bp (NSet_num 1) = None /\
  (exists Bp' M, py_nobj_set Bp (NSet_m (Z.of_nat m')) = Some Bp' /\ Hn Py f Bp' x d true = Some M /\ Hn Py f Bp x d true = Some M) /\
  (o' <- nobj_set (nobj_of zf B) (NSet_m (Z.of_nat m')) ;; nobj_H ROps RFun f o' x d true) = None.
Proof.
  intros f dim x0 xf nC m m' zf B Bp x d n v Hargs Hne Hlt HB HBp Hx Hd.
  split; [reflexivity|]. split; [reflexivity|]. split.
  - destruct (mkn_ok Py f dim x0 xf nC m Hargs) as (B1 & E1 & HB1). rewrite E1 in HBp. injection HBp as ->.
    exists Bp. eexists. split; [reflexivity|].
    split; apply (Hn_ok Py f dim x0 xf nC m Bp x d true (S n)); try assumption; right; exact Hd.
  - destruct (C83_m_refuted f dim x0 xf nC m m' zf B x d n Hargs Hne ltac:(lia) HB Hx) as (o & B' & E1 & _ & H & _).
    rewrite E1. cbn [bind]. apply H, Hlt.
Qed.
Print Assumptions C83_python_refuted.

(** two dimensions on [-1, 1], three functions per dimension, the functions numbered (0,0), (1,0)
    removed; then: four functions without and with the new numbers; a table of one column instead of
    two; the map of the first dimension changed through the array [c] *)
Definition c83_base := nd_init QOps QFun Cpp CP [(-1); (-1)]%Q [1; 1]%Q (Mat 2 2 [[0; 1]; [0; -1]]%Z) 3.
Definition c83_run (l : list (nassign Q)) d full :=
  B <- c83_base ;; o <- nobj_sets (nobj_of 1%Q B) l ;; nobj_H QOps QFun CP o (Mat 2 1 [[3]; [5]])%Q d full.
Example C83_case :
  c83_run [] [0; 0] false = Some (Mat 1 4 [[17; 5; 15; 49]])%Q /\
  c83_run [NSet_m 4] [0; 0] false = None /\
  c83_run [NSet_m 2; NSet_c 1 [7; 7]%Q] [0; 0] false = Some (Mat 1 4 [[5; 1; 1; 1]])%Q /\
  c83_run [NSet_m 2; NSet_num 1] [0; 0] false = Some (Mat 1 1 [[5]])%Q /\
  c83_run [NSet_m 2; NSet_numC 1; NSet_numFull 3] [0; 0] true = Some (Mat 1 3 [[1; 3; 5]])%Q /\
  c83_run [NSet_numC 1] [0; 0] false <> c83_run [] [0; 0] false /\
  c83_run [NPoke_c 0 2%Q; NSet_m 2; NSet_num 1; NSet_numFull 3] [0; 0] true = Some (Mat 1 3 [[1; 7; 5]])%Q /\
  c83_run [NSet_numC 3] [0; 0] false = None.
Proof. vm_compute. repeat split; discriminate. Qed.
