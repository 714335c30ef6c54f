(** C75: the memory layout of the arrays given to the C++ classes.  C13: which lists of removed
    functions the C++ classes can handle. *)
From Coq Require Import Reals Arith List Bool ZArith Lra Lia QArith.
From Verif Require Import Base Numbers ModelBFPy SpecBasis ModelBFCpp ProofBFCpp ProofH ModelELM SpecELM ProofELM ModelND SpecND ModelNELM ModelWeights ModelLayout SpecLayout ProofLayout.
Import ListNotations.
Open Scope R_scope.

(** ** C13: with at least one point, [H(x, d, False)] of a C++ class is defined exactly for lists
    of different functions of the basis; anything else writes outside the output. *)
Theorem C13_cpp_defined_iff : forall f x0 xf nC m xs d, (1 <= m)%nat -> xs <> [] ->
  (H1 Cpp f x0 xf nC m xs d false <> None <-> valid_nC nC m).
Proof.
  intros f x0 xf nC m xs d Hm Hx. split.
  - destruct (H1 Cpp f x0 xf nC m xs d false) as [M|] eqn:E; [|congruence]. intros _. unfold H1 in E.
    apply (H_needs_valid ROps RFun) in E; [|exact Hx]. destruct f; exact E.
  - intros Hv. destruct (H1_removed Cpp f x0 xf nC m xs d Hm Hv) as (M & Mc & _ & E & _). rewrite E. discriminate.
Qed.
Print Assumptions C13_cpp_defined_iff.
Theorem C13_elm_cpp_defined_iff : forall jvp f w b x0 xf nC xs d,
  jvp_ok jvp -> supported Cpp f d -> length b = length w -> xs <> [] ->
  (HE jvp Cpp f w b x0 xf nC xs d false <> None <-> valid_nC nC (length w)).
Proof.
  intros jvp f w b x0 xf nC xs d Hj Hs Hb Hx. split.
  - destruct (HE jvp Cpp f w b x0 xf nC xs d false) as [M|] eqn:E; [|congruence]. intros _. unfold HE in E.
    apply (elm_needs_valid ROps RFun) in E; [exact E|exact Hx].
  - intros Hv. destruct (HE_removed jvp Cpp f w b x0 xf nC xs d Hj Hs Hb Hv) as (M & Mc & _ & E & _). rewrite E. discriminate.
Qed.
Print Assumptions C13_elm_cpp_defined_iff.

(** ** C75: points and orders *)
Theorem C75_points : forall f B h v xs f64 d full, is_array h v xs ->
  call_H ROps RFun f B h v f64 d full = cpp_H_mat ROps RFun f B xs d full.
Proof. intros f B h v xs f64 d full H. unfold call_H. rewrite (cstyle1_ok _ _ _ f64 H). reflexivity. Qed.
Print Assumptions C75_points.
Theorem C75_points_nd : forall f B h v xs f64 hi dv ds i32 full, is_array2 h v xs -> is_array hi dv (map Z.of_nat ds) ->
  call_nH ROps RFun f B h v f64 hi dv i32 full = cpp_nH ROps RFun f B (Mat (w_n0 v) (w_n1 v) xs) ds full.
Proof.
  intros f B h v xs f64 hi dv ds i32 full H Hd. unfold call_nH. rewrite (cstyle2_ok _ _ _ f64 H), (cstyle1_ok _ _ _ i32 Hd). cbn [bind].
  rewrite (is_array2_chop _ _ _ H), map_map. f_equal. rewrite <- (map_id ds) at 2. apply map_ext, Nat2Z.id.
Qed.
Print Assumptions C75_points_nd.

(** ** C75: constructors.  Missing: arrays of the exact element type with a stride (below). *)
Theorem C75_ctor_partial : forall f x0 xf h v l i32 m, is_array h v l ->
  i32 = false \/ v_str v = 1%Z \/ (v_len v <= 1)%nat ->
  (exists B, new_fam ROps RFun f x0 xf h v i32 m = Some B /\
     forall xs d full, cpp_H_mat ROps RFun f B xs d full = H1 Cpp f x0 xf l m xs d full) /\
  new_elm ROps x0 xf h v i32 m = Some (elm_init ROps x0 xf l m).
Proof.
  intros f x0 xf h v l i32 m H Hc. unfold new_fam, new_elm. rewrite (plain1_ok _ _ _ _ H Hc). split; [|reflexivity].
  eexists. split; [reflexivity|]. reflexivity.
Qed.
Print Assumptions C75_ctor_partial.
(** n-dimensional: contiguous arrays, or arrays that are converted and are not in Fortran order *)
Theorem C75_ctor_nd_partial : forall f hd a la fa b lb fb h v M (i32 : bool) m,
  is_array hd a la -> is_array hd b lb -> is_array2 h v M ->
  fa = false \/ v_str a = 1%Z \/ (v_len a <= 1)%nat -> fb = false \/ v_str b = 1%Z \/ (v_len b <= 1)%nat ->
  (if i32 then contiguous2 v = true else (Z.abs (w_s1 v) <= Z.abs (w_s0 v))%Z) ->
  new_nfam ROps RFun f hd a fa b fb h v i32 m = mkn Cpp f la lb (Mat (w_n0 v) (w_n1 v) M) m.
Proof.
  intros f hd a la fa b lb fb h v M i32 m Ha Hb H Ca Cb Cm. unfold new_nfam.
  rewrite (plain1_ok _ _ _ _ Ha Ca), (plain1_ok _ _ _ _ Hb Cb), (plain2_ok _ _ _ _ H Cm). cbn [bind]. rewrite (is_array2_chop _ _ _ H). reflexivity.
Qed.
Print Assumptions C75_ctor_nd_partial.
Theorem C75_ctor_nelm_partial : forall hd a la fa b lb fb h v l i32 m,
  is_array hd a la -> is_array hd b lb -> is_array h v l ->
  fa = false \/ v_str a = 1%Z \/ (v_len a <= 1)%nat -> fb = false \/ v_str b = 1%Z \/ (v_len b <= 1)%nat ->
  i32 = false \/ v_str v = 1%Z \/ (v_len v <= 1)%nat ->
  new_nelm ROps hd a fa b fb h v i32 m = nelm_init ROps Cpp la lb l m.
Proof.
  intros hd a la fa b lb fb h v l i32 m Ha Hb H Ca Cb Cl. unfold new_nelm.
  rewrite (plain1_ok _ _ _ _ Ha Ca), (plain1_ok _ _ _ _ Hb Cb), (plain1_ok _ _ _ _ H Cl). reflexivity.
Qed.
Print Assumptions C75_ctor_nelm_partial.

(** ** C75 is false for strided int32 arrays: every acceptable list of two or more functions is the
    value of an array, with any stride, for which [H(x, d, False)] writes outside its output,
    although it is defined for the same list in a contiguous array. *)
Theorem C75_strided_refuted : forall f x0 xf l m xs d s, (1 <= m)%nat -> valid_nC l m -> (2 <= length l)%nat ->
  (2 <= s)%nat -> xs <> [] ->
  H1 Cpp f x0 xf l m xs d false <> None /\
  exists h v B, is_array h v l /\ v_str v = Z.of_nat s /\ new_fam ROps RFun f x0 xf h v true m = Some B /\
    cpp_H_mat ROps RFun f B xs d false = None.
Proof.
  intros f x0 xf l m xs d s Hm Hv Hl Hs Hx. split; [apply C13_cpp_defined_iff; assumption|].
  destruct (spread_raw s (-1) l Hs Hl) as (r & Er & Hi).
  eexists [spread s (-1) l], (View 0 0 (Z.of_nat s) (length l)), (fam_init ROps RFun f x0 xf r m).
  split; [apply spread_is_array; lia|]. split; [reflexivity|]. split.
  { unfold new_fam, plain1. cbn [v_len]. rewrite Er. reflexivity. }
  destruct (cpp_H_mat _ _ _ _ _ _ _) as [M|] eqn:E; [|reflexivity]. exfalso.
  assert (H1 Cpp f x0 xf r m xs d false <> None) as Hn by (unfold H1; rewrite E; discriminate).
  apply C13_cpp_defined_iff in Hn; [|assumption|assumption]. revert Hn. apply (not_valid r m (-1)); [exact Hi|lia].
Qed.
Print Assumptions C75_strided_refuted.

(** the two columns of an array of bounds, one row per dimension, as [x0] and [xf]: the class takes
    the first [dim] numbers of the array, and those after the first *)
Theorem C75_columns_refuted : forall f l h v M (i32 : bool) m, l <> [] -> is_array2 h v M ->
  (if i32 then contiguous2 v = true else (Z.abs (w_s1 v) <= Z.abs (w_s0 v))%Z) ->
  let mem := concat (map (fun p => [fst p; snd p]) l) in
  let a := View 0 0 2 (length l) in let b := View 0 1 2 (length l) in
  is_array [mem] a (map fst l) /\ is_array [mem] b (map snd l) /\
  new_nfam ROps RFun f [mem] a true b true h v i32 m =
    mkn Cpp f (firstn (length l) mem) (firstn (length l) (tl mem)) (Mat (w_n0 v) (w_n1 v) M) m.
Proof.
  intros f l h v M i32 m Hl H Cm mem a b. split; [|split].
  - split; [apply map_length|]. intros i x Hx. rewrite nth_error_map in Hx. destruct (nth_error l i) as [p|] eqn:E; [|discriminate]. injection Hx as <-.
    split; [subst a b; cbn [v_off v_str]; lia|]. exists mem. split; [reflexivity|]. subst a; cbn [v_off v_str]. replace (Z.to_nat _) with (i * 2)%nat by lia. apply bounds_nth, E.
  - split; [apply map_length|]. intros i x Hx. rewrite nth_error_map in Hx. destruct (nth_error l i) as [p|] eqn:E; [|discriminate]. injection Hx as <-.
    split; [subst a b; cbn [v_off v_str]; lia|]. exists mem. split; [reflexivity|]. subst b; cbn [v_off v_str]. replace (Z.to_nat _) with (1 + i * 2)%nat by lia. apply bounds_nth, E.
  - assert (1 <= length l)%nat as Hp by (destruct l; [congruence|cbn; lia]).
    pose proof (bounds_length l) as L. fold mem in L. unfold new_nfam, plain1. subst a b. cbn [v_len].
    pose proof (raw_firstn [mem] 0 0 2 (length l) mem eq_refl ltac:(lia)) as E0.
    pose proof (raw_firstn [mem] 0 1 2 (length l) mem eq_refl ltac:(lia)) as E1.
    change (Z.of_nat 0) with 0%Z in E0. change (Z.of_nat 1) with 1%Z in E1. rewrite E0, E1, (plain2_ok _ _ _ _ H Cm). cbn [bind].
    rewrite (is_array2_chop _ _ _ H). reflexivity.
Qed.
Print Assumptions C75_columns_refuted.

(** a square matrix of removed functions in Fortran order is taken for its transpose, whatever its type *)
Theorem C75_fortran_refuted : forall f hd a la fa b lb fb n g i32 m,
  is_array hd a la -> is_array hd b lb ->
  fa = false \/ v_str a = 1%Z \/ (v_len a <= 1)%nat -> fb = false \/ v_str b = 1%Z \/ (v_len b <= 1)%nat ->
  exists h v, is_array2 h v (table n n g) /\
    new_nfam ROps RFun f hd a fa b fb h v i32 m = mkn Cpp f la lb (Mat n n (table n n (fun i j => g j i))) m.
Proof.
  intros f hd a la fa b lb fb n g i32 m Ha Hb Ca Cb. exists [fortran n n g], (fortran_view n n).
  split; [apply fortran_is_array|]. unfold new_nfam.
  rewrite (plain1_ok _ _ _ _ Ha Ca), (plain1_ok _ _ _ _ Hb Cb), fortran_plain. cbn [bind fortran_view w_n0 w_n1]. rewrite fortran_chop. reflexivity.
Qed.
Print Assumptions C75_fortran_refuted.

(** Constraints {0, 1} and {0}: one matrix and its transpose differ in the functions that are left. *)
Example C75_fortran_case :
  option_map nb_num (nd_init QOps QFun Cpp CP [0; 0]%Q [1; 1]%Q (Mat 2 2 [[0; 1]; [0; -1]]%Z) 4) = Some 8%nat /\
  option_map nb_num (nd_init QOps QFun Cpp CP [0; 0]%Q [1; 1]%Q (Mat 2 2 [[0; 0]; [1; -1]]%Z) 4) = Some 9%nat.
Proof. split; vm_compute; reflexivity. Qed.
(** the list [0; 1] every second cell; the bounds [0, 1] x [2, 5] *)
Example C75_strided_case :
  vread [[0; -1; 1; -1]]%Z (View 0 0 2 2) = Some [0; 1]%Z /\ plain1 [[0; -1; 1; -1]]%Z (View 0 0 2 2) true = Some [0; -1]%Z /\
  plain1 [[0; -1; 1; -1]]%Z (View 0 0 2 2) false = Some [0; 1]%Z /\
  plain1 [[0; 1; 2; 5]]%Z (View 0 0 2 2) true = Some [0; 1]%Z /\ plain1 [[0; 1; 2; 5]]%Z (View 0 1 2 2) true = Some [1; 2]%Z.
Proof. repeat split. Qed.
Example C75_points_case :
  cstyle2 [[1; 2; 3; 4; 5; 6]]%Z (View2 0 0 1 2 2 3) true = Some [1; 3; 5; 2; 4; 6]%Z /\ is_array2 [[1; 2; 3; 4; 5; 6]]%Z (View2 0 0 1 2 2 3) [[1; 3; 5]; [2; 4; 6]]%Z.
Proof.
  split; [reflexivity|]. split; [reflexivity|]. split; [repeat constructor|].
  intros [|[|i]] [|[|[|j]]] r x Hr Hx; try (destruct i; discriminate); injection Hr as <-; try (destruct j; discriminate);
    injection Hx as <-; (split; [cbn; lia|]; eexists; split; reflexivity).
Qed.
