(** C107: assigning the attributes and weights of a compiled n-dimensional ELM object. *)
From Coq Require Import Reals Arith Lia Lra List Bool ZArith QArith.
From Coquelicot Require Import Coquelicot.
From Verif Require Import Base ProofBase Numbers ModelBFPy ModelBFCpp ProofTab ProofBFPy ProofBFCpp SpecBasis
  ProofH ModelELM SpecELM ProofELM ModelND SpecND ProofND ModelNELM SpecNELM ProofNELM ProofNELM2
  ModelAttrs ProofAttrs ModelNAttrs SpecNAttrs ProofNAttrs ModelNEAttrs SpecNEAttrs ProofNEAttrs.
Import ListNotations.
Open Scope nat_scope.

(** Whatever statements were executed, if the attributes and arrays describe the object
    [BF.nELM<f>(a, b, nC, m)] with weights [w] and biases [v], including its number of functions,
    [H] answers as that object newly made. *)
Theorem C107_as_new : forall jvpn f dim a b nC m w v o x d full n,
  jvpn_ok jvpn -> ne_args dim m w v a b -> valid_nC nC m -> ne_describes o dim a b nC m w v ->
  n_advertised (e_o o) full = Z.of_nat (ne_count nC m full) ->
  nsupported Cpp f (DArr d) -> length d <= dim -> shaped x dim n ->
  exists M, eobj_H ROps RFun f o x d full = Some M /\ HNE jvpn Cpp f w v a b nC m x (DArr d) full = Some M /\
    shaped M n (ne_count nC m full).
Proof.
  intros jvpn f dim a b nC m w v o x d full n Hj Hargs HnC Hdes Hadv Hs Hd Hx.
  exists (ne_mat f dim m w v a b (kk nC m full) d n x). split; [|split].
  - unfold eobj_H. fold (n_advertised (e_o o) full). rewrite Hadv.
    destruct (Z.ltb_spec (Z.of_nat (ne_count nC m full)) 0); [lia|]. rewrite Nat2Z.id.
    apply (eobj_run_ok o f dim m w v a b nC d n x); try assumption.
  - apply (HNE_ok jvpn Cpp f dim m w v a b nC (DArr d) full n x); try assumption. left. exact HnC.
  - rewrite <- (kk_count m nC HnC full). unfold ne_mat. repeat split; cbn [mr mc md].
    + rewrite map_length, seq_length. reflexivity.
    + intros r Hr. apply in_map_iff in Hr as (j & <- & _). rewrite map_length. reflexivity.
Qed.
Print Assumptions C107_as_new.

(** But the number of functions is an attribute of its own: with any other number the call writes
    outside its result, or returns numbers it never wrote. *)
Theorem C107_count_refuted : forall f dim a b nC m w v o x d (full : bool) n,
  ne_args dim m w v a b -> valid_nC nC m -> ne_describes o dim a b nC m w v ->
  n_advertised (e_o o) full <> Z.of_nat (ne_count nC m full) ->
  nsupported Cpp f (DArr d) -> length d <= dim -> shaped x dim (S n) ->
  eobj_H ROps RFun f o x d full = None.
Proof.
  intros f dim a b nC m w v o x d full n Hargs HnC Hdes Hadv Hs Hd Hx.
  unfold eobj_H. fold (n_advertised (e_o o) full). destruct (Z.ltb_spec (n_advertised (e_o o) full) 0); [reflexivity|].
  apply (eobj_run_none o f dim m w v a b nC d (S n) x); try assumption; lia.
Qed.
Print Assumptions C107_count_refuted.

(** A call compiled when the result had [cols] columns, run after the statements: the matrix of the
    object newly made if that is still its number of columns, memory errors otherwise. *)
Theorem C107_compiled : forall jvpn f dim a b nC m w v o x d full n cols,
  jvpn_ok jvpn -> ne_args dim m w v a b -> valid_nC nC m -> ne_describes o dim a b nC m w v ->
  nsupported Cpp f (DArr d) -> length d <= dim -> shaped x dim (S n) ->
  ecompiled_call ROps RFun f o cols x d full =
  if cols =? ne_count nC m full then HNE jvpn Cpp f w v a b nC m x (DArr d) full else None.
Proof.
  intros jvpn f dim a b nC m w v o x d full n cols Hj Hargs HnC Hdes Hs Hd Hx.
  destruct (Nat.eqb_spec cols (ne_count nC m full)) as [->|Hne].
  - rewrite (HNE_ok jvpn Cpp f dim m w v a b nC (DArr d) full (S n) x); try assumption; [|left; exact HnC].
    apply (eobj_run_ok o f dim m w v a b nC d (S n) x); assumption.
  - apply (eobj_run_none o f dim m w v a b nC d (S n) x); try assumption; lia.
Qed.
Print Assumptions C107_compiled.

(** A new object is described by its own arguments; a list of removed columns of [-1] only counts as
    no removed column. *)
Theorem C107_new : forall dim x0 xf nC m w v zf B, ne_args dim m w v x0 xf -> ne_valid nC m ->
  nelm_init ROps Cpp x0 xf nC m = Some B ->
  let o := eobj_of zf B w v in
  valid_nC (removed nC) m /\ ne_describes o dim x0 xf (removed nC) m w v /\
  forall full, n_advertised (e_o o) full = Z.of_nat (ne_count (removed nC) m full).
Proof.
  intros dim x0 xf nC m w v zf B Hargs Hv HB o.
  destruct (nelm_init_ok Cpp dim m w v x0 xf nC Hargs Hv) as (B1 & E1 & HB1). rewrite E1 in HB. injection HB as ->.
  destruct (removed_ok nC m Hv) as (Hr1 & Hr2 & Hr3). split; [exact Hr1|].
  destruct Hargs as (Hd & Hw & Hb & H0 & Hf & Hne). split.
  - unfold ne_describes, o, eobj_of, nobj_of. cbn [e_o e_nC e_w e_b p_dim p_m p_numC p_x0 p_c p_z0].
    rewrite (neo_dim _ _ _ _ _ _ HB1), (neo_m _ _ _ _ _ _ HB1), (neo_numC _ _ _ _ _ _ HB1), (neo_nC _ _ _ _ _ _ HB1),
      (neo_x0 _ _ _ _ _ _ HB1), (neo_c _ _ _ _ _ _ HB1), (neo_z0 _ _ _ _ _ _ HB1).
    split; [reflexivity|]. split; [reflexivity|]. split; [apply firstn_all2; lia|]. split; [apply firstn_all2; lia|].
    split; [rewrite Nat2Z.id; exact Hr2|]. split; [exact Hr3|].
    intros k Hk. exists (nth k x0 0%R), (nci x0 xf k). split; [apply nth_error_nth'; lia|].
    split; [rewrite nth_error_map_seq; destruct (Nat.ltb_spec k dim); [reflexivity|lia]|].
    intros t. symmetry. apply map_01.
  - intros full. unfold n_advertised, o, eobj_of, nobj_of. cbn [e_o p_numFull p_num].
    rewrite (neo_num _ _ _ _ _ _ HB1), (neo_full _ _ _ _ _ _ HB1), Hr2. destruct full; reflexivity.
Qed.
Print Assumptions C107_new.

(** [obj.w = u] with an array of shape (dim, m), [obj.b = u] with [m] numbers: the object is the one
    with these weights (biases) and is otherwise unchanged, and the attributes return them. *)
Theorem C107_weights : forall o dim a b nC m w v u t sh,
  ne_args dim m w v a b -> ne_describes o dim a b nC m w v -> length u = dim * m -> length t = m ->
  (exists o' W, eobj_set o (ESet_w [dim; m] u) = Some (EDone o') /\ e_o o' = e_o o /\
     ne_describes o' dim a b nC m u v /\ ne_args dim m u v a b /\
     eobj_w o' = Some W /\ shaped W dim m /\ (forall i k, i < dim -> k < m -> ment W i k = at_row m u i k) /\
     eobj_b o' = Some v) /\
  (exists o' W, eobj_set o (ESet_b sh t) = Some (EDone o') /\ e_o o' = e_o o /\
     ne_describes o' dim a b nC m w t /\ ne_args dim m w t a b /\ eobj_b o' = Some t /\
     eobj_w o' = Some W /\ shaped W dim m /\ (forall i k, i < dim -> k < m -> ment W i k = at_row m w i k)).
Proof.
  intros o dim a b nC m w v u t sh (Hd & Hw & Hb & H0 & Hf & Hne) (D1 & D2 & D3 & D4 & D5 & D6 & D7) Hu Hlt.
  assert (Lw : dim * m <= length (e_w o)) by (rewrite <- D3, firstn_length in Hw; lia).
  assert (Lb : m <= length (e_b o)) by (rewrite <- D4, firstn_length in Hb; lia).
  assert (En : Z.to_nat (Z.of_nat m * Z.of_nat dim) = dim * m) by lia.
  split.
  - cbn [eobj_set]. rewrite D1, D2, !Z.eqb_refl. cbn [negb orb]. rewrite En, put_cells_ok by lia. cbn [bind].
    rewrite firstn_all2 by lia. set (w' := u ++ skipn (dim * m) (e_w o)).
    assert (Hl' : dim * m <= length w') by (unfold w'; rewrite app_length; lia).
    assert (Hf' : firstn (dim * m) w' = u).
    { unfold w'. rewrite firstn_app, Hu, Nat.sub_diag, firstn_O, app_nil_r. apply firstn_all2. lia. }
    destruct (eobj_w_ok (EObj (e_o o) (e_nC o) w' (e_b o)) dim m D1 D2 Hl') as (W & EW & HW & HWe).
    cbn [e_w] in HWe. rewrite Hf' in HWe.
    exists (EObj (e_o o) (e_nC o) w' (e_b o)), W. split; [reflexivity|]. split; [reflexivity|].
    split; [unfold ne_describes; cbn [e_o e_nC e_w e_b]; auto 10|].
    split; [unfold ne_args; auto 10|]. split; [exact EW|]. split; [exact HW|]. split; [exact HWe|].
    rewrite <- D4. exact (eobj_b_ok (EObj (e_o o) (e_nC o) w' (e_b o)) m D2 Lb).
  - cbn [eobj_set]. rewrite D2, Hlt, Z.eqb_refl. cbn [negb]. rewrite Nat2Z.id, put_cells_ok by lia. cbn [bind].
    rewrite firstn_all2 by lia. set (b' := t ++ skipn m (e_b o)).
    assert (Hl' : m <= length b') by (unfold b'; rewrite app_length; lia).
    assert (Hf' : firstn m b' = t).
    { unfold b'. rewrite firstn_app, Hlt, Nat.sub_diag, firstn_O, app_nil_r. apply firstn_all2. lia. }
    destruct (eobj_w_ok (EObj (e_o o) (e_nC o) (e_w o) b') dim m D1 D2 Lw) as (W & EW & HW & HWe).
    cbn [e_w] in HWe. rewrite D3 in HWe.
    exists (EObj (e_o o) (e_nC o) (e_w o) b'), W. split; [reflexivity|]. split; [reflexivity|].
    split; [unfold ne_describes; cbn [e_o e_nC e_w e_b]; auto 10|].
    split; [unfold ne_args; auto 10|]. split; [|split; [exact EW|]; split; [exact HW|exact HWe]].
    transitivity (Some (firstn m b')); [|rewrite Hf'; reflexivity].
    exact (eobj_b_ok (EObj (e_o o) (e_nC o) (e_w o) b') m D2 Hl').
Qed.
Print Assumptions C107_weights.

(** Arrays of another size end the whole program, and a vector of all the weights is refused; the
    Python classes take any array with the right number of entries and raise an exception otherwise. *)
Theorem C107_size_refuted : forall (o : eobj R) dim m r c u sh (B : nbasis (T:=R)) w v,
  p_dim (e_o o) = Z.of_nat dim -> p_m (e_o o) = Z.of_nat m -> nb_dim B = dim -> nb_m B = m ->
  (r <> dim \/ c <> m -> eobj_set o (ESet_w [r; c] u) = Some EExit) /\
  (length u <> m -> eobj_set o (ESet_b sh u) = Some EExit) /\
  (length sh <> 2 -> eobj_set o (ESet_w sh u) = None) /\
  py_eobj_set (B, w, v) (ESet_w sh u) = (if length u =? dim * m then Some (B, u, v) else None) /\
  py_eobj_set (B, w, v) (ESet_b sh u) = (if length u =? m then Some (B, w, u) else None).
Proof.
  intros o dim m r c u sh B w v D1 D2 B1 B2. split; [|split; [|split; [|split]]].
  - intros H. cbn [eobj_set]. rewrite D1, D2.
    destruct (Z.eqb_spec (Z.of_nat c) (Z.of_nat m)), (Z.eqb_spec (Z.of_nat r) (Z.of_nat dim)); cbn [negb orb]; try reflexivity. lia.
  - intros H. cbn [eobj_set]. rewrite D2. destruct (Z.eqb_spec (Z.of_nat (length u)) (Z.of_nat m)); [lia|reflexivity].
  - intros H. cbn [eobj_set]. destruct sh as [|? [|? [|? ?]]]; try reflexivity. cbn in H. lia.
  - cbn [py_eobj_set]. rewrite B1, B2, (Nat.mul_comm m dim). reflexivity.
  - cbn [py_eobj_set]. rewrite B2. reflexivity.
Qed.
Print Assumptions C107_size_refuted.

(** [obj.m = m'] with fewer functions does not keep the first [m'] functions: the array of weights is
    cut anew into rows of [m'] numbers, so no row but the first keeps its weights. *)
Theorem C107_m_refuted : forall o dim a b nC m w v m',
  ne_args dim m w v a b -> ne_describes o dim a b nC m w v -> m' < m ->
  exists o' W, eobj_set o (ESet (NSet_m (Z.of_nat m'))) = Some (EDone o') /\
    ne_args dim m' (firstn (dim * m') w) (firstn m' v) a b /\
    ne_describes o' dim a b nC m' (firstn (dim * m') w) (firstn m' v) /\
    eobj_b o' = Some (firstn m' v) /\ eobj_w o' = Some W /\ shaped W dim m' /\
    forall i k, i < dim -> k < m' -> ment W i k = nth_error w (i * m' + k) /\
      (NoDup w -> 1 <= i -> ment W i k <> at_row m w i k).
Proof.
  intros o dim a b nC m w v m' (Hd & Hw & Hb & H0 & Hf & Hne) (D1 & D2 & D3 & D4 & D5 & D6 & D7) Hlt.
  assert (Hle : dim * m' <= dim * m) by nia.
  assert (Lw : dim * m <= length (e_w o)) by (rewrite <- D3, firstn_length in Hw; lia).
  assert (Lb : m <= length (e_b o)) by (rewrite <- D4, firstn_length in Hb; lia).
  cbn [eobj_set nobj_set bind]. set (o' := EObj _ _ _ _).
  destruct (eobj_w_ok o' dim m' D1 eq_refl) as (W & EW & HW & HWe); [cbn [o' e_w]; lia|].
  assert (Ew : firstn (dim * m') (e_w o) = firstn (dim * m') w).
  { rewrite <- D3, firstn_firstn, Nat.min_l by lia. reflexivity. }
  assert (Eb : firstn m' (e_b o) = firstn m' v).
  { rewrite <- D4, firstn_firstn, Nat.min_l by lia. reflexivity. }
  exists o', W. split; [reflexivity|].
  split; [unfold ne_args; rewrite !firstn_length_le by lia; auto 10|].
  split; [unfold ne_describes, o'; cbn [e_o e_nC e_w e_b p_dim p_m p_numC p_x0 p_c p_z0]; auto 10|].
  split; [rewrite <- Eb; apply (eobj_b_ok o' m' eq_refl); cbn [o' e_b]; lia|].
  split; [exact EW|]. split; [exact HW|]. intros i k Hi Hk.
  assert (E : ment W i k = nth_error w (i * m' + k)).
  { rewrite HWe by assumption. cbn [o' e_w]. rewrite Ew. unfold at_row.
    rewrite <- (firstn_skipn (dim * m') w) at 2. symmetry. apply nth_error_app1. rewrite firstn_length_le by lia. nia. }
  split; [exact E|]. intros Hnd Hi1 Heq. rewrite E in Heq. unfold at_row in Heq.
  assert (L : i * m' + k < length w) by nia.
  apply (proj1 (NoDup_nth_error w) Hnd _ _ L) in Heq. nia.
Qed.
Print Assumptions C107_m_refuted.

(** More functions or dimensions than weights, or more removed columns than the constructor was
    given: memory outside the arrays is read, and written by [obj.w = u] and [obj.b = u]. *)
Theorem C107_range_refuted : forall (o : eobj R) f x d (full : bool) dim m,
  p_dim (e_o o) = Z.of_nat dim -> p_m (e_o o) = Z.of_nat m -> 1 <= mc x ->
  (length (e_b o) < m -> eobj_b o = None /\ (forall sh u, length u = m -> eobj_set o (ESet_b sh u) = None) /\
     ((f = ReLU -> list_sum d <= 1) -> eobj_H ROps RFun f o x d full = None)) /\
  (length (e_w o) < dim * m -> eobj_w o = None /\ (forall u, eobj_set o (ESet_w [dim; m] u) = None) /\
     ((f = ReLU -> list_sum d <= 1) -> eobj_H ROps RFun f o x d full = None)) /\
  (forall j, j < m -> ~ In (Z.of_nat j) (e_nC o) -> (Z.of_nat (length (e_nC o)) < p_numC (e_o o))%Z ->
     eobj_H ROps RFun f o x d false = None).
Proof.
  intros o f x d full dim m D1 D2 Hn.
  assert (HH : forall k, k < m -> (f = ReLU -> list_sum d <= 1) ->
     (forall z j, bind (cpp_ne_dot ROps dim m (mc x) (bof (e_w o)) z j k) (fun _ => brd (bof (e_b o)) k) = None) ->
     eobj_H ROps RFun f o x d full = None).
  { intros k Hk Hr Hb. unfold eobj_H. destruct (_ <? 0)%Z; [reflexivity|]. unfold ecompiled_call, eobj_nHint.
    rewrite (nobj_nb_ok (e_o o) dim m _ D1 D2). cbn [bind]. destruct (cpp_nd_z _ _ _ _) as [z|]; cbn [bind]; [|reflexivity].
    cbv zeta. cbn [nobjB nb_dim nb_m nb_c]. rewrite D1, D2, !Nat2Z.id.
    assert (E : forall F, cpp_nelm_hint ROps RFun f dim m (p_c (e_o o)) (bof (e_w o)) (bof (e_b o)) d z (mc x) F = None).
    { intros F. apply (hint_none f dim m _ _ _ d z (mc x) F k); [exact Hn|exact Hk|exact Hr|apply Hb]. }
    rewrite !E. destruct (_ || _)%bool; reflexivity. }
  assert (Hout : forall l : list R, brd (bof l) (length l) = None).
  { intros l. unfold brd, bof. cbn [blen]. rewrite Nat.ltb_irrefl. reflexivity. }
  split; [|split].
  - intros Hb. split; [|split].
    + unfold eobj_b. rewrite D2. destruct (_ <? 0)%Z; [reflexivity|]. rewrite Nat2Z.id.
      apply (mapM_none _ _ (length (e_b o))); [apply in_seq; lia|]. apply nth_error_None. lia.
    + intros sh u Hu. cbn [eobj_set]. rewrite D2, Hu, Z.eqb_refl. cbn [negb]. rewrite put_cells_none by lia. reflexivity.
    + intros Hr. apply (HH (length (e_b o)) Hb Hr). intros z j. apply bind_none. intros _. apply Hout.
  - intros Hw. assert (Hm : m <> 0) by nia.
    assert (Hdiv : length (e_w o) = length (e_w o) / m * m + length (e_w o) mod m).
    { rewrite (Nat.mul_comm _ m). apply Nat.div_mod, Hm. }
    assert (Hi : length (e_w o) / m < dim) by (apply Nat.div_lt_upper_bound; [exact Hm|lia]).
    assert (Hk : length (e_w o) mod m < m) by (apply Nat.mod_upper_bound, Hm).
    set (i := length (e_w o) / m) in *. set (k := length (e_w o) mod m) in *.
    split; [|split].
    + unfold eobj_w. rewrite D1, D2. destruct (_ || _)%bool; [reflexivity|]. cbv zeta. rewrite !Nat2Z.id.
      rewrite (mapM_none _ _ i); [reflexivity|apply in_seq; lia|].
      apply (mapM_none _ _ k); [apply in_seq; lia|]. apply nth_error_None. lia.
    + intros u. cbn [eobj_set]. rewrite D1, D2, !Z.eqb_refl. cbn [negb orb]. rewrite put_cells_none by lia. reflexivity.
    + intros Hr. apply (HH k Hk Hr). intros z j. unfold cpp_ne_dot.
      rewrite (for_none_at _ _ _ _ i); [reflexivity|lia|]. intros s. rewrite <- Hdiv, Hout. reflexivity.
  - intros j Hj Hnot Hlen. unfold eobj_H. destruct (_ <? 0)%Z; [reflexivity|]. unfold ecompiled_call, eobj_nHint.
    rewrite (nobj_nb_ok (e_o o) dim m _ D1 D2). cbn [bind]. destruct (cpp_nd_z _ _ _ _) as [z|]; cbn [bind]; [|reflexivity].
    cbv zeta. destruct (Z.eqb_spec (p_numC (e_o o)) 0); [lia|]. cbn [orb nobjB nb_dim nb_m nb_c]. rewrite D2, Nat2Z.id.
    destruct (cpp_nelm_hint _ _ _ _ _ _ _ _ _ _ _ _) as [dk|]; cbn [bind]; [|reflexivity].
    unfold eobj_emit. rewrite (for_none_at _ _ _ _ j); [reflexivity|lia|].
    intros [i b]. rewrite listed_none by (exact Hnot || lia). reflexivity.
Qed.
Print Assumptions C107_range_refuted.

(** two dimensions on [0, 1], three neurons; then two neurons (which are not the first two: the
    second row of weights is now 3, 10); weights and biases replaced; a removed column forgotten *)
Definition c107_base := cpp_nelm_init QOps [0; 0]%Q [1; 1]%Q [1%Z] 3.
Definition c107_run (l : list (eassign Q)) d full :=
  B <- c107_base ;; r <- eobj_sets (eobj_of 1%Q B [1; 2; 3; 10; 20; 30]%Q [0; 0; 1]%Q) l ;;
  match r with EDone o => eobj_H QOps QFun ReLU o (Mat 2 1 [[1]; [2]])%Q d full | EExit => Some (Mat 0 0 []) end.
Example C107_case :
  c107_run [] [0; 0] true = Some (Mat 1 3 [[21; 42; 64]])%Q /\
  c107_run [] [0; 1] false = Some (Mat 1 2 [[10; 30]])%Q /\
  c107_run [ESet (NSet_m 2)] [0; 0] true = None /\
  c107_run [ESet (NSet_m 2); ESet (NSet_numFull 2)] [0; 0] true = Some (Mat 1 2 [[7; 22]])%Q /\
  c107_run [ESet (NSet_m 2); ESet (NSet_numFull 2); ESet_w [2; 2] [1; 2; 10; 20]%Q] [0; 0] true = Some (Mat 1 2 [[21; 42]])%Q /\
  c107_run [ESet_b [1; 3] [5; 6; 7]%Q; ESet (NSet_numC 0); ESet (NSet_num 3)] [0; 0] false = Some (Mat 1 3 [[26; 48; 70]])%Q /\
  c107_run [ESet_w [3; 2] [1; 2; 10; 20; 3; 4]%Q] [0; 0] true = Some (Mat 0 0 []) /\
  c107_run [ESet_w [6] [1; 2; 10; 20; 3; 4]%Q] [0; 0] true = None /\
  c107_run [ESet (NSet_m 4); ESet (NSet_numFull 4)] [0; 0] true = None.
Proof. vm_compute. repeat split. Qed.
