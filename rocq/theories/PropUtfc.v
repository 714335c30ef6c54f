(** Properties C14 (univariate), C16, C18, C26 (univariate), C27, C29, C59, C60. *)
From Coq Require Import Reals Arith List Bool ZArith Lra QArith Lia.
From Coquelicot Require Import Coquelicot.
From Verif Require Import Base Numbers ModelBFPy ModelBFCpp SpecBasis ModelELM SpecELM ModelUtfc SpecUtfc ProofUtfc
  ModelRegistry ProofRegistry.
Import ListNotations.
Open Scope R_scope.

Definition mkQ be bs N nC deg x0 xf := utfc_init QOps QFun be bs N nC deg (Some x0) (Some xf) [] [].
Definition nojvp : (Q -> Q) -> Q -> Q -> Q := fun _ _ _ => 0%Q.

(** ** C14, univariate, C++ backend: whatever [nC], whenever the call returns a matrix, it has the
    advertised shape; *)
Theorem C14_utfc_shape_partial : forall jvp bs N nC deg x0 xf w b u xs d full M,
  mk Cpp bs N nC deg x0 xf w b = Some u -> utfc_H ROps RFun jvp u xs d full = Some M ->
  exists s, utfc_abstract u [length xs] full = Some s /\ has_shape M s.
Proof. exact c14_utfc. Qed.
Print Assumptions C14_utfc_shape_partial.
(** the Python backend advertises nothing: tracing a call fails. *)
Theorem C14_utfc_python_refuted : forall bs N nC deg x0 xf w b u shape full,
  mk Py bs N nC deg x0 xf w b = Some u -> utfc_abstract u shape full = None.
Proof. exact c14_python. Qed.
Print Assumptions C14_utfc_python_refuted.
Example C14_case : exists u M, mkQ Cpp (UB FS) 4 (NcList [1; 3]%Z) 5 0 1 = Some u /\
  utfc_abstract u [3%nat] false = Some [3; 4]%nat /\ utfc_abstract u [] true = Some [6]%nat /\
  utfc_H QOps QFun nojvp u [1; 2; 5]%Q 1 false = Some M /\ has_shape M [3; 4]%nat.
Proof.
  eexists. eexists. split; [vm_compute; reflexivity|]. split; [reflexivity|]. split; [reflexivity|].
  split; [vm_compute; reflexivity|]. exists 3%nat, 4%nat. split; [reflexivity|].
  repeat split. intros row [<-|[<-|[<-|[]]]]; reflexivity.
Qed.

(** ** C16 *)
Theorem C16_identifier_reaches_object : forall (P : Type) (h : list (rop P)) s a o,
  reg_run reg0 h = Some s -> r_heap s a = Some o ->
  exists n, o_id o = Some n /\ dispatch s n = Some o /\
    forall a' o', r_heap s a' = Some o' -> o_id o' = Some n -> a' = a.
Proof. exact @c16. Qed.
Print Assumptions C16_identifier_reaches_object.
(** and it stays so whatever happens to other objects later *)
Theorem C16_identifier_is_forever : forall (P : Type) (h h' : list (rop P)) s s' a o,
  reg_run reg0 h = Some s -> r_heap s a = Some o -> (forall b, In (Delete b) h' -> b <> a) -> reg_run s h' = Some s' ->
  exists n, o_id o = Some n /\ dispatch s n = Some o /\ dispatch s' n = Some o.
Proof. exact @c16_forever. Qed.
Print Assumptions C16_identifier_is_forever.
Theorem C16_constructions_succeed : forall (P : Type) (s : reg P) k a p,
  r_heap s a = None -> exists s', reg_step s (New k a p) = Some s'.
Proof. exact @new_ok. Qed.
Print Assumptions C16_constructions_succeed.
(** the identifier of a deleted object reaches whatever now lives at its address *)
Example C16_deleted_case : exists s, reg_run reg0 [New KCP 5 1%nat; New KnELMSin 7 2%nat; Delete 5; New KFS 5 3%nat] = Some s /\
  dispatch s 0 = Some (Obj (Some 2%nat) 3%nat) /\ dispatch s 1 = Some (Obj (Some 1%nat) 2%nat).
Proof. eexists. split; [reflexivity|]. split; reflexivity. Qed.

(** ** C18 *)
Theorem C18_collocation_points : forall be bs N nC deg x0 xf w b u,
  (2 <= N)%nat -> x0 < xf -> mk be bs N nC deg x0 xf w b = Some u ->
  length (u_x u) = N /\ nth_error (u_x u) 0 = Some x0 /\ nth_error (u_x u) (N - 1) = Some xf /\
  (forall i j xi xj, (i < j)%nat -> nth_error (u_x u) i = Some xi -> nth_error (u_x u) j = Some xj -> xi < xj) /\
  (forall x, In x (u_x u) -> x0 <= x <= xf) /\
  (forall k, (k < N)%nat -> nth_error (u_x u) k = Some (point_rule bs x0 xf (N - 1) k)).
Proof. exact c18. Qed.
Print Assumptions C18_collocation_points.
Example C18_case : exists u, mk Py (UB CP) 3 (NcInt 1) 2 0 4 [] [] = Some u /\ nth_error (u_x u) 1 = Some 2.
Proof.
  destruct (mk_some Py (UB CP) 3 (NcInt 1) [0%Z] 2 0 4 [] [] eq_refl ltac:(cbn; lia)
    ltac:(intros i [<-|[]]; lia) ltac:(left; reflexivity) ltac:(lia)) as (u & Hu).
  exists u. split; [exact Hu|].
  destruct (C18_collocation_points Py (UB CP) 3 (NcInt 1) 2 0 4 [] [] u ltac:(lia) ltac:(lra) Hu) as (_ & _ & _ & _ & _ & H).
  rewrite H by lia. cbn [point_rule cgl]. unfold cgl. cbn [Nat.sub INR].
  replace (PI * 1 / (1 + 1)) with (PI / 2) by lra. rewrite cos_PI2. f_equal. lra.
Qed.

(** ** C26, univariate.  An integer or list specification of distinct functions of the basis is
    accepted, and exactly the documented functions are removed; *)
Theorem C26_utfc_removed : forall jvp be bs N nC deg x0 xf w b removed l,
  jvp_ok jvp -> offered bs -> (2 <= N)%nat -> weights_fit bs deg w b ->
  documented nC removed -> (forall v, nC <> NcNumpy v) ->
  (forall i, removed i <-> In i l) -> valid_nC l (S deg) -> NoDup (match nC with NcInt _ => [] | NcJax v | NcList v | NcNumpy v => v end) ->
  (length l <= deg)%nat ->
  exists u, mk be bs N nC deg x0 xf w b = Some u /\
  forall xs d, can be bs d -> exists M Mc, utfc_H ROps RFun jvp u xs d true = Some M /\ utfc_H ROps RFun jvp u xs d false = Some Mc /\
    columns_removed (S deg) l M Mc /\ mc Mc = (S deg - length l)%nat.
Proof. exact c26_doc. Qed.
Print Assumptions C26_utfc_removed.
(** too many functions, or negative numbers, are rejected; *)
Theorem C26_utfc_rejected : forall be bs N nC deg x0 xf w b,
  (match nC with
   | NcInt n => (Z.of_nat deg < n)%Z
   | NcJax l | NcList l => (deg < length l)%nat \/ exists i, In i l /\ (i < 0)%Z
   | NcNumpy _ => False end) -> mk be bs N nC deg x0 xf w b = None.
Proof. exact c26_reject. Qed.
Print Assumptions C26_utfc_rejected.
(** but a list naming a function the basis does not have is accepted, and the C++ call then writes
    outside its output block. *)
Theorem C26_utfc_range_refuted : forall jvp deg, (1 <= deg)%nat -> exists u,
  mk Cpp (UB CP) 2 (NcList [Z.of_nat deg + 1]%Z) deg 0 1 [] [] = Some u /\
  forall xs d, xs <> [] -> utfc_H ROps RFun jvp u xs d false = None.
Proof. exact c26_range. Qed.
Print Assumptions C26_utfc_range_refuted.
(** A NumPy array is not accepted at all although the documentation allows any array. *)
Theorem C26_utfc_numpy_refuted : forall be bs N v deg x0 xf w b, mk be bs N (NcNumpy v) deg x0 xf w b = None.
Proof. exact (fun be bs N v deg x0 xf w b => eq_refl). Qed.
Print Assumptions C26_utfc_numpy_refuted.
Example C26_case : (u <- mkQ Cpp (UB FS) 2 (NcInt 2) 3 0 6 ;; utfc_H QOps QFun nojvp u [1]%Q 0 false)
  = (u <- mkQ Py (UB FS) 2 (NcList [1; 0]%Z) 3 0 6 ;; utfc_H QOps QFun nojvp u [1]%Q 0 false) /\
  (u <- mkQ Cpp (UB FS) 2 (NcInt 2) 3 0 6 ;; utfc_H QOps QFun nojvp u [1]%Q 0 false) <> None.
Proof. split; [vm_compute; reflexivity|vm_compute; discriminate]. Qed.

(** ** C27: for a tangent with a non-zero entry the rule returns the matrix and its directional
    derivative; *)
Theorem C27_utfc_jvp_partial : forall jvp (Hj : jvp_ok jvp) be bs N nC deg x0 xf w b u l xs dx d full,
  mk be bs N nC deg x0 xf w b = Some u ->
  utfc_nC nC = Some l -> valid_nC l (S deg) -> can be bs d -> can be bs (d + 1) -> weights_fit bs deg w b ->
  length dx = length xs -> (exists t, In t dx /\ t <> 0) ->
  exists M M1 out, utfc_H ROps RFun jvp u xs d full = Some M /\ utfc_H ROps RFun jvp u xs (d + 1) full = Some M1 /\
    utfc_jvp ROps RFun jvp u xs dx d full = Some (M, out) /\ shaped out (length xs) (mc M) /\
    (forall j k, ment out j k = match nth_error dx j, ment M1 j k with Some t, Some v => Some (v * t) | _, _ => None end) /\
    (smooth_basis bs -> forall j k, (j < length xs)%nat -> (k < mc M)%nat ->
       exists (y : R -> R) v, ment out j k = Some v /\ is_derive y 0 v /\
         forall t, exists Mt, utfc_H ROps RFun jvp u (moved xs dx t) d full = Some Mt /\ ment Mt j k = Some (y t)).
Proof. exact c27. Qed.
Print Assumptions C27_utfc_jvp_partial.
(** for the zero tangent (what [egrad] passes for every other argument) it fails. *)
Theorem C27_zero_tangent_refuted : forall jvp u xs dx d full,
  (forall t, In t dx -> t = 0) -> utfc_jvp ROps RFun jvp u xs dx d full = None.
Proof. exact c27_zero. Qed.
Print Assumptions C27_zero_tangent_refuted.
Example C27_case : exists u M, mk Py (UB FS) 2 (NcInt 0) 2 0 1 [] [] = Some u /\
  utfc_jvp ROps RFun (fun g z t => Derive g z * t) u [3; 4] [0; 5] 1 false = Some M.
Proof.
  destruct (mk_some Py (UB FS) 2 (NcInt 0) [] 2 0 1 [] [] eq_refl ltac:(cbn; lia)
    ltac:(intros i []) ltac:(cbn; auto) ltac:(lia)) as (u & Hu).
  destruct (C27_utfc_jvp_partial (fun g z t => Derive g z * t)
    (fun g z l t H => eq_trans (f_equal (fun q => q * t) (is_derive_unique _ _ _ H)) eq_refl)
    Py (UB FS) 2 (NcInt 0) 2 0 1 [] [] u [] [3; 4] [0; 5] 1 false Hu eq_refl) as (M & M1 & out & _ & _ & H & _).
  - split; [constructor|intros i []].
  - exact I.
  - exact I.
  - exact I.
  - reflexivity.
  - exists 5. split; [cbn; auto|lra].
  - eexists; eexists. split; [exact Hu|exact H].
Qed.

(** ** C29 *)
Theorem C29_hybrid_concatenates : forall jvp, jvp_ok jvp -> forall h m xs full,
  h <> [] -> (forall u, In u h -> member u (mord m)) ->
  exists Ms K, length Ms = length h /\
    (forall i u, nth_error h i = Some u -> exists M, nth_error Ms i = Some M /\ utfc_H ROps RFun jvp u xs (mord m) full = Some M) /\
    hybrid_call ROps RFun jvp h m xs full = Some K /\
    columns_concat Ms K /\ shaped K (length xs) (list_sum (map mc Ms)).
Proof. exact c29. Qed.
Print Assumptions C29_hybrid_concatenates.
Theorem C29_different_point_counts_rejected : forall l,
  (exists k k' : utfc (T:=R), In k l /\ In k' l /\ u_N k <> u_N k') -> hybrid_init l = None.
Proof. exact c29_reject. Qed.
Print Assumptions C29_different_point_counts_rejected.
Theorem C29_equal_point_counts_accepted : forall l,
  (forall k k' : utfc (T:=R), In k l -> In k' l -> u_N k = u_N k') -> hybrid_init l = Some l.
Proof. exact c29_accept. Qed.
Print Assumptions C29_equal_point_counts_accepted.
Example C29_case :
  (u <- mkQ Cpp (UB FS) 2 (NcInt 1) 1 0 1 ;; v <- mkQ Py (UB FS) 2 (NcInt 0) 1 0 6 ;; h <- hybrid_init [u; v] ;;
   M <- hybrid_call QOps QFun nojvp h hdH [0; 2]%Q false ;; Some (mr M, mc M, length (md M)))
  = Some (2, 3, 2)%nat.
Proof. vm_compute. reflexivity. Qed.

(** ** C59 *)
Theorem C59_vmap_rows : forall jvp (Hj : jvp_ok jvp) be bs N nC deg x0 xf w b u l xs d full,
  mk be bs N nC deg x0 xf w b = Some u ->
  utfc_nC nC = Some l -> valid_nC l (S deg) -> can be bs d -> weights_fit bs deg w b ->
  exists rows, vmap_H ROps RFun jvp u xs d full = Some rows /\ length rows = length xs /\
  forall j x, nth_error xs j = Some x -> exists r M, nth_error rows j = Some r /\
    utfc_H ROps RFun jvp u [x] d full = Some M /\ md M = [r] /\
    (be = Cpp -> utfc_abstract u [] full = Some [length r]).
Proof. exact c59. Qed.
Print Assumptions C59_vmap_rows.
Example C59_case : (u <- mkQ Cpp (UB FS) 3 (NcInt 1) 2 0 6 ;; vmap_H QOps QFun nojvp u [1; 2]%Q 1 false) <> None.
Proof. vm_compute. discriminate. Qed.

(** ** C60 *)
Theorem C60_named_derivatives : forall jvp (Hj : jvp_ok jvp) be bs N nC deg x0 xf w b u l xs m full,
  mk be bs N nC deg x0 xf w b = Some u ->
  utfc_nC nC = Some l -> valid_nC l (S deg) -> (forall d, (d <= 8)%nat -> can be bs d) -> weights_fit bs deg w b ->
  smooth_basis bs ->
  exists M, utfc_call ROps RFun jvp u m xs full = Some M /\
    (exists c, shaped M (length xs) c) /\
    forall j x k, nth_error xs j = Some x -> (k < mc M)%nat ->
      exists (y : R -> R) v, ment M j k = Some v /\
        (forall t, exists M0, utfc_call ROps RFun jvp u mH [t] full = Some M0 /\ ment M0 0 k = Some (y t)) /\
        is_derive_n y (match m with mH => 0 | mdH => 1 | md2H => 2 | md4H => 4 | md8H => 8 end) x v.
Proof. exact c60. Qed.
Print Assumptions C60_named_derivatives.
Example C60_case : exists u M, mk Cpp (UE Tanh) 5 (NcInt 2) 4 0 1 [1;2;3;4;5] [1;1;1;1;1] = Some u /\
  utfc_call ROps RFun (fun g z t => Derive g z * t) u md8H [3; 4] false = Some M.
Proof.
  destruct (mk_some Cpp (UE Tanh) 5 (NcInt 2) [0; 1]%Z 4 0 1 [1;2;3;4;5] [1;1;1;1;1] eq_refl ltac:(cbn; lia)
    ltac:(intros i [<-|[<-|[]]]; lia) I ltac:(lia)) as (u & Hu).
  destruct (C60_named_derivatives (fun g z t => Derive g z * t)
    (fun g z l t H => eq_trans (f_equal (fun q => q * t) (is_derive_unique _ _ _ H)) eq_refl)
    Cpp (UE Tanh) 5 (NcInt 2) 4 0 1 _ _ u [0;1]%Z [3; 4] md8H false Hu eq_refl) as (M & H & _).
  - split; [repeat constructor; cbn; intuition lia|]. intros i [<-|[<-|[]]]; lia.
  - intros d Hd. exact Hd.
  - split; reflexivity.
  - discriminate.
  - exists u, M. split; [exact Hu|exact H].
Qed.
