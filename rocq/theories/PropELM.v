(** Properties C10, C11, C12, C57 and the ELM cases of C08, C13, C15. *)
From Coq Require Import Reals Arith List Bool ZArith Lra QArith Lia.
From Coquelicot Require Import Coquelicot.
From Verif Require Import Base Numbers ModelBFPy ModelBFCpp SpecBasis ModelELM SpecELM ProofELM
  ModelWeights SpecWeights ProofWeights.
Import ListNotations.
Open Scope R_scope.

(** the hypothesis on jax's jvp is met by the derivative itself *)
Example jvp_ok_case : jvp_ok (fun g z t => Derive g z * t).
Proof. intros g z l t H. rewrite (is_derive_unique _ _ _ H). reflexivity. Qed.

(** ** C10 *)
Theorem C10_sine_derivatives : forall jvp be w b x0 xf nC xs d,
  jvp_ok jvp -> length b = length w -> x0 <> xf ->
  exists M, HE jvp be Sin w b x0 xf nC xs d true = Some M /\ neuron_matrix everywhere Sin w b x0 xf xs d M.
Proof. exact c10. Qed.
Print Assumptions C10_sine_derivatives.

Example C10_case : exists M v, HE (fun g z t => Derive g z * t) Cpp Sin [2; 3] [0; 1] 1 3 [] [5; 1] 3 true = Some M
  /\ ment M 1 0 = Some v /\ is_derive_n (fun t => sin (2 * ((t - 1) / (3 - 1)) + 0)) 3 1 v.
Proof.
  destruct (C10_sine_derivatives _ Cpp [2; 3] [0; 1] 1 3 [] [5; 1] 3 jvp_ok_case eq_refl ltac:(lra)) as (M & E & _ & H).
  destruct (H 1%nat 0%nat 1 eq_refl ltac:(cbn; lia) I) as (v & Ev & Hv).
  exists M, v. split; [exact E|]. split; [exact Ev|exact Hv].
Qed.

(** ** C11: Python for every order, C++ up to order 8.
    Missing for the full property: orders above 8 on the C++ backend, where it is false. *)
Theorem C11_activation_derivatives_partial : forall jvp be f w b x0 xf nC xs d,
  f = Sigmoid \/ f = Tanh \/ f = Swish -> jvp_ok jvp -> supported be f d ->
  length b = length w -> x0 <> xf ->
  exists M, HE jvp be f w b x0 xf nC xs d true = Some M /\ neuron_matrix everywhere f w b x0 xf xs d M.
Proof.
  exact (fun jvp be f w b x0 xf nC xs d Hf Hj Hs => c10_11 jvp be f w b x0 xf nC xs d Hj (elm_ok_of be f d Hf Hs)).
Qed.
Print Assumptions C11_activation_derivatives_partial.

(** from order 9 on the C++ sigmoid and tanh matrices are the undifferentiated values times
    the domain-map factor, *)
Theorem C11_order_nine_is_not_a_derivative : forall jvp f w b x0 xf nC xs d,
  f = Sigmoid \/ f = Tanh -> (9 <= d)%nat -> length b = length w ->
  exists M, HE jvp Cpp f w b x0 xf nC xs d true = Some M /\
  forall j k x, nth_error xs j = Some x -> (k < length w)%nat ->
    ment M j k = Some (neuron f w b x0 xf k x * (/ (xf - x0)) ^ d).
Proof. exact c11_untabulated. Qed.
Print Assumptions C11_order_nine_is_not_a_derivative.
(** so the full property fails for every such order; *)
Theorem C11_refuted : forall jvp f d, f = Sigmoid \/ f = Tanh -> (9 <= d)%nat ->
  exists w b x0 xf xs M, HE jvp Cpp f w b x0 xf [] xs d true = Some M /\
    ~ neuron_matrix everywhere f w b x0 xf xs d M.
Proof. exact (fun jvp f d Hf Hd => ex_intro _ [0] (ex_intro _ [1] (ex_intro _ 0 (ex_intro _ 1 (ex_intro _ [0] (c11_refuted jvp f d Hf Hd)))))). Qed.
Print Assumptions C11_refuted.
(** and the C++ swish matrix is read uninitialised. *)
Theorem C11_swish_refuted : forall jvp w b x0 xf nC xs d,
  (9 <= d)%nat -> length b = length w -> w <> [] -> xs <> [] ->
  HE jvp Cpp Swish w b x0 xf nC xs d true = None.
Proof. exact c11_swish_undefined. Qed.
Print Assumptions C11_swish_refuted.

Example C11_case : exists M v, HE (fun g z t => Derive g z * t) Cpp Swish [2; 3] [0; 1] 1 3 [] [5; 1] 8 true = Some M
  /\ ment M 0 1 = Some v
  /\ is_derive_n (fun t => (3 * ((t - 1) / (3 - 1)) + 1) / (1 + exp (- (3 * ((t - 1) / (3 - 1)) + 1)))) 8 5 v.
Proof.
  destruct (C11_activation_derivatives_partial _ Cpp Swish [2; 3] [0; 1] 1 3 [] [5; 1] 8 (or_intror (or_intror eq_refl))
    jvp_ok_case ltac:(cbn; lia) eq_refl ltac:(lra)) as (M & E & _ & H).
  destruct (H 0%nat 1%nat 5 eq_refl ltac:(cbn; lia) I) as (v & Ev & Hv).
  exists M, v. split; [exact E|]. split; [exact Ev|exact Hv].
Qed.

(** ** C12: C++ for every order, Python up to order 1.
    Missing: Python orders >= 2, whose matrix has the wrong shape. *)
Theorem C12_relu_partial : forall jvp be w b x0 xf nC xs d,
  supported be ReLU d -> length b = length w -> x0 <> xf ->
  exists M, HE jvp be ReLU w b x0 xf nC xs d true = Some M /\
    neuron_matrix (off_kink w b x0 xf) ReLU w b x0 xf xs d M.
Proof. exact c12_any. Qed.
Print Assumptions C12_relu_partial.
(** Python orders >= 2: as many rows as basis functions and as many columns as points *)
Theorem C12_shape_refuted : forall jvp w b x0 xf nC xs d, (2 <= d)%nat ->
  exists M, HE jvp Py ReLU w b x0 xf nC xs d true = Some M /\ shaped M (length w) (length xs) /\
    (length xs <> length w -> ~ shaped M (length xs) (length w)).
Proof. exact c12_shape_bad. Qed.
Print Assumptions C12_shape_refuted.

Example C12_computed :
  HEQ Cpp ReLU [2; -3]%Q [1; 1]%Q 0 2 [] [1; 4; 0]%Q 1 true = Some (Mat 3 2 [[1; 0]; [1; 0]; [1; (-3)#2]])%Q
  /\ HEQ Py ReLU [2; -3]%Q [1; 1]%Q 0 2 [] [1; 4; 0]%Q 1 true = Some (Mat 3 2 [[1; 0]; [1; 0]; [1; (-3)#2]])%Q
  /\ HEQ Py ReLU [2; -3]%Q [1; 1]%Q 0 2 [] [1; 4; 0]%Q 2 true = Some (Mat 2 3 [[0; 0; 0]; [0; 0; 0]])%Q.
Proof. repeat split; vm_compute; reflexivity. Qed.

(** ** C08, C13, C15 for the ELM families *)
Theorem C08_elm_backends_agree_partial : forall jvp f w b x0 xf nC xs d full,
  jvp_ok jvp -> supported Py f d -> supported Cpp f d -> length b = length w -> valid_nC nC (length w) ->
  exists M, HE jvp Py f w b x0 xf nC xs d full = Some M /\ HE jvp Cpp f w b x0 xf nC xs d full = Some M.
Proof. exact HE_backends. Qed.
Print Assumptions C08_elm_backends_agree_partial.

Theorem C13_elm_columns_removed : forall jvp be f w b x0 xf nC xs d,
  jvp_ok jvp -> supported be f d -> length b = length w -> valid_nC nC (length w) ->
  exists M Mc, HE jvp be f w b x0 xf nC xs d true = Some M /\ HE jvp be f w b x0 xf nC xs d false = Some Mc /\
    columns_removed (length w) nC M Mc /\ mc Mc = (length w - length nC)%nat.
Proof. exact HE_removed. Qed.
Print Assumptions C13_elm_columns_removed.

Theorem C15_elm_compiled_equals_eager : forall jvp f w b x0 xf nC xs d full out M,
  supported Cpp f d -> length b = length w -> valid_nC nC (length w) ->
  HE jvp Cpp f w b x0 xf nC xs d full = Some M -> blen out = (mr M * mc M)%nat ->
  exists bb, cpp_xla_with ROps (cpp_elm_hint ROps RFun f (length w) (bof w) (bof b))
      (elm_init ROps x0 xf nC (length w)) (bof xs) d full (mr M) (mc M) out = Some bb
    /\ buf_matrix bb (mr M) (mc M) = Some (md M).
Proof. exact HE_xla. Qed.
Print Assumptions C15_elm_compiled_equals_eager.

Example C13_elm_case : HEQ Cpp ReLU [2; -3; 1]%Q [1; 1; 0]%Q 0 2 [0; 2]%Z [1; 4]%Q 0 false = Some (Mat 2 1 [[0]; [0]])%Q
  /\ HEQ Py ReLU [2; -3; 1]%Q [1; 1; 0]%Q 0 2 [0; 1]%Z [1; 4]%Q 0 false = Some (Mat 2 1 [[1#2]; [2]])%Q.
Proof. split; vm_compute; reflexivity. Qed.
Example C13_elm_valid : valid_nC [0; 2]%Z 3.
Proof.
  split; [repeat constructor; cbn; intuition discriminate|].
  intros i [<-|[<-|[]]]; split; reflexivity || (intro; discriminate).
Qed.

(** ** C57 *)
(** C++: every observation is the expected one until the process exits on a rejected
    assignment; arrays assigned must be contiguous.  The caller may write to any array. *)
Theorem C57_cpp_weights_partial : forall (T O : Type) (Hf : list T -> list T -> O) m h w b ops,
  List.Forall contiguous ops ->
  cpp_run Hf m (CppSt h w b) ops = until_exit (spec_run Hf m (Sst h w b) ops).
Proof. exact (fun T O Hf m h w b ops Hc => cpp_weights Hf m ops Hc h w b). Qed.
Print Assumptions C57_cpp_weights_partial.
(** Python: every observation is the expected one as long as the caller does not write to
    the arrays. *)
Theorem C57_py_weights_partial : forall (T O : Type) (Hf : list T -> list T -> O) m h vw vb w b ops,
  contents h vw = Some w -> contents h vb = Some b ->
  List.Forall not_poke ops -> List.Forall (readable h) ops ->
  py_run Hf m (PySt h vw vb) ops = spec_run Hf m (Sst h w b) ops.
Proof. exact (fun T O Hf m h vw vb w b ops Hw Hb Hp Hr => py_weights0 Hf m ops h vw vb w b Hp Hr Hw Hb). Qed.
Print Assumptions C57_py_weights_partial.
(** Python, whatever the caller does: the object shows the arrays last accepted, with the values
    they have now. *)
Theorem C57_py_current : forall (T O : Type) (Hf : list T -> list T -> O) m h vw vb ops,
  let w := now_contents h ops (last_w m ops vw) in
  let b := now_contents h ops (last_b m ops vb) in
  py_run Hf m (PySt h vw vb) (ops ++ [GetW; GetB; Eval]) =
  py_run Hf m (PySt h vw vb) ops ++
    [match w with Some l => Arr l | None => Fault end; match b with Some l => Arr l | None => Fault end;
     match w, b with Some w, Some b => Mtx (Hf w b) | _, _ => Fault end].
Proof. exact (fun T O Hf m h vw vb ops => py_current Hf m ops h vw vb). Qed.
Print Assumptions C57_py_current.
Example C57_py_current_case :
  py_run (fun w b => (w, b)) 2 (PySt [[1; 2; 3; 4]; [7; 8]]%Z (View 1 0 1 2) (View 1 0 1 2))
    ([SetW (View 0 3 (-2) 2); Poke 0 1 9; SetB (View 0 0 1 3); Poke 1 0 5; Poke 0 0 6] ++ [GetW; GetB; Eval])%Z
  = [Done; Done; Rejected; Done; Done; Arr [4; 9]; Arr [5; 8]; Mtx ([4; 9], [5; 8])]%Z.
Proof. reflexivity. Qed.

(** The three restrictions cannot be dropped.  Python keeps a reference to the caller's array: *)
Theorem C57_py_alias_refuted : forall (Hf : list Z -> list Z -> Z), exists h vw vb w b ops,
  contents h vw = Some w /\ contents h vb = Some b /\ List.Forall (readable h) ops /\ List.Forall contiguous ops /\
  py_run Hf 2 (PySt h vw vb) ops <> spec_run Hf 2 (Sst h w b) ops.
Proof. exact c57_alias. Qed.
Print Assumptions C57_py_alias_refuted.
(** C++ ignores the stride of the caller's array: *)
Theorem C57_cpp_stride_refuted : forall (Hf : list Z -> list Z -> Z), exists h w b ops,
  List.Forall (readable h) ops /\ List.Forall not_poke ops /\
  cpp_run Hf 2 (CppSt h w b) ops <> until_exit (spec_run Hf 2 (Sst h w b) ops).
Proof. exact c57_stride. Qed.
Print Assumptions C57_cpp_stride_refuted.
(** C++ does not reject a wrong size, it ends the process: *)
Theorem C57_cpp_exit_refuted : forall (Hf : list Z -> list Z -> Z), exists h w b ops,
  List.Forall (readable h) ops /\ List.Forall not_poke ops /\ List.Forall contiguous ops /\
  cpp_run Hf 2 (CppSt h w b) ops <> spec_run Hf 2 (Sst h w b) ops.
Proof. exact c57_exit. Qed.
Print Assumptions C57_cpp_exit_refuted.

Example C57_case :
  let h := [[1; 2; 3; 4]; [10; 20]; [7; 8]]%Z in
  let ops := [GetW; SetW (View 0 1 2 2); GetW; SetB (View 0 0 1 3); GetB; Eval] in
  List.Forall not_poke ops /\ List.Forall (readable h) ops /\
  py_run (fun w b => (w, b)) 2 (PySt h (View 1 0 1 2) (View 2 0 1 2)) ops
  = [Arr [10; 20]; Done; Arr [2; 4]; Rejected; Arr [7; 8]; Mtx ([2; 4], [7; 8])]%Z.
Proof.
  cbv zeta. split; [repeat constructor|]. split; [|reflexivity].
  repeat constructor; cbn; eexists; reflexivity.
Qed.
Example C57_cpp_case :
  let h := [[1; 2; 3; 4]]%Z in
  let ops := [SetW (View 0 1 1 2); Poke 0 1 9; GetW; SetB (View 0 0 1 3); GetB]%Z in
  List.Forall contiguous ops /\
  cpp_run (fun w b => (w, b)) 2 (CppSt h [10; 20]%Z [7; 8]%Z) ops = [Done; Done; Arr [2; 3]; Exited]%Z.
Proof. cbv zeta. split; [repeat constructor|reflexivity]. Qed.
