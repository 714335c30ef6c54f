(** C91: an ELM basis in double precision.  The compiled implementation returns numbers for every
    moderate input, also for saturated neurons; the Python implementation of the sigmoid
    returns NaN as soon as a neuron is saturated. *)
From Coq Require Import ZArith Reals Lia Lra List Arith Bool.
From Flocq Require Import Core BinarySingleNaN.
From Verif Require Import Base Numbers64 ModelBFPy ModelBFCpp SpecBasis ProofH ModelELM SpecELM SpecELM64 ProofBits64 ProofELM64 ProofELM64b.
Import ListNotations.
Open Scope R_scope.

(** weights, biases, domain and points of moderate size: the compiled matrix of any order up to 8
    exists and has no infinite and no NaN entry *)
Theorem C91_compiled_finite jvp E f w b x0 xf nC xs d (full : bool) : libm_ok E -> (d <= 8)%nat ->
  length b = length w -> valid_nC nC (length w) ->
  (forall v, In v w -> moderate v) -> (forall v, In v b -> moderate v) -> moderate_domain x0 xf ->
  (forall x, In x xs -> in_domain x0 xf x) ->
  exists M, HE64 jvp Cpp E f w b x0 xf nC xs d full = Some M /\ mr M = length xs /\ all_finite M.
Proof.
  intros HE Hd Hb Hv Hw Hbs HD Hx.
  assert (H : exists M, HE64 jvp Cpp E f w b x0 xf nC xs d full = Some M /\ mr M = length xs).
  { unfold HE64. rewrite (gecpp_H F64 E f w b (elm_init F64 x0 xf nC (length w)) xs d full);
      [eexists; split; reflexivity|destruct f; cbn; lia|exact Hb|reflexivity|exact Hv]. }
  destruct H as (M & EM & Hr). exists M. split; [exact EM|]. split; [exact Hr|].
  exact (compiled_finite E f w b x0 xf nC xs d full M jvp HE Hd Hb Hv Hw Hbs HD Hx EM).
Qed.
Print Assumptions C91_compiled_finite.

(** at order 0 the two implementations perform the same operations: the same bits for every
    weight, bias, domain and point, provided they call the same functions *)
Theorem C91_order0_same E jvp f w b x0 xf nC xs (full : bool) : length b = length w -> valid_nC nC (length w) ->
  HE64 jvp Py E f w b x0 xf nC xs 0 full = HE64 jvp Cpp E f w b x0 xf nC xs 0 full.
Proof. apply order0. Qed.
Print Assumptions C91_order0_same.

(** a neuron whose exponential overflows: the first derivative is NaN in Python, a number in the
    compiled matrix *)
Theorem C91_python_nan_refuted E jvp w b x0 xf nC x k : libm_ok E -> exp_overflows E ->
  length b = length w -> valid_nC nC (length w) ->
  (forall v, In v w -> moderate v) -> (forall v, In v b -> moderate v) -> moderate_domain x0 xf ->
  in_domain x0 xf x -> (k < length w)%nat ->
  let wk := nth k w (o0 F64) in let bk := nth k b (o0 F64) in let z := mapped x0 xf x in
  710 <= val (exponent wk bk z) ->
  jvp (py_act F64 E Sigmoid wk bk) z (o1 F64) = sigmoid_tangent E wk bk z ->
  exists M M', HE64 jvp Py E Sigmoid w b x0 xf nC [x] 1 true = Some M /\ ment M 0 k = Some B754_nan /\
    HE64 jvp Cpp E Sigmoid w b x0 xf nC [x] 1 true = Some M' /\ all_finite M'.
Proof.
  intros HE Ho Hb Hv Hw Hbs HD Hx Hk wk bk z He Hj.
  assert (Hwk : bnd wk 40) by (apply Hw, nth_In, Hk).
  assert (Hbk : bnd bk 40) by (apply Hbs, nth_In; lia).
  pose proof (emap_bnd _ _ x HD Hx) as Hz.
  assert (Fe : fin (exponent wk bk z)).
  { assert (B : bnd (exponent wk bk z) 43) by (change (bnd z 2) in Hz; unfold exponent; bbt). apply B. }
  destruct (python_nan E jvp w b x0 xf nC x k Ho Hb Hv Hk (proj1 Hwk) Fe He Hj) as (M & EM & Hn).
  destruct (C91_compiled_finite jvp E Sigmoid w b x0 xf nC [x] 1 true HE ltac:(lia) Hb Hv Hw Hbs HD) as (M' & EM' & _ & Hf).
  { intros y [<- |[]]. exact Hx. }
  exists M, M'. repeat split; assumption.
Qed.
Print Assumptions C91_python_nan_refuted.

(** in particular at the left end of the domain, for any bias of -710 or less and any weight *)
Theorem C91_left_end_refuted E jvp w b x0 xf nC k : libm_ok E -> exp_overflows E ->
  length b = length w -> valid_nC nC (length w) ->
  (forall v, In v w -> moderate v) -> (forall v, In v b -> moderate v) -> moderate_domain x0 xf ->
  (k < length w)%nat ->
  let wk := nth k w (o0 F64) in let bk := nth k b (o0 F64) in let z := mapped x0 xf x0 in
  val bk <= -710 ->
  jvp (py_act F64 E Sigmoid wk bk) z (o1 F64) = sigmoid_tangent E wk bk z ->
  exists M M', HE64 jvp Py E Sigmoid w b x0 xf nC [x0] 1 true = Some M /\ ment M 0 k = Some B754_nan /\
    HE64 jvp Cpp E Sigmoid w b x0 xf nC [x0] 1 true = Some M' /\ all_finite M'.
Proof.
  intros HE Ho Hb Hv Hw Hbs HD Hk wk bk z He Hj.
  assert (Hwk : bnd wk 40) by (apply Hw, nth_In, Hk).
  assert (Hbk : bnd bk 40) by (apply Hbs, nth_In; lia).
  destruct (left_exponent x0 xf wk bk HD Hwk Hbk) as [_ V].
  apply (C91_python_nan_refuted E jvp w b x0 xf nC x0 k); try assumption.
  - destruct (domain_ordw _ _ HD) as [_ Hl]. split; [apply HD|lra].
  - fold wk bk. rewrite V. lra.
Qed.
Print Assumptions C91_left_end_refuted.

(** a library of functions with the properties assumed, crude but enough to run the model *)
Definition crude : Fun f64 :=
  {| fsin := fun _ => o0 F64; fcos := fun _ => o1 F64;
     fexp := fun x => match Bcompare x (f64_int 710) with Some Lt => o1 F64 | _ => infinite end;
     ftanh := fun _ => o1 F64; fpi := f64_int 3;
     fgt0 := fun x => match Bcompare x (o0 F64) with Some Gt => true | _ => false end |}.
Lemma crude_ok : libm_ok crude /\ exp_overflows crude.
Proof.
  assert (H1 : Rabs (val (o1 F64)) <= 1) by (destruct isint_one as [_ ->]; rewrite Rabs_R1; lra).
  assert (H0 : Rabs (val (o0 F64)) <= 1) by (cbn; rewrite Rabs_R0; lra).
  split.
  - intros x Fx. cbn [crude fexp ftanh fsin fcos]. repeat split; try exact H1; try exact H0.
    destruct (Bcompare x (f64_int 710)) as [[]|]; [left; reflexivity|right|left; reflexivity|left; reflexivity].
    split; [reflexivity|]. destruct isint_one as [_ ->]. lra.
  - intros x Fx Hx. cbn [crude fexp]. destruct (f64_int_ok 710 eq_refl) as [F V].
    rewrite (Bcompare_correct 53 1024 x (f64_int 710) Fx F). fold (val x) (val (f64_int 710)). rewrite V.
    destruct (Rcompare_spec (val x) 710); [lra|reflexivity|reflexivity].
Qed.
(** two neurons on [0, 2], biases -1000 and 1: column 0 is NaN in Python and 0 in the compiled
    matrix, column 1 is the same number *)
Example C91_case :
  let w := [f64_int 1; f64_int 2] in let b := [f64_int (-1000); f64_int 1] in
  let jvp (_ : f64 -> f64) (z t : f64) := sigmoid_tangent crude (f64_int 1) (f64_int (-1000)) z in
  (exists M M', HE64 jvp Py crude Sigmoid w b (f64_int 0) (f64_int 2) [] [f64_int 0] 1 true = Some M /\ ment M 0 0 = Some B754_nan /\
    HE64 jvp Cpp crude Sigmoid w b (f64_int 0) (f64_int 2) [] [f64_int 0] 1 true = Some M' /\ all_finite M') /\
  option_map (fun M => map (map B2SF) (md M)) (HE64 jvp Cpp crude Sigmoid w b (f64_int 0) (f64_int 2) [] [f64_int 0] 1 true)
    = Some [[B2SF (o0 F64); B2SF (odiv F64 (o1 F64) (f64_int 4))]].
Proof.
  intros w b jvp. split; [|vm_compute; reflexivity].
  assert (Hm : forall p, (Z.abs p <= 1000)%Z -> moderate (f64_int p)).
  { intros p Hp. destruct (f64_int_ok p) as [F V]; [lia|]. split; [exact F|]. rewrite V, <- abs_IZR.
    apply Rle_trans with (IZR 1000); [apply IZR_le, Hp|]. change (bpow radix2 40) with (IZR (2 ^ 40)). apply IZR_le. lia. }
  destruct crude_ok as [HE Ho].
  apply (C91_left_end_refuted crude jvp w b (f64_int 0) (f64_int 2) [] 0 HE Ho eq_refl).
  - apply valid_nil.
  - intros v [<- |[<- |[]]]; apply Hm; lia.
  - intros v [<- |[<- |[]]]; apply Hm; lia.
  - destruct (f64_int_ok 0) as [F0 V0]; [lia|]. destruct (f64_int_ok 2) as [F2 V2]; [lia|].
    split; [exact F0|split; [exact F2|]]. rewrite V0, V2. split.
    + apply Rle_trans with (bpow radix2 1); [apply bpow_le; lia|]. rewrite bpow1. lra.
    + apply Rle_trans with (bpow radix2 1); [rewrite bpow1; lra|apply bpow_le; lia].
  - apply Nat.lt_0_succ.
  - change (val (f64_int (-1000)) <= -710). destruct (f64_int_ok (-1000)) as [_ V]; [lia|]. rewrite V. lra.
  - reflexivity.
Qed.
