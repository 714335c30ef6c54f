(** C106: sizes and indexes of the C++ basis classes and the range of [int] *)
From Coq Require Import List ZArith Lia.
From Verif Require Import Base ModelRegistry ModelInt SpecInt ProofInt.
Import ListNotations.
Local Open Scope Z_scope.

(** [H] of a one-dimensional class stays within the range of [int] and inside its blocks exactly if
    the number of points times the number of basis functions does *)
Theorem C106_size_partial c m nC n d full :
  one_d c = true -> 1 <= m -> fits m -> size n -> removable m nC ->
  (fits (n * m) -> H_int c m nC n d full = Some (n, columns_of m nC full)) /\
  (~ fits (n * m) -> H_int c m nC n d full = None).
Proof.
  intros C Hm Hm' Hn R. split.
  - intros F. now apply H_int_ok.
  - intros F. apply H_int_bad; [easy|apply Hn|easy].
Qed.
Print Assumptions C106_size_partial.

(** the same for the entry point used by XLA *)
Theorem C106_xla_partial c m nC n d full :
  one_d c = true -> 1 <= m -> fits m -> size n -> removable m nC ->
  (fits (n * m) -> xla_int c m nC n d full (columns_of m nC full) = Some tt) /\
  (~ fits (n * m) -> xla_int c m nC n d full (columns_of m nC full) = None).
Proof.
  intros C Hm Hm' Hn R. split.
  - intros F. now apply xla_int_ok.
  - intros F. apply xla_int_bad; [easy|apply Hn|easy].
Qed.
Print Assumptions C106_xla_partial.

(** An n-dimensional basis can be made exactly if the number of entries of [nC] and the number of
    products fit; that number is a binomial coefficient. *)
Theorem C106_products_partial k dim numC nC m :
  1 <= dim -> fits dim -> 1 <= m -> fits m -> 0 <= numC -> Z.of_nat (length nC) = dim * numC ->
  (fits (dim * numC) /\ fits (product_count dim m) ->
   exists o, nbasis_int k dim dim numC nC m = Some o /\ s_numFull o = product_count dim m /\ 0 <= s_num o <= product_count dim m) /\
  (~ (fits (dim * numC) /\ fits (product_count dim m)) -> nbasis_int k dim dim numC nC m = None).
Proof.
  intros Hd Hd' Hm Hm' Hc L. split.
  - intros [F1 F2]. eexists. split; [now apply nbasis_ok|]. split; [easy|]. cbn.
    pose proof (cnt_full_ge false m dim numC nC (Z.to_nat dim) []) as G. rewrite cnt_product_count in G by lia.
    pose proof (cnt_nonneg false m dim numC nC (Z.to_nat dim) []). lia.
  - intros F. destruct (nbasis_int k dim dim numC nC m) as [o|] eqn:E; [|easy]. exfalso. apply F.
    now apply nbasis_some in E.
Qed.
Print Assumptions C106_products_partial.

(** [H] of an n-dimensional basis that was made *)
Theorem C106_nd_partial k dim numC nC m o n d (full : bool) :
  n_d k = true -> 1 <= dim -> fits dim -> 1 <= m -> fits m -> 0 <= numC -> Z.of_nat (length nC) = dim * numC -> size n ->
  nbasis_int k dim dim numC nC m = Some o ->
  let cols := if full then product_count dim m else s_num o in
  (fits (n * m * dim) /\ fits (n * cols) -> nH_int o n d full = Some (n, cols)) /\
  (~ (fits (n * m * dim) /\ fits (n * cols)) -> nH_int o n d full = None).
Proof.
  intros K Hd Hd' Hm Hm' Hc L [Hn Hn'] E cols. pose proof (nbasis_some _ _ _ _ _ _ Hd Hd' Hm Hm' Hc E) as [F1 F2].
  rewrite nbasis_ok in E by easy. injection E as E.
  assert (C : cols = cnt full m dim numC nC (Z.to_nat dim) []).
  { unfold cols. rewrite <- E. destruct full; [|easy]. now rewrite cnt_product_count. }
  rewrite C, <- E. split.
  - intros [A B]. now apply nH_ok.
  - intros F. destruct (nH_int _ _ _ _) as [y|] eqn:Y; [|easy]. exfalso. apply F.
    now apply nH_some in Y.
Qed.
Print Assumptions C106_nd_partial.

(** n-dimensional ELM classes: making one, and [H] *)
Theorem C106_elm_partial k dim nC m :
  1 <= dim -> fits dim -> 1 <= m -> fits m -> fits (Z.of_nat (length nC)) ->
  (fits (dim * Z.of_nat (length nC)) /\ fits (dim * m) -> nelm_int k dim nC m <> None) /\
  (~ (fits (dim * Z.of_nat (length nC)) /\ fits (dim * m)) -> nelm_int k dim nC m = None).
Proof.
  intros Hd Hd' Hm Hm' Hc. split.
  - intros [F1 F2]. rewrite nelm_ok by easy. easy.
  - intros F. destruct (nelm_int k dim nC m) as [o|] eqn:E; [|easy]. exfalso. apply F. now apply nelm_some in E.
Qed.
Print Assumptions C106_elm_partial.

Theorem C106_elm_H_partial k dim nC m o n d full :
  n_elm k = true -> 1 <= dim -> fits dim -> 1 <= m -> fits m -> fits (Z.of_nat (length nC)) -> size n ->
  removable m (removed nC) -> Z.of_nat (length d) <= dim -> fits (Z.of_nat (list_sum d)) ->
  nelm_int k dim nC m = Some o ->
  (fits (n * m) /\ fits (n * dim) -> nelmH_int o n d full = Some (n, columns_of m (removed nC) full)) /\
  (~ (fits (n * m) /\ fits (n * dim)) -> nelmH_int o n d full = None).
Proof.
  intros K Hd Hd' Hm Hm' Hc [Hn Hn'] R Ld Sd E. pose proof (nelm_some _ _ _ _ _ Hd Hd' Hm Hm' Hc E) as [F1 F2].
  rewrite nelm_ok in E by easy. injection E as E. rewrite <- E. split.
  - intros [A B]. rewrite Z.mul_comm in A. apply nelmH_ok; try easy.
  - intros F. destruct (nelmH_int _ _ _ _) as [y|] eqn:Y; [|easy]. exfalso. apply F.
    now apply nelmH_some in Y.
Qed.
Print Assumptions C106_elm_H_partial.

(** Sizes of which each fits are not enough: in every class, 46341 functions at 46341 points; in two
    dimensions, 65536 functions per dimension, one more than can be counted. *)
Theorem C106_size_refuted c d full : one_d c = true -> size 46341 /\ H_int c 46341 [] 46341 d full = None.
Proof.
  intros C. split; [split; [easy|now unfold fits]|]. apply H_int_bad; [easy|easy|]. unfold fits. easy.
Qed.
Print Assumptions C106_size_refuted.

Lemma two_dims m : 1 <= m -> 2 * product_count 2 m = m * (m + 1).
Proof.
  intros H. unfold product_count, choose. change (Z.to_nat 2) with 2%nat.
  replace (Z.to_nat (m - 1 + 2)) with (S (Z.to_nat m)) by lia.
  assert (B : forall n, 2 * Z.of_nat (binomial.binomial (S n) 2) = Z.of_nat n * (Z.of_nat n + 1)).
  { induction n as [|n IH]; [easy|]. rewrite binS, Nat2Z.inj_add, Z.mul_add_distr_l, IH.
    assert (O : forall n, binomial.binomial n 1 = n) by (intros k; apply binomial.bin1). rewrite O. lia. }
  rewrite B. lia.
Qed.
Theorem C106_products_refuted k :
  (exists o, nbasis_int k 2 2 0 [] 65535 = Some o) /\ nbasis_int k 2 2 0 [] 65536 = None.
Proof.
  assert (F2 : fits 2) by (now unfold fits).
  assert (P : forall m, 1 <= m -> fits m ->
    (fits 0 /\ fits (product_count 2 m) -> exists o, nbasis_int k 2 2 0 [] m = Some o) /\
    (~ (fits 0 /\ fits (product_count 2 m)) -> nbasis_int k 2 2 0 [] m = None)).
  { intros m M M'. destruct (C106_products_partial k 2 0 [] m ltac:(lia) F2 M M' ltac:(lia) eq_refl) as [A B].
    split; [|exact B]. intros C. destruct (A C) as [o [O _]]. now exists o. }
  clear F2. assert (N : 65536 = 65535 + 1) by reflexivity. rewrite N. clear N.
  assert (E : exists m, m = 65535) by (eexists; reflexivity). destruct E as [m E]. rewrite <- E.
  pose proof (two_dims m ltac:(lia)) as T. pose proof (two_dims (m + 1) ltac:(lia)) as T'.
  split; apply P; unfold fits; try lia; subst m; lia.
Qed.
Print Assumptions C106_products_refuted.

Example C106_case :
  H_int KCP 8 [0; 3] 5 2 false = Some (5, 6) /\
  H_int KELMSwish 4 [1] 3 1 false = Some (3, 3) /\
  (o <- nbasis_int KnLeP 2 2 1 [0; 0] 4 ;; nH_int o 3 [1%nat] false) = Some (3, 9) /\
  (o <- nelm_int KnELMTanh 2 [-1] 4 ;; nelmH_int o 3 [1%nat; 1%nat] false) = Some (3, 4) /\
  product_count 2 4 = 10.
Proof. repeat split. Qed.
