From Coq Require List.
From Coq Require Import Arith.
From mathcomp Require Import all_ssreflect all_algebra.
From Verif Require Import Base ModelDict SpecDict ProofDict ProofDict2 ModelSolveDict SpecSolveDict ProofSolveDict
  ModelPinv SpecPinv ProofPinv ProofAffine ModelAffineDict SpecAffineDict.
Set Implicit Arguments.
Unset Strict Implicit.
Unset Printing Implicit Defensive.
Import GRing.Theory Num.Theory.
Local Open Scope ring_scope.

(** ** Lists of the two libraries *)
Lemma nthE (T : Type) (d : T) l i : nth d l i = if List.nth_error l i is Some x then x else d.
Proof. by elim: l i => [|x l IH] [|i] //=. Qed.
Lemma seqE s n : List.seq s n = iota s n. Proof. by elim: n s => [|n IH] s //=; rewrite IH. Qed.
Lemma mapE (A B : Type) (f : A -> B) l : List.map f l = map f l. Proof. by []. Qed.
Lemma sizeE (A : Type) (l : list A) : List.length l = size l. Proof. by []. Qed.

Section Proofs.
Variables (F : realFieldType) (K : Type).
Notation arr := (@arr F). Notation view := (seq (K * @ModelDict.arr F)).

Lemma of_colK n (v : 'cV[F]_n) : to_mx n 1 (of_col v) = v.
Proof.
apply/matrixP=> i j; rewrite !mxE !ord1 muln1 addn0 (nth_map i) ?size_enum_ord //.
by rewrite nth_ord_enum.
Qed.
Lemma size_of_col n (v : 'cV[F]_n) : size (of_col v) = n.
Proof. by rewrite size_map size_enum_ord. Qed.
Lemma to_colK n l : size l = n -> of_col (to_mx n 1 l : 'cV[F]_n) = l.
Proof.
move=> Hl; apply: (@eq_from_nth _ 0) => [|i]; first by rewrite size_of_col.
rewrite size_of_col => Hi; rewrite (nth_map (Ordinal Hi)) ?size_enum_ord // mxE muln1 addn0.
by rewrite nth_enum_ord.
Qed.
Lemma sumsq_of_col n (v : 'cV[F]_n) : sumsq (of_col v) = norm2 v.
Proof. by rewrite /sumsq big_map enumT. Qed.
Lemma solve_len : J_ok (@l_solve F).
Proof. by move=> m n l r; rewrite /l_solve /= sizeE size_of_col. Qed.

(** ** The affine residual as a matrix acting on the packed entries *)
Lemma sum_cat n1 n2 (l1 l2 l1' l2' : seq F) : size l1 = n1 -> size l1' = n1 ->
  \sum_(j < n1 + n2) nth 0 (l1 ++ l2) j * nth 0 (l1' ++ l2') j
  = \sum_(j < n1) nth 0 l1 j * nth 0 l1' j + \sum_(j < n2) nth 0 l2 j * nth 0 l2' j.
Proof.
move=> H1 H2; rewrite big_split_ord /=; congr (_ + _); apply: eq_bigr => j _.
  by rewrite !nth_cat H1 H2 ltn_ord.
by rewrite !nth_cat H1 H2 ltnNge leq_addr /= addKn.
Qed.
Lemma row_dot (M : nat -> K -> nat -> F) r (c : view) :
  \sum_(j < size (packed c)) nth 0 (jrow M c r) j * nth 0 (packed c) j
  = \sum_(p <- c) \sum_(j < size (a_data p.2)) M r p.1 j * nth 0 (a_data p.2) j.
Proof.
elim: c => [|[k a] c IH]; first by rewrite big_nil big_ord0.
rewrite big_cons /= -IH.
rewrite /packed /= -/(packed c) size_cat.
rewrite sum_cat //; last by rewrite -sizeE List.map_length List.seq_length.
congr (_ + _); apply: eq_bigr => j _; congr (_ * _).
by rewrite mapE seqE (nth_map 0%N) ?size_iota // nth_iota.
Qed.
Definition Amx m (M : nat -> K -> nat -> F) (c : view) : 'M[F]_(m, size (packed c)) :=
  to_mx m (size (packed c)) (List.flat_map (jrow M c) (List.seq 0 m)).
Lemma AmxE m M c (i : 'I_m) (j : 'I_(size (packed c))) : Amx m M c i j = nth 0 (jrow M c i) j.
Proof.
rewrite mxE nthE (rows_nth (jrow M c) (size (packed c))).
- by rewrite -nthE.
- by apply/ltP.
- by apply/ltP.
- by move=> r; apply: jrow_len.
Qed.
Lemma jrow_form (M : nat -> K -> nat -> F) r (c c' : view) : same_form c c' -> List.Forall (fun p => wf (snd p)) c ->
  jrow M c' r = jrow M c r.
Proof.
move=> [Hk [Hs W']] W; elim: c' c Hk Hs W' W => [|[k a] c' IH] [|[k0 a0] c] //= [-> Hk] [Es Hs] W' W.
rewrite /jrow /=; congr (_ ++ _).
  have Hw : wf a by exact: (List.Forall_inv W').
  have Hw0 : wf a0 by exact: (List.Forall_inv W).
  by rewrite Hw Hw0 Es.
by apply: IH => //; [apply: (List.Forall_inv_tail W')|apply: (List.Forall_inv_tail W)].
Qed.
Definition vec (n : nat) (l : seq F) : 'cV[F]_n := to_mx n 1 l.
Lemma res_affine m (M : nat -> K -> nat -> F) (b : nat -> F) (c c' : view) : same_form c c' -> List.Forall (fun p => wf (snd p)) c ->
  affine_res m M b c' = of_col (affine (Amx m M c) (\col_i b i) (vec (size (packed c)) (packed c'))).
Proof.
move=> Hf W; apply: (@eq_from_nth _ 0) => [|r]; first by rewrite size_of_col size_map size_iota.
rewrite size_map size_iota => Hr.
rewrite (nth_map 0%N) ?size_iota // nth_iota // add0n.
rewrite (nth_map (Ordinal Hr)) ?size_enum_ord // (_ : nth _ _ r = Ordinal Hr); last first.
  by apply: val_inj; rewrite /= nth_enum_ord.
rewrite !mxE /=; congr (_ + _); rewrite -row_dot.
have El : size (packed c') = size (packed c) by have := form_len _ _ Hf W.
rewrite El; apply: eq_bigr => j _.
by rewrite AmxE !mxE muln1 addn0 (jrow_form _ _ Hf W).
Qed.
(** ** Least squares *)
Lemma best_of m (M : nat -> K -> nat -> F) (b : nat -> F) (c c1 : view) : same_form c c1 -> List.Forall (fun p => wf (snd p)) c ->
  minimises (affine (Amx m M c) (\col_i b i)) (vec (size (packed c)) (packed c1)) ->
  forall c', same_form c c' -> sumsq (affine_res m M b c1) <= sumsq (affine_res m M b c').
Proof.
move=> H1 W Hm c' H'; rewrite (res_affine _ _ _ H1 W) (res_affine _ _ _ H' W) !sumsq_of_col.
exact: Hm.
Qed.
Lemma form_sym_trans (c c1 c2 : view) : same_form c c1 -> same_form c1 c2 -> same_form c c2.
Proof. by move=> [H1 [H2 _]] [H3 [H4 H5]]; split; [rewrite H3|split=> //; rewrite H4]. Qed.
Lemma form_self (c : view) : List.Forall (fun p => wf (snd p)) c -> same_form c c.
Proof. by move=> W; split; [|split]. Qed.
Lemma zip2_sub n (l l' : seq F) : size l = n -> size l' = n ->
  vec n (zip2 (fun x y => x - y) l l') = vec n l - vec n l'.
Proof.
move=> Hl Hl'; apply/matrixP=> i j; rewrite !mxE !ord1 muln1 addn0.
move: (i : nat) (ltn_ord i) Hl Hl' => k; elim: l l' k n {i j} => [|x l IH] [|y l'] [|k] [|n] //= Hk [Hl] [Hl'].
by rewrite /zip2 /= -/(zip2 _ _ _) (IH _ _ n).
Qed.
Lemma zip2_add0 (l : seq F) : zip2 (fun x y => x + y) (List.repeat 0 (size l)) l = l.
Proof. by elim: l => //= x l IH; rewrite /zip2 /= add0r -/(zip2 _ _ _) IH. Qed.

Variables (jacfwd : (view -> seq F) -> view -> view) (res : view -> seq F).
Variables (m : nat) (M : nat -> K -> nat -> F) (b : nat -> F) (c : view).
Hypothesis W : List.Forall (fun p => wf (snd p)) c.
Hypothesis Hres : affine_on jacfwd res c m M b.

(** what LS adds to zero *)
Lemma ls_best c1 : same_form c c1 ->
  packed c1 = zip2 (fun x y => x + y) (List.repeat 0 (List.length (packed c)))
      (l_solve (Arr_ [:: m; List.length (packed c)] (List.flat_map (jrow M (zero_view 0 c)) (List.seq 0 m)))
               (List.map (fun x => - x) (res (zero_view 0 c)))) -> best res c1.
Proof.
move=> H1 Hp; have Fz := zero_view_form 0 c.
have [Ez _] := Hres Fz.
have Ez' : packed (zero_view 0 c) = List.repeat 0 (size (packed c)).
  by rewrite packed_zeros (form_len _ _ Fz W).
have Ev : vec (size (packed c)) (packed (zero_view 0 c)) = 0.
  apply/matrixP=> i j; rewrite !mxE Ez' nthE.
  have H n k : (if List.nth_error (List.repeat (0 : F) n) k is Some x then x else 0) = 0.
    by elim: n k => [|n IH] [|k] //=.
  exact: H.
have Hj : (List.flat_map (jrow M (zero_view 0 c)) (List.seq 0 m)) = (List.flat_map (jrow M c) (List.seq 0 m)).
  by elim: (List.seq 0 m) => //= r l ->; rewrite (jrow_form _ _ Fz W).
have Hsol : packed c1 = of_col (pinv (Amx m M c) *m - (\col_i b i)).
  rewrite Hp Hj /l_solve /= sizeE -[in List.repeat _ _](size_of_col (pinv (Amx m M c) *m - (\col_i b i))).
  have -> : to_mx m 1 (List.map (fun x => - x) (res (zero_view 0 c))) = - (\col_i b i).
    rewrite Ez (res_affine _ _ _ Fz W) Ev /affine mulmx0 add0r.
    apply/matrixP=> i j; rewrite !mxE !ord1 muln1 addn0 mapE (nth_map 0) ?size_of_col //.
    by rewrite (nth_map i) ?size_enum_ord // nth_ord_enum mxE.
  by rewrite zip2_add0.
move=> c' Hc'; have H' := form_sym_trans H1 Hc'.
have [-> _] := Hres H1; have [-> _] := Hres H'.
apply: best_of H' => //; rewrite /vec Hsol of_colK; exact: pinv_minimises.
Qed.
(** what NLLS subtracts *)
Lemma step_best c1 : same_form c c1 ->
  packed c1 = zip2 (fun x y => x - y) (packed c)
      (l_solve (Arr_ [:: m; List.length (packed c)] (List.flat_map (jrow M c) (List.seq 0 m))) (res c)) -> best res c1.
Proof.
move=> H1 Hp; have Fc := form_self W.
have [Ec _] := Hres Fc.
move=> c' Hc'; have H' := form_sym_trans H1 Hc'.
have [-> _] := Hres H1; have [-> _] := Hres H'.
apply: best_of H' => //; rewrite Hp zip2_sub //; last by rewrite /l_solve /= size_of_col.
rewrite /l_solve /= Ec (res_affine _ _ _ Fc W) /vec !of_colK.
exact: star_minimises.
Qed.
End Proofs.
