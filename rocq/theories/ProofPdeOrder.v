(** Stages in different variables can be exchanged (C120). *)
From Coq Require Import List Arith Lia Reals Lra Permutation.
From Coquelicot Require Import Coquelicot.
From Verif Require Import Base Numbers SpecBasis ModelND SpecND ModelMtfc ModelOde SpecOde ModelPde SpecPde ProofPde SpecPdeOrder.
Import ListNotations.
Open Scope R_scope.

Section Order.
Variable dim : nat.
Notation sep := (separable dim).

Section Swap.
Variables (k l : nat).
Hypotheses (Hk : (k < dim)%nat) (Hl : (l < dim)%nat) (N : k <> l).
Lemma one_cond psi ds p c z X : sep z -> sep (pc_val c) -> (forall d, In d ds -> sep (pc_val d)) ->
  (forall d X, In d ds -> imposed k c (pc_val d) X = imposed l d (pc_val c) X) ->
  corr l psi (map zero_val ds) (fun X => poly_at p (X k) * (pc_val c X - imposed k c z X)) X =
  poly_at p (X k) * (0 - imposed k c (corr l psi ds z) X).
Proof.
  intros Hz Hc. revert psi. induction ds as [|d ds IH]; intros [|q psi] Hd Hf; cbn [corr map].
  1-3: transitivity (poly_at p (X k) * (0 - D k (pc_ord c) (pc_pt c) (fun _ => 0) X)); [rewrite D_zero; ring|];
    f_equal; f_equal; apply D_ext; intros; try destruct psi; reflexivity.
  rewrite IH by (intros; try apply Hd; try apply Hf; right; assumption). clear IH.
  assert (Sd : sep (pc_val d)) by (apply Hd; left; reflexivity).
  assert (Dc : sep (imposed k c z)) by (apply D_sep; assumption).
  assert (Dd : sep (imposed l d z)) by (apply D_sep; assumption).
  assert (H0 : (0 < dim)%nat) by lia.
  assert (M : forall k' e a b Y, (k' < dim)%nat -> sep a -> sep b -> forall pt0, D k' e pt0 (fun X => a X - b X) Y = D k' e pt0 a Y - D k' e pt0 b Y).
  { intros k' e a b Y Hk' Ha Hb p0. rewrite (D_ext _ (fun X => a X + -1 * b X)) by (intros; ring).
    rewrite (D_plus dim) by (try assumption; apply (sep_scal dim); assumption). rewrite D_scal. ring. }
  cbn [zero_val pc_val]. rewrite !imposed_D. cbn [zero_val pc_ord pc_pt].
  rewrite (D_other (poly_at p) (fun X => pc_val c X - imposed k c z X) l k) by congruence.
  rewrite M by assumption.
  rewrite (D_plus dim); [|exact Hk|apply sep_mult_poly; [exact Hl|apply sep_minus; assumption]|apply corr_sep; [exact Hl|intros; apply Hd; right; assumption|exact Hz]].
  rewrite (D_other (poly_at q) (fun X => pc_val d X - imposed l d z X) k l) by exact N. rewrite M by assumption.
  pose proof (Hf d X (or_introl eq_refl)) as E. rewrite !imposed_D in E. rewrite E.
  assert (C : D k (pc_ord c) (pc_pt c) (imposed l d z) X = D l (pc_ord d) (pc_pt d) (imposed k c z) X) by (apply (D_comm dim); assumption).
  rewrite C. ring.
Qed.
Lemma corr_swap phi cs psi ds z X : sep z -> (forall c, In c cs -> sep (pc_val c)) -> (forall d, In d ds -> sep (pc_val d)) ->
  (forall c d X, In c cs -> In d ds -> imposed k c (pc_val d) X = imposed l d (pc_val c) X) ->
  corr k phi (map zero_val cs) (corr l psi ds z) X = corr l psi (map zero_val ds) (corr k phi cs z) X.
Proof.
  intros Hz. revert phi. assert (H0 : (0 < dim)%nat) by lia.
  assert (Z0 : forall ps es Y, corr l ps (map zero_val es) (fun _ => 0) Y = 0).
  { induction ps as [|p ps IH]; intros [|e es] Y; cbn [corr map]; try reflexivity. rewrite IH, imposed_D, D_zero. cbn. ring. }
  induction cs as [|c cs IH]; intros [|p phi] Hc Hd Hf; cbn [corr map].
  1-3: symmetry; etransitivity; [|apply (Z0 psi ds X)]; apply corr_ext; intros; try destruct phi; reflexivity.
  rewrite IH; [|intros c' Hc'; apply Hc; right; exact Hc'|exact Hd|intros c' d' Y Hc' Hd'; apply Hf; [right; exact Hc'|exact Hd']].
  match goal with |- _ = corr l psi (map zero_val ds) ?g X => rewrite (corr_ext l psi (map zero_val ds) g
    (fun X => corr k phi cs z X + poly_at p (X k) * (pc_val c X - imposed k c z X))) by (intros; cbn [corr]; ring) end.
  rewrite (corr_affine dim l Hl); [|apply corr_sep; [exact Hk|intros; apply Hc; right; assumption|exact Hz]|
    apply sep_mult_poly; [exact Hk|apply sep_minus; [exact H0|apply Hc; left; reflexivity|apply D_sep; assumption]]].
  rewrite zero_zero. rewrite (one_cond psi ds p c z X); [|exact Hz|apply Hc; left; reflexivity|exact Hd|intros; apply Hf; [left; reflexivity|assumption]].
  cbn [zero_val pc_val]. rewrite !imposed_D. cbn [zero_val pc_ord pc_pt]. ring.
Qed.
Lemma stage_swap phi cs psi ds z X : sep z -> (forall c, In c cs -> sep (pc_val c)) -> (forall d, In d ds -> sep (pc_val d)) ->
  (forall c d X, In c cs -> In d ds -> imposed k c (pc_val d) X = imposed l d (pc_val c) X) ->
  stage k phi cs (stage l psi ds z) X = stage l psi ds (stage k phi cs z) X.
Proof.
  intros Hz Hc Hd Hf.
  assert (S1 : sep (corr l psi ds z)) by (apply corr_sep; assumption).
  assert (S2 : sep (corr k phi cs z)) by (apply corr_sep; assumption).
  unfold stage.
  rewrite (corr_affine dim k Hk phi cs z (corr l psi ds z)), (corr_affine dim l Hl psi ds z (corr k phi cs z)) by assumption.
  rewrite corr_swap by assumption. ring.
Qed.
End Swap.

(** ** any number of parts *)
Definition ok (ts : list part) : Prop :=
  (forall t, In t ts -> (fst t < dim)%nat /\ forall c, In c (snd (snd t)) -> sep (pc_val c)) /\ NoDup (map fst ts) /\
  (forall t t' c c', In t ts -> In t' ts -> fst t <> fst t' -> In c (snd (snd t)) -> In c' (snd (snd t')) ->
     forall X, imposed (fst t) c (pc_val c') X = imposed (fst t') c' (pc_val c) X).
Lemma ok_perm ts ts' : Permutation ts ts' -> ok ts -> ok ts'.
Proof.
  intros P (H1 & H2 & H3). assert (I : forall t, In t ts' -> In t ts) by (intros t; apply Permutation_in, Permutation_sym, P).
  split; [intros t Ht; apply H1, I, Ht|]. split; [apply (Permutation_NoDup (Permutation_map fst P) H2)|].
  intros t t' c c' Ht Ht'. apply H3; apply I; assumption.
Qed.
Lemma ok_tail t ts : ok (t :: ts) -> ok ts.
Proof.
  intros (H1 & H2 & H3). split; [intros t' Ht; apply H1; right; exact Ht|]. split; [inversion H2; assumption|].
  intros a b c c' Ha Hb. apply H3; right; assumption.
Qed.
Lemma stages_in_ext ts : forall z z', (forall X, z X = z' X) -> forall X, stages_in ts z X = stages_in ts z' X.
Proof.
  induction ts as [|t ts IH]; intros z z' E X; [apply E|]. apply IH. intros Y. apply stage_ext, E.
Qed.
Lemma treat_sep t ts z : ok (t :: ts) -> sep z -> sep (treat t z).
Proof. intros (H1 & _) Hz. destruct (H1 t (or_introl eq_refl)) as [A B]. apply stage_sep; assumption. Qed.
Lemma stages_in_perm ts ts' : Permutation ts ts' -> ok ts -> forall z, sep z -> forall X, stages_in ts z X = stages_in ts' z X.
Proof.
  induction 1 as [|t ts ts' P IH|t t' ts|a b c P1 IH1 P2 IH2]; intros Ho z Hz X.
  - reflexivity.
  - apply (IH (ok_tail _ _ Ho) (treat t z)). apply (treat_sep t ts); assumption.
  - apply (stages_in_ext ts (treat t (treat t' z)) (treat t' (treat t z))). intros Y.
    destruct Ho as (H1 & H2 & H3). destruct (H1 t' (or_introl eq_refl)) as [A' B']. destruct (H1 t (or_intror (or_introl eq_refl))) as [A B].
    assert (N : fst t <> fst t') by (intros E; cbn [map] in H2; inversion H2 as [|x y Hn Hr]; apply Hn; left; exact E).
    apply stage_swap; try assumption. intros c d Y' Hc Hd. apply H3; [right; left; reflexivity|left; reflexivity|exact N|exact Hc|exact Hd].
  - rewrite IH1 by assumption. apply IH2; [apply (ok_perm a); assumption|exact Hz].
Qed.
Lemma stages_parts phis : forall css k z, length css = length phis -> stages k phis css z = stages_in (combine (seq k (length css)) (combine phis css)) z.
Proof.
  induction phis as [|phi phis IH]; intros [|cs css] k z E; try discriminate; [reflexivity|].
  cbn [stages length seq combine]. cbn in E. rewrite IH by lia. reflexivity.
Qed.
Lemma in_parts (phis : list (list (list R))) : forall (css : list (list pcond)) k (t : part), In t (combine (seq k (length css)) (combine phis css)) ->
  exists i, (fst t = k + i)%nat /\ nth_error css i = Some (snd (snd t)).
Proof.
  induction phis as [|phi phis IH]; intros [|cs css] k t H; try contradiction.
  cbn [length seq combine] in H. destruct H as [<-|H]; [exists 0%nat; split; [cbn; lia|reflexivity]|].
  destruct (IH _ _ _ H) as (i & E1 & E2). exists (S i). split; [lia|exact E2].
Qed.
Lemma map_fst_parts (phis : list (list (list R))) : forall (css : list (list pcond)) k, length css = length phis -> map fst (combine (seq k (length css)) (combine phis css)) = seq k (length css).
Proof.
  induction phis as [|phi phis IH]; intros [|cs css] k E; try discriminate; [reflexivity|].
  cbn [length seq combine map fst]. f_equal. apply IH. cbn in E. lia.
Qed.
Lemma parts_ok css phis : consistent dim css -> length css = length phis -> ok (parts dim css phis).
Proof.
  intros (Hl & Hv & Hc) E. unfold parts. rewrite <- Hl at 1.
  assert (Q : forall (t : part) c, In t (combine (seq 0 (length css)) (combine phis css)) -> In c (snd (snd t)) -> among css (fst t) c).
  { intros t c Ht Hc'. destruct (in_parts _ _ _ _ Ht) as (i & E1 & E2). exists (snd (snd t)). split; [rewrite E1; exact E2|exact Hc']. }
  split; [|split].
  - intros t Ht. split; [destruct (in_parts _ _ _ _ Ht) as (i & E1 & E2); rewrite E1, <- Hl; apply nth_error_Some; cbn; congruence|].
    intros c Hc'. apply (Hv (fst t) c), Q; assumption.
  - rewrite map_fst_parts by exact E. apply seq_NoDup.
  - intros t t' c c' Ht Ht' N Hc1 Hc2. apply Hc; [apply Q; assumption|apply Q; assumption|exact N].
Qed.
Lemma any_order css phis ts z : consistent dim css -> length css = length phis -> Permutation ts (parts dim css phis) -> sep z ->
  forall X, stages_in ts z X = stages 0 phis css z X.
Proof.
  intros Hc E P Hz X. rewrite stages_parts by exact E. rewrite (proj1 Hc).
  apply stages_in_perm; [exact P|apply (ok_perm (parts dim css phis)); [apply Permutation_sym, P|apply parts_ok; assumption]|exact Hz].
Qed.
End Order.
