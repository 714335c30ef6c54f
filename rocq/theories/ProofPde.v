(** Calculus of separable functions, and the stages of a constrained expression in several variables (C95). *)
From Coq Require Import Reals Arith Lia Lra List Bool ZArith.
From Coquelicot Require Import Coquelicot.
From Verif Require Import Base Numbers SpecBasis ModelND SpecND ProofND ModelOde SpecOde ModelPde SpecPde.
Import ListNotations.
Open Scope R_scope.

(** ** smooth functions *)
Lemma smooth_ext g h : (forall t, g t = h t) -> smooth g -> smooth h.
Proof. intros E H e t. apply (ex_derive_n_ext g); [exact E|apply H]. Qed.
Lemma smooth_const c : smooth (fun _ => c).
Proof. intros [|e] t; [exact I|]. apply (ex_derive_ext_loc (fun _ => match e with O => c | _ => 0 end)); [|apply ex_derive_const].
  apply filter_forall. intros s. destruct e; [reflexivity|]. symmetry. apply Derive_n_const. Qed.
Lemma smooth_plus g h : smooth g -> smooth h -> smooth (fun t => g t + h t).
Proof. intros Hg Hh e t. apply ex_derive_n_plus; apply filter_forall; intros s k _; [apply Hg|apply Hh]. Qed.
Lemma smooth_scal a g : smooth g -> smooth (fun t => a * g t).
Proof. intros Hg e t. apply ex_derive_n_scal_l, Hg. Qed.
Lemma Derive_n_add g h e t : smooth g -> smooth h -> Derive_n (fun t => g t + h t) e t = Derive_n g e t + Derive_n h e t.
Proof. intros Hg Hh. apply Derive_n_plus; apply filter_forall; intros s k _; [apply Hg|apply Hh]. Qed.
Lemma smooth_tower (G : nat -> R -> R) : (forall e t, is_derive (G e) t (G (S e) t)) ->
  smooth (G 0%nat) /\ forall e t, Derive_n (G 0%nat) e t = G e t.
Proof.
  intros H. assert (forall e t, Derive_n (G 0%nat) e t = G e t) as E.
  { induction e as [|e IH]; intros t; [reflexivity|]. cbn. rewrite (Derive_ext _ (G e)) by exact IH. apply is_derive_unique, H. }
  split; [|exact E]. intros [|e] t; [exact I|]. cbn. apply (ex_derive_ext (G e)); [intros; symmetry; apply E|]. eexists. apply H.
Qed.
Lemma smooth_is g e t : smooth g -> is_derive (Derive_n g e) t (Derive_n g (S e) t).
Proof. intros H. apply Derive_correct. apply (H (S e) t). Qed.
Lemma smooth_derive g e : smooth g -> smooth (Derive_n g e).
Proof.
  intros Hg. apply (smooth_ext ((fun k => Derive_n g (k + e)) 0%nat)); [reflexivity|]. apply (smooth_tower (fun k => Derive_n g (k + e))).
  intros k t. apply (smooth_is g (k + e) t Hg).
Qed.
Lemma smooth_times g : smooth g -> smooth (fun t => t * g t).
Proof.
  intros Hg. pose (G := fun e t => t * Derive_n g e t + match e with O => 0 | S k => INR e * Derive_n g k t end).
  apply (smooth_ext (G 0%nat)); [intros t; unfold G; cbn; ring|]. apply smooth_tower. intros e t. unfold G.
  evar_last.
  - apply (is_derive_plus (fun t => t * Derive_n g e t)).
    + apply (is_derive_mult (fun t => t) (Derive_n g e) t); [apply is_derive_id|apply smooth_is, Hg|intros; apply Rmult_comm].
    + instantiate (1 := match e with O => 0 | S k => INR e * Derive_n g e t end). destruct e as [|k].
      * apply (is_derive_const (K := R_AbsRing) (V := R_NormedModule) 0 t).
      * apply (is_derive_scal (Derive_n g k)). apply smooth_is, Hg.
  - unfold plus, mult, one; cbn -[INR Derive_n]. destruct e as [|k]; [cbn [INR]; ring|]. rewrite (S_INR (S k)). ring.
Qed.
Lemma smooth_poly p g : smooth g -> smooth (fun t => poly_at p t * g t).
Proof.
  intros Hg. induction p as [|c p IH]; [apply (smooth_ext (fun _ => 0)); [intros; cbn; ring|apply smooth_const]|].
  apply (smooth_ext (fun t => c * g t + t * (poly_at p t * g t))); [intros; cbn; ring|]. apply smooth_plus; [apply smooth_scal, Hg|apply smooth_times, IH].
Qed.
Lemma smooth_poly1 p : smooth (poly_at p).
Proof. apply (smooth_ext (fun t => poly_at p t * 1)); [intros; ring|]. apply smooth_poly, smooth_const. Qed.

(** ** separable functions *)
Lemma upd_same X k t : upd X k t k = t.
Proof. unfold upd. rewrite Nat.eqb_refl. reflexivity. Qed.
Lemma upd_other X k t i : i <> k -> upd X k t i = X i.
Proof. intros H. unfold upd. apply Nat.eqb_neq in H. rewrite H. reflexivity. Qed.
Lemma prodn_split n F k : (k < n)%nat -> prodn n F = F k * prodn n (fun i => if Nat.eqb i k then 1 else F i).
Proof.
  induction n as [|n IH]; intros Hk; [lia|]. cbn [prodn]. destruct (Nat.eq_dec k n) as [->|N].
  - rewrite Nat.eqb_refl, Rmult_1_r, Rmult_comm. f_equal. apply prodn_ext. intros i Hi. destruct (Nat.eqb_spec i n); [lia|reflexivity].
  - rewrite IH by lia. destruct (Nat.eqb_spec n k); [lia|]. ring.
Qed.
Lemma prodn_rest dim (g : nat -> R -> R) k X t :
  prodn dim (fun i => if Nat.eqb i k then 1 else g i (upd X k t i)) = prodn dim (fun i => if Nat.eqb i k then 1 else g i (X i)).
Proof. apply prodn_ext. intros i Hi. destruct (Nat.eqb_spec i k); [reflexivity|]. rewrite upd_other by assumption. reflexivity. Qed.
Lemma prodn_upd dim (g : nat -> R -> R) k X t : (k < dim)%nat ->
  prodn dim (fun i => g i (upd X k t i)) = prodn dim (fun i => if Nat.eqb i k then 1 else g i (X i)) * g k t.
Proof. intros Hk. rewrite (prodn_split _ _ k Hk), prodn_rest, upd_same. ring. Qed.

Section Sep.
Variable dim : nat.
Notation sep := (separable dim).
(** the derivative of order [e] in variable [k], where that is [p] *)
Definition D (k e : nat) (p : R) (z : pt -> R) (X : pt) : R := Derive_n (fun t => z (upd X k t)) e p.

Lemma sep_ext z z' : (forall X, z X = z' X) -> sep z -> sep z'.
Proof.
  intros E H. destruct H as [z H|z g Hg H|z a b Ha Hb H].
  - apply sep_zero. intros X. rewrite <- E. apply H.
  - apply (sep_prod dim z' g Hg). intros X. rewrite <- E. apply H.
  - apply (sep_plus dim z' a b Ha Hb). intros X. rewrite <- E. apply H.
Qed.
Lemma sep_local z : sep z -> forall X Y, (forall k, (k < dim)%nat -> X k = Y k) -> z X = z Y.
Proof.
  induction 1 as [z H|z g Hg H|z a b _ IHa _ IHb H]; intros X Y E; rewrite !H; [reflexivity| |rewrite (IHa X Y E), (IHb X Y E); reflexivity].
  apply prodn_ext. intros k Hk. rewrite E by exact Hk. reflexivity.
Qed.
Lemma sep_line z k X : (k < dim)%nat -> sep z -> smooth (fun t => z (upd X k t)).
Proof.
  intros Hk. induction 1 as [z H|z g Hg H|z a b _ IHa _ IHb H].
  - apply (smooth_ext (fun _ => 0)); [intros; symmetry; apply H|apply smooth_const].
  - apply (smooth_ext (fun t => prodn dim (fun i => if Nat.eqb i k then 1 else g i (X i)) * g k t)).
    + intros t. rewrite H. symmetry. apply prodn_upd, Hk.
    + apply smooth_scal, Hg.
  - apply (smooth_ext (fun t => a (upd X k t) + b (upd X k t))); [intros; symmetry; apply H|]. apply smooth_plus; assumption.
Qed.
Lemma D_ext z z' k e p X : (forall X, z X = z' X) -> D k e p z X = D k e p z' X.
Proof. intros E. apply Derive_n_ext. intros t. apply E. Qed.
Lemma D_plus a b k e p X : (k < dim)%nat -> sep a -> sep b -> D k e p (fun X => a X + b X) X = D k e p a X + D k e p b X.
Proof. intros Hk Ha Hb. apply (Derive_n_add (fun t => a (upd X k t)) (fun t => b (upd X k t))); apply sep_line; assumption. Qed.
Lemma D_scal c z k e p X : D k e p (fun X => c * z X) X = c * D k e p z X.
Proof. apply (Derive_n_scal_l (fun t => z (upd X k t))). Qed.
Lemma D_zero k e p X : D k e p (fun _ => 0) X = 0.
Proof. unfold D. destruct e; [reflexivity|]. apply Derive_n_const. Qed.
(** factors of another variable, and of the same *)
Lemma D_other (f : R -> R) z k l e p X : k <> l -> D k e p (fun X => f (X l) * z X) X = f (X l) * D k e p z X.
Proof.
  intros N. unfold D. rewrite <- Derive_n_scal_l. apply Derive_n_ext. intros t. rewrite upd_other by congruence. reflexivity.
Qed.
Lemma D_same (f : R -> R) z k e p X : (forall X t, z (upd X k t) = z X) -> D k e p (fun X => f (X k) * z X) X = Derive_n f e p * z X.
Proof.
  intros H. unfold D. rewrite <- Derive_n_scal_r. apply Derive_n_ext. intros t. rewrite upd_same, H. reflexivity.
Qed.
Lemma D_prod z g k e p X : (k < dim)%nat -> (forall X, z X = prodn dim (fun i => g i (X i))) ->
  D k e p z X = prodn dim (fun i => if Nat.eqb i k then 1 else g i (X i)) * Derive_n (g k) e p.
Proof.
  intros Hk H. unfold D. rewrite <- Derive_n_scal_l. apply Derive_n_ext. intros t. rewrite H. apply prodn_upd, Hk.
Qed.
Definition repl (g : nat -> R -> R) (k : nat) (h : R -> R) : nat -> R -> R := fun i => if Nat.eqb i k then h else g i.
Lemma repl_prod g k h X : (k < dim)%nat -> prodn dim (fun i => repl g k h i (X i)) = prodn dim (fun i => if Nat.eqb i k then 1 else g i (X i)) * h (X k).
Proof.
  intros Hk. rewrite (prodn_split _ _ k Hk). unfold repl at 1. rewrite Nat.eqb_refl, Rmult_comm. f_equal. apply prodn_ext. intros i Hi.
  unfold repl. destruct (Nat.eqb i k); reflexivity.
Qed.
Lemma repl_smooth g k h : (forall i, smooth (g i)) -> smooth h -> forall i, smooth (repl g k h i).
Proof. intros Hg Hh i. unfold repl. destruct (Nat.eqb i k); [exact Hh|apply Hg]. Qed.
Lemma D_sep z k e p : (k < dim)%nat -> sep z -> sep (D k e p z).
Proof.
  intros Hk. induction 1 as [z H|z g Hg H|z a b Ha IHa Hb IHb H].
  - apply sep_zero. intros X. rewrite (D_ext z (fun _ => 0)) by exact H. apply D_zero.
  - apply (sep_prod dim _ (repl g k (fun _ => Derive_n (g k) e p))); [apply repl_smooth; [exact Hg|apply smooth_const]|].
    intros X. rewrite repl_prod by exact Hk. apply D_prod; assumption.
  - apply (sep_plus dim _ (D k e p a) (D k e p b) IHa IHb). intros X. rewrite (D_ext z (fun X => a X + b X)) by exact H. apply D_plus; assumption.
Qed.
Lemma D_comm z k e p l e' p' X : (k < dim)%nat -> (l < dim)%nat -> k <> l -> sep z ->
  D k e p (D l e' p' z) X = D l e' p' (D k e p z) X.
Proof.
  intros Hk Hl N Hz. revert X. induction Hz as [z H|z g Hg H|z a b Ha IHa Hb IHb H]; intros X.
  - assert (forall k e p X, D k e p z X = 0) as E0 by (intros; rewrite (D_ext z (fun _ => 0)) by exact H; apply D_zero).
    rewrite (D_ext (D l e' p' z) (fun _ => 0)) by (intros; apply E0). rewrite (D_ext (D k e p z) (fun _ => 0)) by (intros; apply E0). rewrite !D_zero. reflexivity.
  - rewrite (D_prod (D l e' p' z) (repl g l (fun _ => Derive_n (g l) e' p'))) by (try assumption; intros Y; rewrite repl_prod by assumption; apply D_prod; assumption).
    rewrite (D_prod (D k e p z) (repl g k (fun _ => Derive_n (g k) e p))) by (try assumption; intros Y; rewrite repl_prod by assumption; apply D_prod; assumption).
    assert (repl g l (fun _ => Derive_n (g l) e' p') k = g k) as E1 by (unfold repl; destruct (Nat.eqb_spec k l); [contradiction|reflexivity]).
    assert (repl g k (fun _ => Derive_n (g k) e p) l = g l) as E2 by (unfold repl; destruct (Nat.eqb_spec l k); [congruence|reflexivity]).
    rewrite E1, E2. rewrite (prodn_split dim (fun i => if Nat.eqb i k then 1 else _) l Hl), (prodn_split dim (fun i => if Nat.eqb i l then 1 else repl g k _ i (X i)) k Hk).
    unfold repl. rewrite !Nat.eqb_refl. destruct (Nat.eqb_spec l k); [congruence|]. destruct (Nat.eqb_spec k l); [contradiction|].
    replace (prodn dim (fun i => if Nat.eqb i l then 1 else if Nat.eqb i k then 1 else (if Nat.eqb i l then (fun _ => Derive_n (g l) e' p') else g i) (X i)))
      with (prodn dim (fun i => if Nat.eqb i k then 1 else if Nat.eqb i l then 1 else (if Nat.eqb i k then (fun _ => Derive_n (g k) e p) else g i) (X i))); [ring|].
    apply prodn_ext. intros i Hi. destruct (Nat.eqb i k), (Nat.eqb i l); reflexivity.
  - assert (forall k e p X, (k < dim)%nat -> D k e p z X = D k e p a X + D k e p b X) as E.
    { intros. rewrite (D_ext z (fun X => a X + b X)) by exact H. apply D_plus; assumption. }
    rewrite (D_ext (D l e' p' z) (fun X => D l e' p' a X + D l e' p' b X)) by (intros; apply E, Hl).
    rewrite (D_ext (D k e p z) (fun X => D k e p a X + D k e p b X)) by (intros; apply E, Hk).
    rewrite !D_plus by (try assumption; apply D_sep; assumption). rewrite IHa, IHb. reflexivity.
Qed.
Lemma D_fixed z k e p X t : (k < dim)%nat -> sep z -> D k e p z (upd X k t) = D k e p z X.
Proof.
  intros Hk Hz. apply Derive_n_ext. intros s. apply (sep_local z Hz). intros i Hi. unfold upd. destruct (Nat.eqb i k); reflexivity.
Qed.
Lemma sep_add a b : sep a -> sep b -> sep (fun X => a X + b X).
Proof. intros Ha Hb. apply (sep_plus dim _ a b Ha Hb). reflexivity. Qed.
Lemma sep_mult_poly p k z : (k < dim)%nat -> sep z -> sep (fun X => poly_at p (X k) * z X).
Proof.
  intros Hk. induction 1 as [z H|z g Hg H|z a b Ha IHa Hb IHb H].
  - apply sep_zero. intros X. rewrite H. ring.
  - apply (sep_prod dim _ (repl g k (fun t => poly_at p t * g k t))); [apply repl_smooth; [exact Hg|apply smooth_poly, Hg]|].
    intros X. rewrite repl_prod by exact Hk. rewrite H, (prodn_split _ _ k Hk). ring.
  - apply (sep_plus dim _ _ _ IHa IHb). intros X. rewrite H. ring.
Qed.
Lemma sep_scal c z : (0 < dim)%nat -> sep z -> sep (fun X => c * z X).
Proof. intros Hd Hz. apply (sep_ext (fun X => poly_at [c] (X 0%nat) * z X)); [intros; cbn; ring|]. apply sep_mult_poly; assumption. Qed.
Lemma sep_minus a b : (0 < dim)%nat -> sep a -> sep b -> sep (fun X => a X - b X).
Proof. intros Hd Ha Hb. apply (sep_ext (fun X => a X + -1 * b X)); [intros; ring|]. apply sep_add; [exact Ha|apply sep_scal; assumption]. Qed.

(** ** one stage *)
Definition zero_val (c : pcond) : pcond := PCond (pc_ord c) (pc_pt c) (fun _ => 0).
Lemma imposed_D k c z X : imposed k c z X = D k (pc_ord c) (pc_pt c) z X.
Proof. reflexivity. Qed.
Section Stage.
Variables (k : nat).
Hypothesis Hk : (k < dim)%nat.
Lemma Hdim : (0 < dim)%nat. Proof. lia. Qed.
Lemma corr_sep phi cs z : (forall c, In c cs -> sep (pc_val c)) -> sep z -> sep (corr k phi cs z).
Proof.
  revert cs. induction phi as [|p phi IH]; intros [|c cs] Hv Hz; try (apply sep_zero; reflexivity).
  apply (sep_plus dim _ (fun X => poly_at p (X k) * (pc_val c X - imposed k c z X)) (corr k phi cs z)); [| |reflexivity].
  - apply sep_mult_poly; [exact Hk|]. apply sep_minus; [exact Hdim|apply Hv; left; reflexivity|apply D_sep; assumption].
  - apply IH; [intros c' Hc; apply Hv; right; exact Hc|exact Hz].
Qed.
Lemma stage_sep phi cs z : (forall c, In c cs -> sep (pc_val c)) -> sep z -> sep (stage k phi cs z).
Proof. intros Hv Hz. apply sep_add; [exact Hz|apply corr_sep; assumption]. Qed.
Lemma corr_ext phi cs z z' X : (forall X, z X = z' X) -> corr k phi cs z X = corr k phi cs z' X.
Proof.
  intros E. revert cs. induction phi as [|p phi IH]; intros [|c cs]; try reflexivity. cbn. rewrite !imposed_D, (D_ext z z') by exact E. rewrite IH. reflexivity.
Qed.
Lemma stage_ext phi cs z z' X : (forall X, z X = z' X) -> stage k phi cs z X = stage k phi cs z' X.
Proof. intros E. unfold stage. rewrite E, (corr_ext _ _ z z') by exact E. reflexivity. Qed.
(** affine *)
Lemma corr_affine phi cs z w X : sep z -> sep w ->
  corr k phi cs (fun X => z X + w X) X = corr k phi cs z X + corr k phi (map zero_val cs) w X.
Proof.
  intros Hz Hw. revert cs. induction phi as [|p phi IH]; intros [|c cs]; cbn [corr map]; try ring.
  rewrite IH. cbn [zero_val pc_val]. rewrite !imposed_D. cbn [zero_val pc_ord pc_pt]. rewrite D_plus by assumption. ring.
Qed.
Lemma stage_affine phi cs z w X : sep z -> sep w ->
  stage k phi cs (fun X => z X + w X) X = stage k phi cs z X + stage k phi (map zero_val cs) w X.
Proof. intros Hz Hw. unfold stage. rewrite corr_affine by assumption. ring. Qed.
Lemma corr_scal phi cs a z X : corr k phi (map zero_val cs) (fun X => a * z X) X = a * corr k phi (map zero_val cs) z X.
Proof.
  revert cs. induction phi as [|p phi IH]; intros [|c cs]; cbn [corr map]; try ring.
  rewrite IH. cbn [zero_val pc_val]. rewrite !imposed_D. cbn [zero_val pc_ord pc_pt]. rewrite D_scal. ring.
Qed.
Lemma stage_scal phi cs a z X : stage k phi (map zero_val cs) (fun X => a * z X) X = a * stage k phi (map zero_val cs) z X.
Proof. unfold stage. rewrite corr_scal. ring. Qed.

(** the conditions of the variable itself *)
Lemma corr_same phi cs z e p X : sep z -> (forall c, In c cs -> sep (pc_val c) /\ forall X t, pc_val c (upd X k t) = pc_val c X) ->
  D k e p (corr k phi cs z) X = fold_right Rplus 0 (map (fun pc => Derive_n (poly_at (fst pc)) e p * (pc_val (snd pc) X - imposed k (snd pc) z X)) (combine phi cs)).
Proof.
  intros Hz. revert cs. induction phi as [|q phi IH]; intros [|c cs] Hv; try (apply D_zero).
  cbn [combine map fold_right fst snd]. rewrite <- IH by (intros c' Hc; apply Hv; right; exact Hc).
  destruct (Hv c (or_introl eq_refl)) as [Hs Hi].
  assert (sep (fun X => pc_val c X - imposed k c z X)) as Hd by (apply sep_minus; [exact Hdim|exact Hs|apply D_sep; assumption]).
  rewrite (D_ext _ (fun X => poly_at q (X k) * (pc_val c X - imposed k c z X) + corr k phi cs z X)) by reflexivity.
  rewrite D_plus; [|exact Hk|apply sep_mult_poly; assumption|apply corr_sep; [|exact Hz]; intros c' Hc; apply Hv; right; exact Hc]. f_equal.
  rewrite (D_same (poly_at q) (fun X => pc_val c X - imposed k c z X)); [reflexivity|]. intros Y t. rewrite Hi. f_equal. rewrite !imposed_D. apply D_fixed; assumption.
Qed.
Lemma stage_meets phi cs z c : sep z -> (forall c, In c cs -> sep (pc_val c) /\ forall X t, pc_val c (upd X k t) = pc_val c X) ->
  switching (one_variable cs) phi -> In c cs -> meetsp k c (stage k phi cs z).
Proof.
  intros Hz Hv (Hl & _ & Hd) Hc X. rewrite imposed_D. unfold stage.
  rewrite D_plus; [|exact Hk|exact Hz|apply corr_sep; [|exact Hz]; intros c' Hc'; apply Hv, Hc'].
  rewrite corr_same by assumption. apply In_nth_error in Hc as (i & Hi).
  assert (nth_error (one_variable cs) i = Some (Cond (pc_ord c) (pc_pt c) 0)) as Hi' by (unfold one_variable; rewrite nth_error_map, Hi; reflexivity).
  assert (forall j p, nth_error phi j = Some p -> Derive_n (poly_at p) (pc_ord c) (pc_pt c) = if Nat.eqb i j then 1 else 0) as Hd'.
  { intros j p Hp. apply (Hd i j _ p Hi' Hp). }
  unfold one_variable in Hl. rewrite map_length in Hl.
  assert (fold_right Rplus 0 (map (fun pc => Derive_n (poly_at (fst pc)) (pc_ord c) (pc_pt c) * (pc_val (snd pc) X - imposed k (snd pc) z X)) (combine phi cs))
    = pc_val c X - imposed k c z X) as ->; [|rewrite imposed_D; ring].
  assert (Hgen : forall m (phi : list (list R)) (cs : list pcond), length phi = length cs ->
    (forall j p, nth_error phi j = Some p -> Derive_n (poly_at p) (pc_ord c) (pc_pt c) = if Nat.eqb i (m + j) then 1 else 0) ->
    fold_right Rplus 0 (map (fun pc => Derive_n (poly_at (fst pc)) (pc_ord c) (pc_pt c) * (pc_val (snd pc) X - imposed k (snd pc) z X)) (combine phi cs))
    = if Nat.ltb i m then 0 else match nth_error cs (i - m) with Some c => pc_val c X - imposed k c z X | None => 0 end).
  { clear. intros m phi. revert m. induction phi as [|p phi IH]; intros m [|c' cs] Hl Hd; try discriminate.
    - destruct (Nat.ltb i m); [reflexivity|]. destruct (i - m)%nat; reflexivity.
    - cbn [combine map fold_right fst snd]. rewrite (IH (S m)) by (try (cbn in Hl; lia); intros j q Hq; replace (S m + j)%nat with (m + S j)%nat by lia; apply Hd; exact Hq).
      rewrite (Hd 0%nat p eq_refl), Nat.add_0_r. destruct (Nat.eqb_spec i m) as [->|N].
      + rewrite Nat.ltb_irrefl, Nat.sub_diag. destruct (Nat.ltb_spec m (S m)); [|lia]. cbn. ring.
      + destruct (Nat.ltb_spec i m), (Nat.ltb_spec i (S m)); try lia; [ring|]. replace (i - m)%nat with (S (i - S m)) by lia. cbn. ring. }
  rewrite (Hgen 0%nat phi cs Hl Hd'). cbn [Nat.ltb Nat.leb]. rewrite Nat.sub_0_r, Hi. reflexivity.
Qed.
(** the conditions of another variable *)
Lemma stage_keeps phi cs z l c : (l < dim)%nat -> l <> k -> sep z -> sep (pc_val c) -> (forall c, In c cs -> sep (pc_val c)) -> meetsp l c z ->
  (forall c' X, In c' cs -> imposed k c' (pc_val c) X = imposed l c (pc_val c') X) -> meetsp l c (stage k phi cs z).
Proof.
  intros Hl N Hz Hc Hv Hm Hf X. rewrite imposed_D. unfold stage. rewrite D_plus by (try assumption; apply corr_sep; assumption).
  rewrite <- imposed_D, Hm. rewrite <- (Rplus_0_r (pc_val c X)) at 2. f_equal.
  revert cs Hv Hf. induction phi as [|p phi IH]; intros [|c' cs] Hv Hf; try apply D_zero.
  assert (sep (fun X => pc_val c' X - imposed k c' z X)) as Hd.
  { apply sep_minus; [lia|apply Hv; left; reflexivity|apply D_sep; assumption]. }
  rewrite (D_ext _ (fun X => poly_at p (X k) * (pc_val c' X - imposed k c' z X) + corr k phi cs z X)) by reflexivity.
  rewrite D_plus; [|exact Hl|apply sep_mult_poly; assumption|apply corr_sep; [|exact Hz]; intros c2 Hc2; apply Hv; right; exact Hc2].
  rewrite IH by (intros; first [apply Hv | apply Hf]; right; assumption). rewrite Rplus_0_r.
  rewrite (D_other (poly_at p) (fun X => pc_val c' X - imposed k c' z X)) by exact N.
  rewrite (D_ext _ (fun X => pc_val c' X + -1 * D k (pc_ord c') (pc_pt c') z X)) by (intros; rewrite imposed_D; ring).
  rewrite D_plus, D_scal; [|exact Hl|apply Hv; left; reflexivity|apply sep_scal; [lia|]; apply D_sep; assumption].
  rewrite <- D_comm by (assumption || congruence).
  rewrite (D_ext (D l (pc_ord c) (pc_pt c) z) (pc_val c)) by exact Hm.
  specialize (Hf c' X (or_introl eq_refl)). rewrite !imposed_D in Hf. rewrite Hf. ring.
Qed.
(** nothing to correct *)
Lemma corr_met phi cs z X : (forall c, In c cs -> meetsp k c z) -> corr k phi cs z X = 0.
Proof.
  revert cs. induction phi as [|p phi IH]; intros [|c cs] Hm; try reflexivity. cbn. rewrite IH by (intros c' Hc; apply Hm; right; exact Hc).
  rewrite (Hm c (or_introl eq_refl) X). ring.
Qed.
(** on a product only one factor changes *)
Definition factor (phi : list (list R)) (cs : list pcond) (h : R -> R) (t : R) : R :=
  h t - fold_right Rplus 0 (map (fun pc => poly_at (fst pc) t * Derive_n h (pc_ord (snd pc)) (pc_pt (snd pc))) (combine phi cs)).
Lemma stage_prod phi cs z g X : (forall X, z X = prodn dim (fun i => g i (X i))) ->
  stage k phi (map zero_val cs) z X = prodn dim (fun i => repl g k (factor phi cs (g k)) i (X i)).
Proof.
  intros H. unfold stage. rewrite repl_prod by exact Hk. unfold factor. rewrite H, (prodn_split _ _ k Hk). set (P := prodn dim (fun i => if Nat.eqb i k then 1 else g i (X i))).
  assert (corr k phi (map zero_val cs) z X = - (P * fold_right Rplus 0 (map (fun pc => poly_at (fst pc) (X k) * Derive_n (g k) (pc_ord (snd pc)) (pc_pt (snd pc))) (combine phi cs)))) as ->; [|ring].
  revert cs. induction phi as [|p phi IH]; intros [|c cs]; cbn [corr map combine fold_right fst snd]; try ring.
  rewrite IH, imposed_D. cbn [zero_val pc_val pc_ord pc_pt]. rewrite (D_prod z g) by assumption. fold P. ring.
Qed.
Lemma factor_smooth phi cs h : smooth h -> smooth (factor phi cs h).
Proof.
  intros Hh. apply (smooth_ext (fun t => h t + -1 * fold_right Rplus 0 (map (fun pc => poly_at (fst pc) t * Derive_n h (pc_ord (snd pc)) (pc_pt (snd pc))) (combine phi cs)))); [intros; unfold factor; ring|].
  apply smooth_plus; [exact Hh|]. apply smooth_scal. induction (combine phi cs) as [|[p c] l IH]; cbn [map fold_right]; [apply smooth_const|].
  apply smooth_plus; [|exact IH]. cbn. apply smooth_poly, smooth_const.
Qed.
End Stage.
End Sep.

(** ** all the stages *)
Section All.
Variable dim : nat.
Notation sep := (separable dim).
Notation zeros := (map (map zero_val)).
Definition vals_ok (k : nat) (css : list (list pcond)) : Prop :=
  forall i cs c, nth_error css i = Some cs -> In c cs -> sep (pc_val c) /\ forall X t, pc_val c (upd X (k + i) t) = pc_val c X.
Lemma vals_tail k cs css : vals_ok k (cs :: css) -> vals_ok (S k) css.
Proof. intros H i cs' c Hi Hc. replace (S k + i)%nat with (k + S i)%nat by lia. apply (H (S i) cs' c Hi Hc). Qed.
Lemma vals_head k cs css : vals_ok k (cs :: css) -> forall c, In c cs -> sep (pc_val c) /\ forall X t, pc_val c (upd X k t) = pc_val c X.
Proof. intros H c Hc. specialize (H 0%nat cs c eq_refl Hc). rewrite Nat.add_0_r in H. exact H. Qed.
Lemma stages_ext phis : forall css k z z', (forall X, z X = z' X) -> forall X, stages k phis css z X = stages k phis css z' X.
Proof.
  induction phis as [|phi phis IH]; intros [|cs css] k z z' E X; try apply E. cbn. apply IH. intros Y. apply stage_ext, E.
Qed.
Lemma stages_sep phis : forall css k z, (k + length css <= dim)%nat -> vals_ok k css -> sep z -> sep (stages k phis css z).
Proof.
  induction phis as [|phi phis IH]; intros [|cs css] k z Hd Hv Hz; try exact Hz. cbn [length] in Hd. cbn. apply IH; [lia|eapply vals_tail; exact Hv|].
  apply stage_sep; [lia| |exact Hz]. intros c Hc. apply (vals_head _ _ _ Hv c Hc).
Qed.
Lemma zeros_ok k css : vals_ok k css -> vals_ok k (zeros css).
Proof.
  intros H i cs c Hi Hc. rewrite nth_error_map in Hi. destruct (nth_error css i) as [cs0|] eqn:E; [|discriminate]. injection Hi as <-.
  apply in_map_iff in Hc as (c0 & <- & _). split; [apply sep_zero; reflexivity|reflexivity].
Qed.
Lemma zero_zero cs : map zero_val (map zero_val cs) = map zero_val cs.
Proof. rewrite map_map. apply map_ext. intros c. reflexivity. Qed.
Lemma stages_affine phis : forall css k z w, (k + length css <= dim)%nat -> vals_ok k css -> sep z -> sep w ->
  forall X, stages k phis css (fun X => z X + w X) X = stages k phis css z X + stages k phis (zeros css) w X.
Proof.
  induction phis as [|phi phis IH]; intros [|cs css] k z w Hd Hv Hz Hw X; try reflexivity. cbn [length] in Hd. cbn [stages map].
  pose proof (vals_head _ _ _ Hv) as Hh. pose proof (vals_tail _ _ _ Hv) as Ht.
  rewrite (stages_ext phis css (S k) _ (fun X => stage k phi cs z X + stage k phi (map zero_val cs) w X)) by (intros Y; apply (stage_affine dim); [lia|exact Hz|exact Hw]).
  apply IH; [lia|exact Ht| |].
  - apply stage_sep; [lia|intros c Hc; apply (Hh c Hc)|exact Hz].
  - apply stage_sep; [lia| |exact Hw]. intros c Hc. apply in_map_iff in Hc as (c0 & <- & _). apply sep_zero. reflexivity.
Qed.
Lemma stages_scal phis : forall css k a z X, stages k phis (zeros css) (fun X => a * z X) X = a * stages k phis (zeros css) z X.
Proof.
  induction phis as [|phi phis IH]; intros [|cs css] k a z X; try reflexivity. cbn [stages map].
  rewrite (stages_ext phis (zeros css) (S k) _ (fun X => a * stage k phi (map zero_val cs) z X)) by (intros Y; apply stage_scal). apply IH.
Qed.
Lemma stages_zero phis css k X : stages k phis (zeros css) (fun _ => 0) X = 0.
Proof.
  rewrite (stages_ext phis (zeros css) k _ (fun X => 0 * (fun _ => 0) X)) by (intros; ring). rewrite stages_scal. ring.
Qed.
(** conditions met before the stages that follow are met after them, and those of the stages as well *)
Lemma stages_meet phis : forall css k z, (k + length css <= dim)%nat -> vals_ok k css -> sep z ->
  Forall2 (fun cs phi => switching (one_variable cs) phi) css phis ->
  (forall i cs c j cs' c', nth_error css i = Some cs -> In c cs -> nth_error css j = Some cs' -> In c' cs' -> i <> j ->
     forall X, imposed (k + i) c (pc_val c') X = imposed (k + j) c' (pc_val c) X) ->
  (forall l c, (l < k)%nat -> meetsp l c z -> sep (pc_val c) ->
     (forall i cs c' X, nth_error css i = Some cs -> In c' cs -> imposed (k + i) c' (pc_val c) X = imposed l c (pc_val c') X) -> meetsp l c (stages k phis css z)) /\
  (forall i cs c, nth_error css i = Some cs -> In c cs -> meetsp (k + i) c (stages k phis css z)).
Proof.
  induction phis as [|phi phis IH]; intros [|cs css] k z Hd Hv Hz Hs Hc; try (inversion Hs; fail).
  - split; [intros l c _ Hm _ _; exact Hm|intros [|i] cs c H; discriminate].
  - inversion Hs as [|? ? ? ? Hs1 Hs2]; subst. cbn [length] in Hd. cbn [stages]. pose proof (vals_head _ _ _ Hv) as Hh. pose proof (vals_tail _ _ _ Hv) as Ht.
    assert (sep (stage k phi cs z)) as Hz1 by (apply stage_sep; [lia|intros c Hc'; apply (Hh c Hc')|exact Hz]).
    destruct (IH css (S k) (stage k phi cs z)) as [I1 I2]; [lia|exact Ht|exact Hz1|exact Hs2| |].
    { intros i cs1 c1 j cs2 c2 E1 H1 E2 H2 N X. replace (S k + i)%nat with (k + S i)%nat by lia. replace (S k + j)%nat with (k + S j)%nat by lia.
      apply (Hc (S i) cs1 c1 (S j) cs2 c2); auto. }
    split.
    + intros l c Hl Hm Hsc Hf. apply I1; [lia| |exact Hsc|].
      * apply (stage_keeps dim); try assumption; try lia; [intros c' Hc'; apply (Hh c' Hc')|].
        intros c' X Hc'. specialize (Hf 0%nat cs c' X eq_refl Hc'). rewrite Nat.add_0_r in Hf. exact Hf.
      * intros i cs' c' X E H. replace (S k + i)%nat with (k + S i)%nat by lia. apply (Hf (S i) cs' c' X E H).
    + intros [|i] cs' c E H; cbn in E.
      * injection E as <-. rewrite Nat.add_0_r. apply I1; [lia|apply (stage_meets dim); try assumption; lia|apply (Hh c H)|].
        intros i cs' c' X E' H'. replace (S k + i)%nat with (k + S i)%nat by lia. rewrite (Hc (S i) cs' c' 0%nat cs c) by (try assumption; try reflexivity; lia). rewrite Nat.add_0_r. reflexivity.
      * replace (k + S i)%nat with (S k + i)%nat by lia. apply (I2 i cs' c E H).
Qed.
(** an expression that meets the conditions already is left alone *)
Lemma stages_met phis : forall css k z, (forall i cs c, nth_error css i = Some cs -> In c cs -> meetsp (k + i) c z) ->
  forall X, stages k phis css z X = z X.
Proof.
  induction phis as [|phi phis IH]; intros [|cs css] k z Hm X; try reflexivity. cbn [stages].
  assert (forall Y, stage k phi cs z Y = z Y) as E.
  { intros Y. unfold stage. rewrite corr_met; [ring|]. intros c Hc. specialize (Hm 0%nat cs c eq_refl Hc). rewrite Nat.add_0_r in Hm. exact Hm. }
  rewrite (stages_ext phis css (S k) _ z) by exact E. apply IH.
  intros i cs' c Ei Hc. replace (S k + i)%nat with (k + S i)%nat by lia. apply (Hm (S i) cs' c Ei Hc).
Qed.
(** a product one factor of which vanishes in its stage *)
Lemma stages_prod phis : forall css k z g, (k + length css <= dim)%nat -> (forall X, z X = prodn dim (fun i => g i (X i))) ->
  (exists i phi cs, nth_error phis i = Some phi /\ nth_error css i = Some cs /\ forall t, factor phi cs (g (k + i)%nat) t = 0) ->
  forall X, stages k phis (zeros css) z X = 0.
Proof.
  induction phis as [|phi phis IH]; intros css k z g Hd Hz (i & phi0 & cs0 & E1 & E2 & Hf) X; [destruct i; discriminate|].
  destruct css as [|cs css]; [destruct i; discriminate|]. cbn [length] in Hd. cbn [stages map]. destruct i as [|i]; cbn in E1, E2.
  - injection E1 as ->. injection E2 as ->. rewrite Nat.add_0_r in Hf. rewrite (stages_ext phis (zeros css) (S k) _ (fun _ => 0)).
    + apply stages_zero.
    + intros Y. rewrite (stage_prod dim k) with (g := g) by (try assumption; lia). rewrite repl_prod by lia. rewrite Hf. ring.
  - apply (IH css (S k) _ (repl g k (factor phi cs (g k)))); [lia| |].
    + intros Y. apply stage_prod; [lia|exact Hz].
    + exists i, phi0, cs0. split; [exact E1|]. split; [exact E2|]. intros t. unfold repl. destruct (Nat.eqb_spec (S k + i) k); [lia|].
      replace (S k + i)%nat with (k + S i)%nat by lia. apply Hf.
Qed.

(** ** the operator of the equation *)
Lemma pdiff_ext d : forall k z z' X, (forall X, z X = z' X) -> pdiff k d z X = pdiff k d z' X.
Proof. induction d as [|e d IH]; intros k z z' X E; cbn; [apply E|]. apply IH. intros Y. apply Derive_n_ext. intros t. apply E. Qed.
Lemma part_sep k e z : (k < dim)%nat -> sep z -> sep (fun Y => Derive_n (fun t => z (upd Y k t)) e (Y k)).
Proof.
  intros Hk. induction 1 as [z H|z g Hg H|z a b Ha IHa Hb IHb H].
  - apply sep_zero. intros X. rewrite (Derive_n_ext _ (fun _ => 0)) by (intros; apply H). destruct e; [reflexivity|apply Derive_n_const].
  - apply (sep_prod dim _ (repl g k (Derive_n (g k) e))); [apply repl_smooth; [exact Hg|apply smooth_derive, Hg]|].
    intros X. rewrite repl_prod by exact Hk. apply (D_prod dim z g k e (X k) X Hk H).
  - apply (sep_plus dim _ _ _ IHa IHb). intros X. rewrite (Derive_n_ext _ (fun t => a (upd X k t) + b (upd X k t))) by (intros; apply H).
    apply (D_plus dim); assumption.
Qed.
Lemma pdiff_plus d : forall k z w X, (k + length d <= dim)%nat -> sep z -> sep w -> pdiff k d (fun X => z X + w X) X = pdiff k d z X + pdiff k d w X.
Proof.
  induction d as [|e d IH]; intros k z w X Hd Hz Hw; cbn; [reflexivity|]. cbn [length] in Hd.
  rewrite <- IH by (try lia; apply part_sep; try assumption; lia). apply pdiff_ext. intros Y. apply (D_plus dim); try assumption; lia.
Qed.
Lemma pdiff_scal d : forall k a z X, pdiff k d (fun X => a * z X) X = a * pdiff k d z X.
Proof.
  induction d as [|e d IH]; intros k a z X; cbn; [reflexivity|]. rewrite <- IH. apply pdiff_ext. intros Y. apply Derive_n_scal_l.
Qed.
Lemma pde_ext co z z' X : (forall X, z X = z' X) -> pde co z X = pde co z' X.
Proof. intros E. induction co as [|[a d] co IH]; cbn; [reflexivity|]. rewrite (pdiff_ext d 0 z z' X E), IH. reflexivity. Qed.
Lemma pde_plus co z w X : orders_fit dim co -> sep z -> sep w -> pde co (fun X => z X + w X) X = pde co z X + pde co w X.
Proof.
  intros Ho Hz Hw. induction co as [|[a d] co IH]; cbn; [ring|]. rewrite IH by (intros a' d' H; apply (Ho a'); right; exact H).
  rewrite pdiff_plus by (try assumption; apply (Ho a); left; reflexivity). ring.
Qed.
Lemma pde_scal co a z X : pde co (fun X => a * z X) X = a * pde co z X.
Proof. induction co as [|[c d] co IH]; cbn; [ring|]. rewrite IH, pdiff_scal. ring. Qed.
Lemma pde_zero co X : pde co (fun _ => 0) X = 0.
Proof. rewrite (pde_ext co _ (fun X => 0 * (fun _ => 0) X)) by (intros; ring). rewrite pde_scal. ring. Qed.

(** combinations of functions *)
Lemma comb_sep (K : list (pt -> R)) : (0 < dim)%nat -> (forall g, In g K -> sep g) -> forall a, sep (fun X => row_comb a (map (fun g => g X) K)).
Proof.
  intros Hd. induction K as [|g K IH]; intros Hs a; [apply sep_zero; reflexivity|].
  apply (sep_plus dim _ (fun X => a 0%nat * g X) (fun X => row_comb (fun i => a (S i)) (map (fun g => g X) K))); [|apply IH; intros; apply Hs; right; assumption|reflexivity].
  apply sep_scal; [exact Hd|]. apply Hs. left. reflexivity.
Qed.
Lemma stages_comb phis css (K : list (pt -> R)) : (0 < dim)%nat -> (length css <= dim)%nat -> vals_ok 0 css -> (forall g, In g K -> sep g) -> forall a X,
  stages 0 phis css (fun X => row_comb a (map (fun g => g X) K)) X =
  stages 0 phis css (fun _ => 0) X + row_comb a (map (fun g => stages 0 phis (zeros css) g X) K).
Proof.
  intros Hd Hl Hv Hs a X.
  assert (forall K a X, (forall g, In g K -> sep g) -> stages 0 phis (zeros css) (fun X => row_comb a (map (fun g => g X) K)) X = row_comb a (map (fun g => stages 0 phis (zeros css) g X) K)) as Hlin.
  { clear K a X Hs. induction K as [|g K IH]; intros a X Hs; cbn [map row_comb]; [apply stages_zero|].
    rewrite (stages_affine phis (zeros css) 0 (fun X => a 0%nat * g X) (fun X => row_comb (fun i => a (S i)) (map (fun g => g X) K))).
    - rewrite stages_scal. f_equal. rewrite <- IH by (intros; apply Hs; right; assumption).
      rewrite map_map. erewrite map_ext; [reflexivity|]. intros cs. apply zero_zero.
    - rewrite map_length. exact Hl.
    - apply zeros_ok, Hv.
    - apply sep_scal; [exact Hd|apply Hs; left; reflexivity].
    - apply comb_sep; [exact Hd|intros; apply Hs; right; assumption]. }
  rewrite (stages_ext phis css 0 _ (fun X => (fun _ => 0) X + row_comb a (map (fun g => g X) K))) by (intros; ring).
  rewrite stages_affine; [|exact Hl|exact Hv|apply sep_zero; reflexivity|apply comb_sep; assumption]. f_equal. apply Hlin, Hs.
Qed.
Lemma pde_comb co (K : list (pt -> R)) z0 : (0 < dim)%nat -> orders_fit dim co -> sep z0 -> (forall g, In g K -> sep g) -> forall a X,
  pde co (fun X => z0 X + row_comb a (map (fun g => g X) K)) X = pde co z0 X + row_comb a (map (fun g => pde co g X) K).
Proof.
  intros Hd Ho Hz Hs a X. rewrite pde_plus by (try assumption; apply comb_sep; assumption). f_equal. clear z0 Hz. revert a.
  induction K as [|g K IH]; intros a; cbn [map row_comb]; [apply pde_zero|].
  rewrite (pde_plus co (fun X => a 0%nat * g X) (fun X => row_comb (fun i => a (S i)) (map (fun g => g X) K))); [|exact Ho| |].
  - rewrite pde_scal. f_equal. apply IH. intros; apply Hs; right; assumption.
  - apply sep_scal; [exact Hd|apply Hs; left; reflexivity].
  - apply comb_sep; [exact Hd|intros; apply Hs; right; assumption].
Qed.
End All.
