(** Proofs for C102 that need no matrices. *)
From Coq Require Import Reals Arith Lia Lra List Bool ZArith.
From Coquelicot Require Import Coquelicot.
From Verif Require Import Base ProofBase Numbers ModelBFPy ModelBFCpp ProofTab ProofBFPy ProofBFCpp SpecBasis ProofH ProofPoly
  ModelELM SpecELM ProofELM ModelUtfc SpecUtfc ProofUtfc ProofIndep SpecColl ProofColl ProofRecover ModelOde SpecOde ProofOde.
From Verif Require Import ModelOdeAny SpecOdeAny.
Import ListNotations.
Open Scope R_scope.

(** ** rows of the basis matrices *)
Section Rows.
Context (jvp : (R -> R) -> R -> R -> R) (Hj : jvp_ok jvp).
Local Notation uH := (utfc_H ROps RFun jvp).
Lemma rowsF be bs N nC l deg x0 xf w b u : mk be bs N nC deg x0 xf w b = Some u -> utfc_nC nC = Some l -> valid_nC l (S deg) ->
  smooth_basis bs -> weights_fit bs deg w b ->
  exists h : nat -> R -> list R,
    (forall xs e, can be bs e -> uH u xs e false = Some (Mat (length xs) (S deg - length l) (map (h e) xs))) /\
    (forall e x, length (h e x) = (S deg - length l)%nat) /\
    (forall a e x, is_derive (fun t => row_comb a (h e t)) x (row_comb a (h (S e) x))).
Proof.
  intros Hu El Hv Hs Hw.
  pose (g := fun k e x => ucol bs w b k e ((x - b_x0 (u_B u)) * b_c (u_B u) + b_z0 (u_B u)) * b_c (u_B u) ^ e).
  assert (EnC : b_nC (u_B u) = l) by (eapply mk_nC; eassumption).
  assert (Em : b_m (u_B u) = S deg).
  { pose proof (mk_inv _ _ _ _ _ _ _ _ _ _ Hu) as (l' & z & x & El' & _ & _ & _ & _ & Eu). rewrite Eu; cbn [u_B]; apply ubase_m. }
  assert (Ek : length (uks u false) = (S deg - length l)%nat) by (unfold uks; rewrite EnC, Em; apply keptc_length, Hv).
  exists (fun e x => map (fun k => g k e x) (uks u false)). split; [|split].
  - intros xs e Hc. rewrite (uH_k jvp Hj _ _ _ _ _ _ _ _ _ _ xs e false Hu Hc Hw) by (intros _; rewrite EnC; exact Hv).
    unfold kmat. rewrite Ek. reflexivity.
  - intros e x. rewrite map_length. exact Ek.
  - intros a e x. apply (deriv_row_comb g). intros k e2 x2 _. unfold g.
    set (c := b_c (u_B u)). set (p := b_x0 (u_B u)). set (z1 := b_z0 (u_B u)). cbn [pow].
    replace (ucol bs w b k (S e2) ((x2 - p) * c + z1) * (c * c ^ e2)) with (c ^ e2 * (ucol bs w b k (S e2) ((x2 - p) * c + z1) * c)) by ring.
    apply is_derive_ext with (f := fun t => c ^ e2 * ucol bs w b k e2 ((t - p) * c + z1)); [intros y; apply Rmult_comm|].
    apply (is_derive_scal (fun t => ucol bs w b k e2 ((t - p) * c + z1))).
    apply is_derive_affine. apply (gder_ok bs w b Hs).
Qed.
End Rows.

(** ** the script *)
Lemma mapM_hdF {X Y} (g : X -> Y) (k : X -> option (list Y)) l : (forall x, In x l -> k x = Some [g x]) ->
  mapM (fun x => r <- k x ;; hd_error r) l = Some (map g l).
Proof.
  intros H. induction l as [|x l IH]; [reflexivity|]. cbn [mapM map]. rewrite H by (left; reflexivity). cbn [bind hd_error].
  rewrite IH by (intros; apply H; right; assumption). reflexivity.
Qed.
Lemma Derive_n_chain p : smoothF p -> forall e x, is_derive (Derive_n p e) x (Derive_n p (S e) x).
Proof. intros H e x. cbn [Derive_n]. apply Derive_correct. exact (H (S e) x). Qed.
Lemma switchF_deriv phi : (forall p, In p phi -> smoothF p) ->
  forall cs ks e x, is_derive (switchF phi cs ks e) x (switchF phi cs ks (S e) x).
Proof.
  induction phi as [|p phi IH]; intros Hs cs ks e x; [apply is_derive_Reals, derivable_pt_lim_const|].
  destruct cs as [|c cs], ks as [|k ks]; cbn [switchF]; try (apply is_derive_Reals, derivable_pt_lim_const).
  apply (is_derive_plus (fun x => Derive_n p e x * (c_val c - k)) (switchF phi cs ks e)); [|apply IH; intros; apply Hs; right; assumption].
  rewrite (Rmult_comm (Derive_n _ (S e) x)).
  apply is_derive_ext with (f := fun x => (c_val c - k) * Derive_n p e x); [intros t; apply Rmult_comm|].
  apply (is_derive_scal (Derive_n p e)), Derive_n_chain, Hs. left; reflexivity.
Qed.
Lemma switchF_delta phi : forall cs ks e x i, length phi = length cs -> length ks = length cs ->
  (forall j p, nth_error phi j = Some p -> Derive_n p e x = if (i =? j)%nat then 1 else 0) ->
  switchF phi cs ks e x = match nth_error cs i, nth_error ks i with Some c, Some k => c_val c - k | _, _ => 0 end.
Proof.
  induction phi as [|p phi IH]; intros cs ks e x i H1 H2 H.
  - destruct cs; [|discriminate]. destruct i; reflexivity.
  - destruct cs as [|c cs]; [discriminate|]. destruct ks as [|k ks]; [discriminate|]. cbn [switchF].
    rewrite (H 0%nat p eq_refl). destruct i as [|i]; cbn [Nat.eqb nth_error].
    + rewrite (IH cs ks e x (length phi)); [|cbn in H1; lia|cbn in H2; lia|].
      * rewrite (proj2 (nth_error_None cs (length phi))) by (cbn in H1; lia). ring.
      * intros j q Hq. rewrite (H (S j) q Hq). destruct (Nat.eqb_spec (length phi) j) as [<-|]; [|reflexivity].
        rewrite (proj2 (nth_error_None phi _) (le_n _)) in Hq. discriminate.
    + rewrite (IH cs ks e x i); [ring|cbn in H1; lia|cbn in H2; lia|]. intros j q Hq. apply (H (S j) q Hq).
Qed.
(** a combination of the switching functions, as a sum of switching terms *)
Lemma combF_deriv phi r e x : (forall p, In p phi -> smoothF p) -> 
  is_derive_n (combF r phi) e x (switchF phi (map (fun k => Cond 0 0 k) r) (map (fun _ => 0) r) e x).
Proof.
  intros Hs. set (cs := map (fun k => Cond 0 0 k) r). set (ks := map (fun _ => 0) r).
  apply (is_derive_n_ext (switchF phi cs ks 0)).
  - intros t. unfold cs, ks. clear cs ks Hs. revert r. induction phi as [|p phi IH]; intros [|k r]; try reflexivity.
    cbn. rewrite IH. ring.
  - apply (is_derive_n_chain (switchF phi cs ks)). intros e' t. apply switchF_deriv, Hs.
Qed.
Lemma switchF_comb phi r : length r = length phi -> forall cs ks x, length cs = length phi -> length ks = length phi ->
  (forall i c k, nth_error cs i = Some c -> nth_error ks i = Some k -> nth_error r i = Some (c_val c - k)) ->
  switchF phi cs ks 0 x = combF r phi x.
Proof.
  revert r. induction phi as [|p phi IH]; intros [|k r] Hr cs ks x Hc Hk H; try discriminate; [reflexivity|].
  destruct cs as [|c cs]; [discriminate|]. destruct ks as [|k0 ks]; [discriminate|]. cbn [switchF combF].
  rewrite (IH r) by (try (cbn in *; lia); intros i; apply (H (S i))).
  pose proof (H 0%nat c k0 eq_refl eq_refl) as E. cbn in E. injection E as ->. cbn. ring.
Qed.

Section Script.
Context (jvp : (R -> R) -> R -> R -> R) (u : utfc (T:=R)) (n E : nat) (h : nat -> R -> list R) (cs : list cond) (phi : list (R -> R)).
Hypothesis HH : forall xs e, (e <= E)%nat -> utfc_H ROps RFun jvp u xs e false = Some (Mat (length xs) n (map (h e) xs)).
Hypothesis Hl : forall e x, length (h e x) = n.
Hypothesis Hd : forall a e x, is_derive (fun t => row_comb a (h e t)) x (row_comb a (h (S e) x)).
Hypothesis Hcs : forall c, In c cs -> (c_ord c <= E)%nat.
Hypothesis Hphi : switchingF cs phi.

Definition KF (a : nat -> R) (c : cond) : R := row_comb a (h (c_ord c) (c_pt c)).
Definition YF (a : nat -> R) (e : nat) (x : R) : R := row_comb a (h e x) + switchF phi cs (map (KF a) cs) e x.
Fixpoint LF (e : nat) (co : list (R -> R)) (a : nat -> R) (x : R) : R :=
  match co with [] => 0 | c :: co => c x * YF a e x + LF (S e) co a x end.

Lemma freeF_ok xs e a : (e <= E)%nat -> free jvp u xs e a = Some (map (fun x => row_comb a (h e x)) xs).
Proof. intros He. unfold free. rewrite HH by exact He. cbn [bind md]. rewrite map_map. reflexivity. Qed.
Lemma exprF_ok xs e a : (e <= E)%nat -> exprF jvp u cs phi xs e a = Some (map (YF a e) xs).
Proof.
  intros He. unfold exprF. rewrite freeF_ok by exact He. cbn [bind].
  rewrite (mapM_hdF (KF a)) by (intros c Hc; rewrite freeF_ok by (apply Hcs, Hc); reflexivity). cbn [bind]. rewrite combine_map_l. reflexivity.
Qed.
Lemma lhsF_ok xs co a : forall e, (e + length co <= S E)%nat -> lhsF jvp u cs phi xs e co a = Some (map (LF e co a) xs).
Proof.
  induction co as [|c co IH]; intros e He; [reflexivity|]. cbn [length] in He. cbn [lhsF]. rewrite exprF_ok by lia. cbn [bind].
  rewrite IH by lia. cbn [bind]. rewrite combine_map_lr. reflexivity.
Qed.
Lemma residualF_ok co q a : (length co <= S E)%nat -> residualF jvp u cs phi co q a = Some (map (fun x => LF 0 co a x - q x) (u_x u)).
Proof. intros He. unfold residualF. rewrite lhsF_ok by lia. cbn [bind]. rewrite combine_map_l. reflexivity. Qed.

Lemma YF_deriv a e x : is_derive (YF a e) x (YF a (S e) x).
Proof. unfold YF. apply (is_derive_plus (fun x => row_comb a (h e x)) (switchF phi cs (map (KF a) cs) e)); [apply Hd|apply switchF_deriv, Hphi]. Qed.
Lemma YF_derive_n a e x : is_derive_n (YF a 0) e x (YF a e x).
Proof. apply (is_derive_n_chain (YF a)). intros; apply YF_deriv. Qed.
Lemma YF_smooth a : smoothF (YF a 0).
Proof.
  intros e x. destruct e as [|e]; [exact I|]. exists (YF a (S e) x). apply (YF_derive_n a (S e) x).
Qed.
Lemma LF_ode a x co : forall e, LF e co a x = odeF_from e co (YF a 0) x.
Proof.
  induction co as [|c co IH]; intros e; [reflexivity|]. cbn [LF odeF_from]. rewrite IH.
  rewrite (is_derive_n_unique _ _ _ _ (YF_derive_n a e x)). reflexivity.
Qed.
Lemma YF_meets a : forall c, In c cs -> meets (YF a 0) c.
Proof.
  destruct Hphi as (H1 & H2 & H3). intros c Hc. unfold meets. rewrite (is_derive_n_unique _ _ _ _ (YF_derive_n a _ _)).
  apply In_nth_error in Hc as (i & Hi). unfold YF.
  rewrite (switchF_delta phi cs (map (KF a) cs) (c_ord c) (c_pt c) i H1).
  - rewrite Hi, nth_error_map, Hi. cbn. unfold KF. ring.
  - apply map_length.
  - intros j p Hp. apply (H3 i j c p Hi Hp).
Qed.
Lemma YF_aff e x : aff n (fun a => YF a e x).
Proof.
  unfold YF. apply aff_plus; [apply aff_row, Hl|].
  clear Hphi Hcs. generalize phi as ph. induction cs as [|c l IH]; intros ph.
  - apply (aff_ext n (fun _ => 0)); [|apply aff_const]. intros a. destruct ph; reflexivity.
  - destruct ph as [|p ph]; [apply (aff_ext n (fun _ => 0)); [reflexivity|apply aff_const]|]. cbn [map switchF]. apply aff_plus; [|apply IH].
    apply aff_scal. apply (aff_ext n (fun a => -1 * KF a c + c_val c)); [intros; ring|].
    apply aff_plus; [|apply aff_const]. apply aff_scal, aff_row, Hl.
Qed.
Lemma LF_aff x co : forall e, aff n (fun a => LF e co a x).
Proof.
  induction co as [|c co IH]; intros e; [exact (aff_const n 0)|]. cbn [LF]. apply aff_plus; [|apply IH]. apply aff_scal, YF_aff.
Qed.
Lemma resF_aff co q x : aff n (fun a => LF 0 co a x - q x).
Proof. apply (aff_ext n (fun a => LF 0 co a x + - q x)); [intros; ring|]. apply aff_plus; [apply LF_aff|apply aff_const]. Qed.

(** what the script reaches is spanned, and what is spanned and meets the conditions is reached *)
Lemma YF_spanned a : spannedF jvp u phi (YF a 0).
Proof.
  exists a, (map (fun c => c_val c - KF a c) cs). split; [rewrite map_length; symmetry; apply Hphi|].
  intros t. exists (Mat 1 n [h 0 t]), (h 0%nat t). split; [apply (HH [t]); lia|]. split; [reflexivity|].
  unfold YF. f_equal. destruct Hphi as (H1 & _). apply switchF_comb; rewrite ?map_length; try congruence.
  intros i c k Hc. rewrite !nth_error_map, Hc. cbn. congruence.
Qed.
Lemma spannedF_rows y : spannedF jvp u phi y -> exists a r, length r = length phi /\ forall t, y t = row_comb a (h 0%nat t) + combF r phi t.
Proof.
  intros (a & r & Hr & H). exists a, r. split; [exact Hr|]. intros t. destruct (H t) as (M & row & E1 & E2 & ->).
  rewrite HH in E1 by lia. injection E1 as <-. cbn in E2. injection E2 as <-. reflexivity.
Qed.
Lemma spannedF_is a r y : length r = length phi -> (forall t, y t = row_comb a (h 0%nat t) + combF r phi t) ->
  (forall c, In c cs -> meets y c) -> forall t, y t = YF a 0 t.
Proof.
  intros Hr Hy Hm t. rewrite Hy. unfold YF. f_equal. symmetry. destruct Hphi as (H1 & H2 & H3).
  apply switchF_comb; rewrite ?map_length; try congruence.
  intros i c k Hc. rewrite nth_error_map, Hc. cbn. intros [= <-].
  assert (Hi : (i < length r)%nat) by (rewrite Hr, H1; apply nth_error_Some; congruence).
  destruct (nth_error r i) as [v|] eqn:Ev; [|apply nth_error_None in Ev; lia]. f_equal.
  pose proof (Hm c (nth_error_In _ _ Hc)) as Em. unfold meets in Em.
  assert (Ed : is_derive_n y (c_ord c) (c_pt c) (row_comb a (h (c_ord c) (c_pt c)) +
     switchF phi (map (fun k => Cond 0 0 k) r) (map (fun _ => 0) r) (c_ord c) (c_pt c))).
  { apply (is_derive_n_ext (fun t => row_comb a (h 0%nat t) + switchF phi (map (fun k => Cond 0 0 k) r) (map (fun _ => 0) r) 0 t)).
    - intros s. rewrite Hy. f_equal. pose proof (combF_deriv phi r 0 s H2) as Ec. cbn in Ec. symmetry; exact Ec.
    - apply (is_derive_n_chain (fun e t => row_comb a (h e t) + switchF phi (map (fun k => Cond 0 0 k) r) (map (fun _ => 0) r) e t)).
      intros e s. apply (is_derive_plus (fun t => row_comb a (h e t)) (switchF phi (map (fun k => Cond 0 0 k) r) (map (fun _ => 0) r) e)); [apply Hd|apply switchF_deriv, H2]. }
  apply is_derive_n_unique in Ed. rewrite Em in Ed.
  rewrite (switchF_delta phi _ _ (c_ord c) (c_pt c) i) in Ed.
  - rewrite !nth_error_map, Ev in Ed. cbn in Ed. unfold KF. lra.
  - rewrite map_length. congruence.
  - rewrite !map_length. reflexivity.
  - intros j p Hp. apply (H3 i j c p Hc Hp).
Qed.
End Script.

Lemma odeF_ext y1 y2 t co : (forall s, y1 s = y2 s) -> forall e, odeF_from e co y1 t = odeF_from e co y2 t.
Proof. intros H. induction co as [|c co IH]; intros e; [reflexivity|]. cbn [odeF_from]. rewrite IH, (Derive_n_ext y1 y2 e t H). reflexivity. Qed.
