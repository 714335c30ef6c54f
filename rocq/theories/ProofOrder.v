(** Derivative orders that may be any integer: proofs. *)
From Coq Require Import Reals Arith Lia Lra List Bool ZArith.
From Coquelicot Require Import Coquelicot.
From Verif Require Import Base ProofBase Numbers ModelBFPy ModelBFCpp ProofTab ProofBFPy ProofBFCpp SpecBasis ProofH
  ModelELM SpecELM ProofELM ModelOrder SpecOrder.
Import ListNotations.
Open Scope R_scope.

(** ** The recursion *)
Lemma climb_reach {X} (step : nat -> X -> option X) (rec : nat -> nat -> X -> option X) :
  (forall dc F, rec 0%nat dc F = Some F) ->
  (forall n dc F, rec (S n) dc F = (F' <- step dc F ;; rec n (S dc) F')) ->
  forall n lim dc F, (n <= lim)%nat -> climb lim step (Z.of_nat (dc + n)) dc F = rec n dc F.
Proof.
  intros H0 HS. induction n as [|n IH]; intros lim dc F Hl.
  - rewrite Nat.add_0_r, H0. destruct lim; cbn [climb]; rewrite Z.eqb_refl; reflexivity.
  - destruct lim as [|lim]; [lia|]. cbn [climb].
    destruct (Z.eqb_spec (Z.of_nat dc) (Z.of_nat (dc + S n))) as [E|_]; [lia|]. rewrite HS.
    destruct (step dc F) as [F'|]; cbn [bind]; [|reflexivity].
    replace (dc + S n)%nat with (S dc + n)%nat by lia. apply IH. lia.
Qed.
Lemma climb_none {X} (step : nat -> X -> option X) d : forall lim dc F,
  (d < Z.of_nat dc \/ Z.of_nat (dc + lim) < d)%Z -> climb lim step d dc F = None.
Proof.
  induction lim as [|lim IH]; intros dc F H; cbn [climb]; destruct (Z.eqb_spec (Z.of_nat dc) d) as [E|_]; try lia; [reflexivity|].
  destruct (step dc F) as [F'|]; cbn [bind]; [|reflexivity]. apply IH. lia.
Qed.

Lemma bind_assoc {X Y W} (a : option X) (f : X -> option Y) (g : Y -> option W) :
  (y <- (x <- a ;; f x) ;; g y) = (x <- a ;; y <- f x ;; g y).
Proof. destruct a; reflexivity. Qed.
Lemma bind_some {X} (a : option X) : (x <- a ;; Some x) = a.
Proof. destruct a; reflexivity. Qed.
Lemma bind_ext {X Y} (a : option X) (f g : X -> option Y) : (forall x, f x = g x) -> (x <- a ;; f x) = (x <- a ;; g x).
Proof. intros H. destruct a; [apply H|reflexivity]. Qed.

Lemma fam_eq_dec (f g : fam) : {f = g} + {f <> g}. Proof. decide equality. Qed.

Section Gen.
Context {T : Type} (A : Ops T) (E : Fun T) (lim : nat).

Lemma opowz_nat x d : opowz A x (Z.of_nat d) = opow A x d.
Proof. destruct d; [reflexivity|]. cbn [Z.of_nat opowz]. rewrite SuccNat2Pos.id_succ. reflexivity. Qed.

Definition py_rec (f : fam) (m : nat) (z : T) (n dc : nat) (F : buf T) : option (buf T) :=
  match f with
  | CP => py_cp_recurse A m z n dc F | LeP => py_lep_recurse A m z n dc F
  | LaP => py_lap_recurse A m z n dc F | HoPpro => py_hoppro_recurse A m z n dc F
  | HoPphy => py_hopphy_recurse A m z n dc F | FS => match n with O => Some F | S _ => None end
  end.
Definition cpp_rec (f : fam) (m : nat) (x : buf T) (nOut n dc : nat) (F : buf T) : option (buf T) :=
  match f with
  | CP => cpp_cp_deriv A m n dc x nOut F | LeP => cpp_lep_deriv A m n dc x nOut F
  | LaP => cpp_lap_deriv A m n dc x nOut F | HoPpro => cpp_hoppro_deriv A m n dc x nOut F
  | HoPphy => cpp_hopphy_deriv A m n dc x nOut F | FS => match n with O => Some F | S _ => None end
  end.
Lemma py_rec_0 f m z dc F : py_rec f m z 0 dc F = Some F. Proof. destruct f; reflexivity. Qed.
Lemma cpp_rec_0 f m x nOut dc F : cpp_rec f m x nOut 0 dc F = Some F. Proof. destruct f; reflexivity. Qed.
Lemma py_rec_S f m z n dc F : py_rec f m z (S n) dc F = (F' <- py_step A f m z dc F ;; py_rec f m z n (S dc) F').
Proof.
  destruct f; cbn [py_rec py_step py_cp_recurse py_lep_recurse py_lap_recurse py_hoppro_recurse py_hopphy_recurse bind];
    try reflexivity; rewrite !bind_assoc; apply bind_ext; intros u; rewrite !bind_assoc; apply bind_ext; intros v; reflexivity.
Qed.
Lemma cpp_rec_S f m x nOut n dc F : cpp_rec f m x nOut (S n) dc F = (F' <- cpp_step A f m x nOut dc F ;; cpp_rec f m x nOut n (S dc) F').
Proof.
  destruct f; cbn [cpp_rec cpp_step cpp_cp_deriv cpp_lep_deriv cpp_lap_deriv cpp_hoppro_deriv cpp_hopphy_deriv bind];
    try reflexivity; rewrite !bind_assoc; apply bind_ext; intros u; rewrite !bind_assoc; apply bind_ext; intros v;
    rewrite !bind_assoc; apply bind_ext; intros w; reflexivity.
Qed.
Lemma few_or m : ((m =? 1) || (m =? 2))%nat = false -> (m =? 1)%nat = false /\ (m =? 2)%nat = false.
Proof. destruct (m =? 1)%nat, (m =? 2)%nat; cbn; intros; try discriminate; auto. Qed.
Lemma py_hint_from_0 f m z d : f <> FS -> ((m =? 1) || (m =? 2))%nat = false ->
  py_fam_hint A E f m z d = (F <- py_fam_hint A E f m z 0 ;; py_rec f m z d 0 F).
Proof.
  intros Hf Hm. apply few_or in Hm as [H1 H2].
  destruct f; cbn [py_fam_hint py_rec]; [| | | | |congruence];
    unfold py_cp_hint, py_lep_hint, py_lap_hint, py_hoppro_hint, py_hopphy_hint; rewrite H1, H2;
    rewrite !bind_assoc; apply bind_ext; intros u; rewrite !bind_assoc; apply bind_ext; intros v; reflexivity.
Qed.
Lemma cpp_hint_from_0 f m d x nOut dark : f <> FS -> ((m =? 1) || (m =? 2))%nat = false ->
  cpp_hint A E f m d x nOut dark = (F <- cpp_hint A E f m 0 x nOut dark ;; cpp_rec f m x nOut d 0 F).
Proof.
  intros Hf Hm. apply few_or in Hm as [H1 H2].
  destruct f; cbn [cpp_hint cpp_rec]; [| | | | |congruence];
    unfold cpp_cp_hint, cpp_lep_hint, cpp_lap_hint, cpp_hoppro_hint, cpp_hopphy_hint; cbv zeta; rewrite H1, H2;
    rewrite !bind_assoc; apply bind_ext; intros u; rewrite !bind_assoc; apply bind_ext; intros v; reflexivity.
Qed.

(** ** Orders that are natural numbers *)
Lemma eqb_nat d k : (Z.of_nat d =? Z.of_nat k)%Z = (d =? k)%nat.
Proof. destruct (Z.eqb_spec (Z.of_nat d) (Z.of_nat k)), (Nat.eqb_spec d k); try reflexivity; lia. Qed.
Lemma mod_nat d : (Z.of_nat d mod 4)%Z = Z.of_nat (d mod 4).
Proof. rewrite Nat2Z.inj_mod. reflexivity. Qed.
Lemma rem_nat d : Z.rem (Z.of_nat d) 4 = Z.of_nat (d mod 4).
Proof. rewrite Z.rem_mod_nonneg by lia. apply mod_nat. Qed.
Lemma tests_nat d : ((Z.of_nat d =? 0) = (d =? 0)%nat /\ (Z.of_nat d =? 1) = (d =? 1)%nat /\ (Z.of_nat d =? 2) = (d =? 2)%nat)%Z.
Proof. repeat split; [apply (eqb_nat d 0)|apply (eqb_nat d 1)|apply (eqb_nat d 2)]. Qed.

Lemma py_fs_nat m z d : py_fs_hint_z A E m z (Z.of_nat d) = py_fs_hint A E m z d.
Proof.
  unfold py_fs_hint_z, py_fs_hint. rewrite !mod_nat. destruct (tests_nat d) as (-> & _). destruct (tests_nat (d mod 4)) as (-> & -> & ->).
  destruct d as [|d]; [reflexivity|]. unfold opowz. cbn [Z.of_nat]. rewrite !SuccNat2Pos.id_succ. reflexivity.
Qed.
Lemma cpp_fs_nat m d x nOut dark : cpp_fs_hint_z A E m (Z.of_nat d) x nOut dark = cpp_fs_hint A E m d x nOut dark.
Proof.
  unfold cpp_fs_hint_z, cpp_fs_hint. rewrite !rem_nat. destruct (tests_nat d) as (-> & _). destruct (tests_nat (d mod 4)) as (-> & -> & ->).
  destruct d as [|d]; [reflexivity|]. unfold opowz. cbn [Z.of_nat]. rewrite !SuccNat2Pos.id_succ. reflexivity.
Qed.
Lemma cpp_sin_nat m w b d x nOut dark : cpp_sin_hint_z A E m w b (Z.of_nat d) x nOut dark = cpp_sin_hint A E m w b d x nOut dark.
Proof.
  unfold cpp_sin_hint_z, cpp_sin_hint. rewrite !rem_nat. destruct (tests_nat (d mod 4)) as (-> & -> & ->).
  destruct d as [|d]; [reflexivity|]. unfold opowz. cbn [Z.of_nat]. rewrite !SuccNat2Pos.id_succ. reflexivity.
Qed.
Lemma like_nat d : like (Z.of_nat d) = d.
Proof. unfold like. destruct (Z.ltb_spec (Z.of_nat d) 0); lia. Qed.

Lemma py_row_nat f m z d : (1 <= m)%nat -> (f = FS \/ m <= 2 \/ d <= lim)%nat ->
  py_hint_row_z A E lim f m z (Z.of_nat d) = py_hint_row A E f m z d.
Proof.
  intros Hm1 H. unfold py_hint_row_z, py_hint_row.
  destruct (fam_eq_dec f FS) as [->|Hf]; [rewrite py_fs_nat; reflexivity|].
  change (match f with CP => py_cp_hint A m z d | LeP => py_lep_hint A m z d | LaP => py_lap_hint A m z d
       | HoPpro => py_hoppro_hint A m z d | HoPphy => py_hopphy_hint A m z d | FS => py_fs_hint A E m z d end) with (py_fam_hint A E f m z d).
  destruct ((m =? 1) || (m =? 2))%nat eqn:Em; [rewrite Nat2Z.id; destruct f; [..|congruence]; reflexivity|].
  rewrite (py_hint_from_0 f m z d Hf Em).
  assert (Hd : (d <= lim)%nat).
  { destruct H as [H|[H|H]]; [congruence| |exact H]. apply few_or in Em as [E1 E2]. apply Nat.eqb_neq in E1, E2. lia. }
  assert (Ec : forall F, climb lim (py_step A f m z) (Z.of_nat d) 0 F = py_rec f m z d 0 F)
    by (intros F; apply (climb_reach (py_step A f m z) (py_rec f m z) (py_rec_0 f m z) (py_rec_S f m z) d lim 0%nat F Hd)).
  destruct (py_fam_hint A E f m z 0) as [F|] eqn:E0; destruct f; try congruence; cbn [bind]; rewrite ?(Ec F); reflexivity.
Qed.
Lemma cpp_hint_nat f m d x nOut dark : (1 <= m)%nat -> (f = FS \/ m <= 2 \/ d <= lim)%nat ->
  cpp_hint_z A E lim f m (Z.of_nat d) x nOut dark = cpp_hint A E f m d x nOut dark.
Proof.
  intros Hm1 H. unfold cpp_hint_z.
  destruct (fam_eq_dec f FS) as [->|Hf]; [apply cpp_fs_nat|].
  destruct ((m =? 1) || (m =? 2))%nat eqn:Em; [rewrite Nat2Z.id; destruct f; [..|congruence]; reflexivity|].
  rewrite (cpp_hint_from_0 f m d x nOut dark Hf Em).
  assert (Hd : (d <= lim)%nat).
  { destruct H as [H|[H|H]]; [congruence| |exact H]. apply few_or in Em as [E1 E2]. apply Nat.eqb_neq in E1, E2. lia. }
  assert (Ec : forall F, climb lim (cpp_step A f m x nOut) (Z.of_nat d) 0 F = cpp_rec f m x nOut d 0 F)
    by (intros F; apply (climb_reach (cpp_step A f m x nOut) (cpp_rec f m x nOut) (cpp_rec_0 f m x nOut) (cpp_rec_S f m x nOut) d lim 0%nat F Hd)).
  destruct (cpp_hint A E f m 0 x nOut dark) as [F|] eqn:E0; destruct f; try congruence; cbn [bind]; rewrite ?(Ec F); reflexivity.
Qed.
Lemma py_hint_nat f m zs d : (1 <= m)%nat -> (f = FS \/ m <= 2 \/ d <= lim)%nat ->
  py_hint_z A E lim f m zs (Z.of_nat d) = py_hint A E f m zs d.
Proof.
  intros Hm H. unfold py_hint_z, py_hint. f_equal. induction zs as [|z zs IH]; [reflexivity|]. cbn [mapM]. rewrite py_row_nat, IH by assumption. reflexivity.
Qed.
Lemma py_elm_nat jvp f m w b zs d : (f = ReLU \/ d <= lim)%nat ->
  py_elm_hint_z A E lim jvp f m w b zs (Z.of_nat d) = py_elm_hint A E jvp f m w b zs d.
Proof.
  intros H.
  assert (K : (d <= lim)%nat -> climb lim (fun _ g => Some (fun wk bk => egrad1 A jvp (g wk bk))) (Z.of_nat d) 0 (py_act A E f) =
     Some (fun wk bk => py_recurse A jvp d (py_act A E f wk bk))).
  { intros Hd. apply (climb_reach (fun _ g => Some (fun wk bk => egrad1 A jvp (g wk bk)))
      (fun n _ (g : T -> T -> T -> T) => Some (fun wk bk => py_recurse A jvp n (g wk bk))) (fun _ _ => eq_refl) (fun _ _ _ => eq_refl) d lim 0%nat _ Hd). }
  destruct f; cbn [py_elm_hint_z py_elm_hint]; [rewrite like_nat; reflexivity|..];
    (destruct H as [H|H]; [discriminate|]; rewrite (K H); reflexivity).
Qed.
Lemma cpp_elm_nat f m w b d x nOut dark : cpp_elm_hint_z A E f m w b (Z.of_nat d) x nOut dark = cpp_elm_hint A E f m w b d x nOut dark.
Proof. destruct f; cbn [cpp_elm_hint_z]; rewrite ?like_nat; try reflexivity. apply cpp_sin_nat. Qed.

Lemma py_Hz_nat hint hintz B xs d full : (forall zs, hintz zs (Z.of_nat d) = hint zs d) ->
  py_Hz_with A hintz B xs (Z.of_nat d) full = py_H_with A hint B xs d full.
Proof. intros H. unfold py_Hz_with, py_H_with. rewrite H, opowz_nat. reflexivity. Qed.
Lemma cpp_Hz_nat hint hintz B xs d full : (forall x n dark, hintz (Z.of_nat d) x n dark = hint d x n dark) ->
  cpp_Hz_with A hintz B xs (Z.of_nat d) full =
  (r <- cpp_H_with A hint B (bof xs) (length xs) d full ;; let '(n, mOut, F) := r in rows <- buf_matrix F n mOut ;; Some (Mat n mOut rows)).
Proof.
  intros H. unfold cpp_Hz_with, cpp_H_with. rewrite opowz_nat. destruct (negb full && _)%bool; [reflexivity|].
  destruct (cpp_map_points A B (bof xs) (length xs)) as [z|]; cbn [bind]; [|reflexivity]. rewrite H.
  destruct (hint d z (length xs) _) as [dk|]; cbn [bind]; [|reflexivity]. destruct (cpp_emit _ _ _ _ _ _ _ _ _); reflexivity.
Qed.
End Gen.

Lemma H1z_nat lim be f x0 xf nC m xs d full : (1 <= m)%nat -> (f = FS \/ m <= 2 \/ d <= lim)%nat ->
  H1z lim be f x0 xf nC m xs (Z.of_nat d) full = H1 be f x0 xf nC m xs d full.
Proof.
  intros Hm H. destruct be; cbn [H1z H1].
  - apply py_Hz_nat. intros zs. rewrite fam_init_m. apply py_hint_nat; assumption.
  - apply cpp_Hz_nat. intros x n dark. rewrite fam_init_m. apply cpp_hint_nat; assumption.
Qed.
Lemma HEz_nat lim jvp be f w b x0 xf nC xs d full : (be = Cpp \/ f = ReLU \/ d <= lim)%nat ->
  HEz lim jvp be f w b x0 xf nC xs (Z.of_nat d) full = HE jvp be f w b x0 xf nC xs d full.
Proof.
  intros H. destruct be; cbn [HEz HE].
  - apply py_Hz_nat. intros zs. apply py_elm_nat. destruct H as [H|H]; [discriminate|exact H].
  - apply cpp_Hz_nat. intros x n dark. apply cpp_elm_nat.
Qed.

(** ** Orders out of reach *)
Lemma bind_none {X Y} (a : option X) : (x <- a ;; (None : option Y)) = None. Proof. destruct a; reflexivity. Qed.
Definition out_of_reach (lim : nat) (d : Z) : Prop := (d < 0 \/ Z.of_nat lim < d)%Z.
Lemma H1z_none lim be f x0 xf nC m xs d full : f <> FS -> (3 <= m)%nat -> xs <> [] -> out_of_reach lim d ->
  H1z lim be f x0 xf nC m xs d full = None.
Proof.
  intros Hf Hm Hxs Hd.
  assert (Em : ((m =? 1) || (m =? 2))%nat = false) by (destruct (Nat.eqb_spec m 1), (Nat.eqb_spec m 2); try lia; reflexivity).
  assert (Hc : forall X (step : nat -> X -> option X) F, climb lim step d 0 F = None) by (intros; apply climb_none; exact Hd).
  destruct be; cbn [H1z].
  - unfold py_Hz, py_Hz_with, py_hint_z. rewrite fam_init_m. destruct xs as [|x xs]; [congruence|]. cbn [map mapM].
    assert (En : forall z, py_hint_row_z ROps RFun lim f m z d = None).
    { intros z. unfold py_hint_row_z. rewrite Em. destruct f; try congruence; (match goal with |- (b <- (F <- ?a ;; _) ;; _) = _ => destruct a end; cbn [bind]; [rewrite Hc; reflexivity|reflexivity]). }
    rewrite En. reflexivity.
  - unfold cpp_Hz, cpp_Hz_with. rewrite fam_init_m. destruct (negb full && _)%bool; [reflexivity|].
    destruct (cpp_map_points _ _ _ _) as [z|]; cbn [bind]; [|reflexivity].
    assert (En : forall x n dark, cpp_hint_z ROps RFun lim f m d x n dark = None).
    { intros x n dark. unfold cpp_hint_z. rewrite Em. destruct f; try congruence; (match goal with |- (F <- ?a ;; _) = _ => destruct a end; cbn [bind]; [apply Hc|reflexivity]). }
    rewrite En. reflexivity.
Qed.
Lemma HEz_none lim jvp f w b x0 xf nC xs d full : f <> ReLU -> out_of_reach lim d -> HEz lim jvp Py f w b x0 xf nC xs d full = None.
Proof.
  intros Hf Hd. cbn [HEz]. unfold py_elm_Hz, py_Hz_with.
  destruct f; [congruence|..]; cbn [py_elm_hint_z]; rewrite climb_none by exact Hd; reflexivity.
Qed.

(** ** Negative orders that return *)
Definition zmat (B : basis (T:=R)) (G : nat -> R -> R) (s : R) (xs : list R) : mat R :=
  Mat (length xs) (b_m B) (map (fun x => map (fun k => G k ((x - b_x0 B) * b_c B + b_z0 B) * s) (seq 0 (b_m B))) xs).
Lemma zmat_ent B G s xs j k : ment (zmat B G s xs) j k =
  match nth_error xs j with
  | Some x => if (k <? b_m B)%nat then Some (G k ((x - b_x0 B) * b_c B + b_z0 B) * s) else None
  | None => None end.
Proof.
  unfold ment, zmat. cbn [md]. rewrite nth_error_map. destruct (nth_error xs j) as [x|]; cbn [option_map]; [|reflexivity].
  apply (nth_error_map_seq (fun k => G k ((x - b_x0 B) * b_c B + b_z0 B) * s)).
Qed.
Lemma zmat_shaped B G s xs : shaped (zmat B G s xs) (length xs) (b_m B).
Proof.
  repeat split; cbn [mr mc md zmat]; [apply map_length|]. intros row Hr. apply in_map_iff in Hr as (x & <- & _). rewrite map_length. apply seq_length.
Qed.
Lemma py_Hz_full hint G B xs d :
  (forall zs, hint zs d = Some (Mat (length zs) (b_m B) (map (fun z => map (fun k => G k z) (seq 0 (b_m B))) zs))) ->
  py_Hz_with ROps hint B xs d true = Some (zmat B G (opowz ROps (b_c B) d) xs).
Proof.
  intros H. unfold py_Hz_with. rewrite H. cbn [bind negb andb]. unfold mat_scale, zmat. cbn [mr mc md]. rewrite map_length, !map_map.
  do 2 f_equal. apply map_ext. intros x. rewrite map_map. apply map_ext. intros k. reflexivity.
Qed.
Lemma cpp_Hz_full hint G B xs d :
  (forall x zs n dark, pts x zs n -> blen dark = (b_m B * n)%nat -> exists b, hint d x n dark = Some b /\ cols b n (b_m B) (b_m B) (fun j k => G k (zs j))) ->
  cpp_Hz_with ROps hint B xs d true = Some (zmat B G (opowz ROps (b_c B) d) xs).
Proof.
  intros H. unfold cpp_Hz_with. cbn [negb andb].
  destruct (cpp_map_points_ok B (bof xs) _ _ (pts_bof xs)) as (z & Ez & Hz). rewrite Ez; cbn [bind].
  destruct (H z _ (length xs) (bnew (length xs * b_m B)) Hz) as (dk & Ed & Hd); [cbn; lia|]. rewrite Ed; cbn [bind].
  edestruct (cpp_emit_full (b_nC B) (b_m B) (length xs) (b_m B) (opowz ROps (b_c B) d) dk (bnew (b_m B * length xs)) _ Hd) as (F & EF & HF); [reflexivity|].
  rewrite EF; cbn [bind]. rewrite (buf_matrix_bmat F (length xs) (b_m B) _ (cols_bmat _ _ _ _ HF)). cbn [bind].
  unfold zmat. do 2 f_equal.
  rewrite <- (rows_of_points (fun x => map (fun k => G k ((x - b_x0 B) * b_c B + b_z0 B) * opowz ROps (b_c B) d) (seq 0 (b_m B)))). reflexivity.
Qed.

Lemma speed_c f x0 xf nC m : b_c (fam_init ROps RFun f x0 xf nC m) = speed f x0 xf.
Proof. destruct f; cbn; unfold Rdiv; ring. Qed.
Lemma opowz_neg c n : opowz ROps c (- Z.of_nat n) = / c ^ n.
Proof.
  destruct n as [|n]; [cbn; field|]. cbn [Z.of_nat Z.opp opowz]. rewrite SuccNat2Pos.id_succ, opow_R. cbn [ROps odiv o1]. unfold Rdiv. ring.
Qed.

(** *** one or two polynomials *)
Lemma H1z_few lim be f x0 xf nC m xs d : f <> FS -> (1 <= m <= 2)%nat -> (d <= 0)%Z ->
  H1z lim be f x0 xf nC m xs d true =
  Some (zmat (fam_init ROps RFun f x0 xf nC m) (fun k => col f k 0) (opowz ROps (speed f x0 xf) d) xs).
Proof.
  intros Hf Hm Hd. set (B := fam_init ROps RFun f x0 xf nC m).
  assert (Em : ((m =? 1) || (m =? 2))%nat = true) by (destruct (Nat.eqb_spec m 1), (Nat.eqb_spec m 2); try lia; reflexivity).
  assert (E0 : Z.to_nat d = 0%nat) by lia. rewrite <- (speed_c f x0 xf nC m). fold B.
  destruct be; cbn [H1z]; fold B.
  - apply py_Hz_full. intros zs. unfold B. rewrite fam_init_m. rewrite <- (py_hint_ok f m ltac:(lia) zs 0%nat). unfold py_hint_z, py_hint. f_equal.
    induction zs as [|z zs IH]; [reflexivity|]. cbn [mapM]. rewrite IH. f_equal.
    unfold py_hint_row_z, py_hint_row. rewrite Em, E0. destruct f; try congruence; reflexivity.
  - apply cpp_Hz_full. intros x zs n dark Hx Hl. unfold B in *. rewrite fam_init_m in *.
    destruct (cpp_hint_ok f m ltac:(lia) 0%nat x zs n dark Hx Hl) as (b & Eb & Hb). exists b. split; [|exact Hb].
    rewrite <- Eb. unfold cpp_hint_z. rewrite Em, E0. destruct f; try congruence; reflexivity.
Qed.
Lemma zmat_0 B G xs : full_mat B G xs 0 = zmat B (fun k => G k 0%nat) 1 xs.
Proof. reflexivity. Qed.

(** *** Fourier series *)
(** what the branches compute for the remainder [r] *)
Definition fsz (r d : Z) (k : nat) (z : R) : R :=
  match k with
  | O => if (d =? 0)%Z then 1 else 0
  | _ => let g := INR ((k + 1) / 2) in
         let ev := (k mod 2 =? 0)%nat in
         let p := opowz ROps g d in
         if (r =? 0)%Z then p * (if ev then cos (g * z) else sin (g * z))
         else if (r =? 1)%Z then p * (if ev then - sin (g * z) else cos (g * z))
         else if (r =? 2)%Z then p * (if ev then - cos (g * z) else - sin (g * z))
         else p * (if ev then sin (g * z) else - cos (g * z))
  end.
Lemma py_fsz_ok m z d : (1 <= m)%nat -> forall lim, py_hint_row_z ROps RFun lim FS m z d = Some (map (fun k => fsz (d mod 4) d k z) (seq 0 m)).
Proof.
  intros Hm lim. unfold py_hint_row_z.
  assert (H : exists b, py_fs_hint_z ROps RFun m z d = Some b /\ blen b = m /\ holds b m (fun k => fsz (d mod 4) d k z)).
  { unfold py_fs_hint_z.
    assert (Hinit : forall v, exists b, bwr (bfill m (o0 ROps)) 0 v = Some b /\ blen b = m /\ bcell b 0%nat = Some v).
    { intros v. rewrite bwr_in by (cbn; lia). eexists; split; [reflexivity|]. split; reflexivity. }
    assert (Hloop : forall (W : nat -> R) b, blen b = m -> bcell b 0%nat = Some (fsz (d mod 4) d 0 z) ->
       (forall k, (1 <= k)%nat -> W k = fsz (d mod 4) d k z) ->
       exists b', for_ 1 m (fun k F => bwr F k (W k)) b = Some b' /\ blen b' = m /\ holds b' m (fun k => fsz (d mod 4) d k z)).
    { intros W b Hl H0 HW.
      destruct (for_row m 1 m 0 (fun k => fsz (d mod 4) d k z) (fun k F => bwr F k (W k)) b) as (b' & E & Hl' & Hh'); [lia|lia|exact Hl| | |].
      - intros [|k] Hk; [exact H0|lia].
      - intros k b' Hk Hl' _. rewrite Nat.add_0_r, HW by lia. reflexivity.
      - exists b'. rewrite Nat.add_0_r in Hh'. repeat split; assumption. }
    destruct (Z.eqb_spec d 0) as [->|Hd].
    - destruct (Hinit (o1 ROps)) as (b & E & Hl & H0). rewrite E; cbn [bind]. apply Hloop; [exact Hl|exact H0|].
      intros [|k] Hk; [lia|]. unfold fsz. change (0 mod 4)%Z with 0%Z. cbn [Z.eqb opowz RFun fcos fsin ROps onat omul o1]. destruct (_ =? 0)%nat; ring.
    - destruct (Hinit (o0 ROps)) as (b & E & Hl & H0). rewrite E; cbn [bind].
      assert (H0' : bcell b 0%nat = Some (fsz (d mod 4) d 0 z)) by (rewrite H0; unfold fsz; destruct (Z.eqb_spec d 0); [lia|reflexivity]).
      destruct (Z.eqb_spec (d mod 4) 0) as [E0|N0]; [|destruct (Z.eqb_spec (d mod 4) 1) as [E1|N1]; [|destruct (Z.eqb_spec (d mod 4) 2) as [E2|N2]]];
        apply Hloop; try assumption; intros [|k] Hk; try lia; unfold fsz.
      + rewrite E0. cbn [Z.eqb RFun fcos fsin ROps onat omul oopp]. destruct (S k mod 2 =? 0)%nat; ring.
      + rewrite E1. cbn [Z.eqb Pos.eqb RFun fcos fsin ROps onat omul oopp]. destruct (S k mod 2 =? 0)%nat; ring.
      + rewrite E2. cbn [Z.eqb Pos.eqb RFun fcos fsin ROps onat omul oopp]. destruct (S k mod 2 =? 0)%nat; ring.
      + apply Z.eqb_neq in N0, N1, N2. rewrite N0, N1, N2. cbn [RFun fcos fsin ROps onat omul oopp]. destruct (S k mod 2 =? 0)%nat; ring. }
  destruct H as (b & -> & Hl & Hh). cbn [bind]. rewrite <- Hl. apply bto_list_holds. rewrite Hl; exact Hh.
Qed.
Lemma cpp_fsz_loop m r d x zs n even odd dark : (1 <= m)%nat -> pts x zs n -> cols dark n m 1 (fun j k => fsz r d k (zs j)) ->
  (forall k z, (1 <= k)%nat -> (if (k mod 2 =? 0)%nat then even (INR ((k + 1) / 2)) z else odd (INR ((k + 1) / 2)) z) = fsz r d k z) ->
  exists b, cpp_fs_loop ROps m x n even odd dark = Some b /\ cols b n m m (fun j k => fsz r d k (zs j)).
Proof.
  intros Hm Hx Hb HW. unfold cpp_fs_loop.
  destruct (for_cols m n 1 m 0 (fun j k => fsz r d k (zs j))
    (fun j k dark => let g := onat ROps ((j + 1) / 2) in xk <- brd x k ;;
       bwr dark (m * k + j)%nat (if (j mod 2 =? 0)%nat then even g xk else odd g xk)) dark) as (b & E & H); [lia|lia|exact Hb| |].
  - intros k j b' Hk Hj Hb'. cbv zeta. prd Hx. rewrite Nat.add_0_r. cbn [ROps onat]. rewrite HW by lia. reflexivity.
  - exists b. rewrite Nat.add_0_r in H. split; assumption.
Qed.
Lemma cpp_fsz_ok m d x zs n dark : (1 <= m)%nat -> pts x zs n -> blen dark = (m * n)%nat ->
  exists b, cpp_fs_hint_z ROps RFun m d x n dark = Some b /\ cols b n m m (fun j k => fsz (Z.rem d 4) d k (zs j)).
Proof.
  intros Hm Hx Hl. unfold cpp_fs_hint_z.
  assert (Hinit : forall v, v = fsz (Z.rem d 4) d 0 0 -> exists b, for_ 0 n (fun k dark => bwr dark (m * k)%nat v) dark = Some b /\
      cols b n m 1 (fun j k => fsz (Z.rem d 4) d k (zs j))).
  { intros v Hv. apply (for_cols1 m n 0 (fun j k => fsz (Z.rem d 4) d k (zs j))); [lia|apply cols_0, Hl|].
    intros j b' Hj _. rewrite Nat.add_0_r. f_equal. exact Hv. }
  destruct (Z.eqb_spec d 0) as [->|Hd].
  - destruct (Hinit (o1 ROps) eq_refl) as (b & E & Hb). rewrite E; cbn [bind]. apply (cpp_fsz_loop m _ 0 x zs n _ _ b Hm Hx Hb).
    intros [|k] z Hk; [lia|]. unfold fsz. change (Z.rem 0 4) with 0%Z. cbn [Z.eqb opowz RFun fcos fsin ROps onat omul o1]. destruct (_ =? 0)%nat; ring.
  - destruct (Hinit (o0 ROps)) as (b & E & Hb); [unfold fsz; destruct (Z.eqb_spec d 0); [lia|reflexivity]|]. rewrite E; cbn [bind].
    destruct (Z.eqb_spec (Z.rem d 4) 0) as [E0|N0]; [|destruct (Z.eqb_spec (Z.rem d 4) 1) as [E1|N1]; [|destruct (Z.eqb_spec (Z.rem d 4) 2) as [E2|N2]]];
      apply (cpp_fsz_loop m _ d x zs n _ _ b Hm Hx Hb); intros [|k] z Hk; try lia; unfold fsz.
    + rewrite E0. cbn [Z.eqb RFun fcos fsin ROps onat omul oopp]. destruct (S k mod 2 =? 0)%nat; ring.
    + rewrite E1. cbn [Z.eqb Pos.eqb RFun fcos fsin ROps onat omul oopp]. destruct (S k mod 2 =? 0)%nat; ring.
    + rewrite E2. cbn [Z.eqb Pos.eqb RFun fcos fsin ROps onat omul oopp]. destruct (S k mod 2 =? 0)%nat; ring.
    + apply Z.eqb_neq in N0, N1, N2. rewrite N0, N1, N2. cbn [RFun fcos fsin ROps onat omul oopp]. destruct (S k mod 2 =? 0)%nat; ring.
Qed.
Definition rem_of (be : backend) (d : Z) : Z := match be with Py => (d mod 4)%Z | Cpp => Z.rem d 4 end.
Lemma H1z_fs lim be x0 xf nC m xs d : (1 <= m)%nat ->
  H1z lim be FS x0 xf nC m xs d true = Some (zmat (fam_init ROps RFun FS x0 xf nC m) (fsz (rem_of be d) d) (opowz ROps (speed FS x0 xf) d) xs).
Proof.
  intros Hm. set (B := fam_init ROps RFun FS x0 xf nC m). rewrite <- (speed_c FS x0 xf nC m). fold B. destruct be; cbn [H1z]; fold B.
  - apply py_Hz_full. intros zs. change (b_m B) with m. unfold py_hint_z.
    rewrite (mapM_some_map _ (fun z => map (fun k => fsz (d mod 4) d k z) (seq 0 m))); [reflexivity|]. intros z _. apply (py_fsz_ok m z d Hm lim).
  - apply cpp_Hz_full. intros x zs n dark Hx Hl. apply cpp_fsz_ok; assumption.
Qed.

Lemma opowz_RZ x d : opowz ROps x d = powerRZ x d.
Proof. destruct d; cbn [opowz powerRZ]; [reflexivity|apply opow_R|]. rewrite opow_R. cbn [ROps odiv o1]. unfold Rdiv. ring. Qed.
Lemma opowz_succ g d : g <> 0 -> opowz ROps g (d + 1) = opowz ROps g d * g.
Proof. intros Hg. rewrite !opowz_RZ, powerRZ_add by exact Hg. f_equal. apply powerRZ_1. Qed.
Lemma half_pos k : (1 <= k)%nat -> INR ((k + 1) / 2) <> 0.
Proof. intros Hk. apply not_0_INR. pose proof (Nat.div_le_mono 2 (k + 1) 2 ltac:(lia) ltac:(lia)) as H. change (2 / 2)%nat with 1%nat in H. lia. Qed.
Lemma fsz_deriv k d z : (1 <= k)%nat -> is_derive (fsz (d mod 4) d k) z (fsz ((d + 1) mod 4) (d + 1) k z).
Proof.
  intros Hk. pose proof (half_pos k Hk) as Hg. destruct k as [|k]; [lia|]. unfold fsz.
  set (g := INR ((S k + 1) / 2)) in *. set (ev := (S k mod 2 =? 0)%nat). rewrite (opowz_succ g d Hg). set (p := opowz ROps g d).
  assert (Hr : ((d mod 4 = 0 /\ (d + 1) mod 4 = 1) \/ (d mod 4 = 1 /\ (d + 1) mod 4 = 2) \/ (d mod 4 = 2 /\ (d + 1) mod 4 = 3) \/
     (d mod 4 = 3 /\ (d + 1) mod 4 = 0))%Z).
  { pose proof (Z.mod_pos_bound d 4 ltac:(lia)). pose proof (Z.div_mod d 4 ltac:(lia)) as Hd.
    assert (Hs : ((d + 1) mod 4 = (d mod 4 + 1) mod 4)%Z) by (rewrite Z.add_mod_idemp_l by lia; reflexivity). rewrite Hs.
    assert ((d mod 4 = 0 \/ d mod 4 = 1 \/ d mod 4 = 2 \/ d mod 4 = 3)%Z) as [E|[E|[E|E]]] by lia; rewrite E; cbn; tauto. }
  destruct Hr as [[-> ->]|[[-> ->]|[[-> ->]|[-> ->]]]]; cbn [Z.eqb Pos.eqb]; destruct ev; auto_derive; trivial; ring.
Qed.
Lemma fsz_antiderivative c x0 z0 k n x : (1 <= k)%nat -> c <> 0 ->
  is_derive_n (fun t => fsz ((- Z.of_nat n) mod 4) (- Z.of_nat n) k ((t - x0) * c + z0) * opowz ROps c (- Z.of_nat n)) n x
    (fsz 0 0 k ((x - x0) * c + z0)).
Proof.
  intros Hk Hc. set (T := fun i => fsz ((Z.of_nat i - Z.of_nat n) mod 4) (Z.of_nat i - Z.of_nat n) k).
  pose proof (affine_chain T c x0 z0) as Ha.
  assert (HT : forall i z, is_derive (T i) z (T (S i) z)).
  { intros i z. unfold T. replace (Z.of_nat (S i) - Z.of_nat n)%Z with (Z.of_nat i - Z.of_nat n + 1)%Z by lia. apply fsz_deriv, Hk. }
  specialize (Ha HT n x).
  apply is_derive_n_ext with (fun t => / c ^ n * T 0%nat ((t - x0) * c + z0)).
  { intros t. unfold T. rewrite opowz_neg. cbn [Z.of_nat]. change (0 - Z.of_nat n)%Z with (- Z.of_nat n)%Z. ring. }
  assert (E : fsz 0 0 k ((x - x0) * c + z0) = / c ^ n * (T n ((x - x0) * c + z0) * c ^ n)).
  { unfold T. rewrite Z.sub_diag. change (0 mod 4)%Z with 0%Z. field. apply pow_nonzero, Hc. }
  rewrite E. destruct n as [|n].
  - cbn [is_derive_n] in *. rewrite <- Ha. reflexivity.
  - apply is_derive_n_scal_l, Ha.
Qed.
Lemma fsz_0 k z : fsz 0 0 k z = fscol k 0 z.
Proof. destruct k as [|k]; [reflexivity|]. unfold fsz, fscol. change (0 mod 4)%nat with 0%nat. reflexivity. Qed.
Lemma neg_mod n : ((- Z.of_nat n) mod 4 = (4 - Z.of_nat (n mod 4)) mod 4)%Z.
Proof.
  rewrite Nat2Z.inj_mod. change (Z.of_nat 4) with 4%Z. rewrite Zminus_mod_idemp_r.
  replace (4 - Z.of_nat n)%Z with (- Z.of_nat n + 1 * 4)%Z by lia. rewrite Z.mod_add by lia. reflexivity.
Qed.
Lemma neg_rem n : (Z.rem (- Z.of_nat n) 4 = - Z.of_nat (n mod 4))%Z.
Proof. rewrite Z.rem_opp_l by lia. rewrite rem_nat. reflexivity. Qed.
Lemma fsz_branch n k z : (n mod 4 <= 1)%nat -> fsz (Z.rem (- Z.of_nat n) 4) (- Z.of_nat n) k z = fsz ((- Z.of_nat n) mod 4) (- Z.of_nat n) k z.
Proof.
  intros Hn. rewrite neg_rem, neg_mod. destruct k as [|k]; [reflexivity|]. unfold fsz.
  destruct (n mod 4)%nat as [|[|r]]; [reflexivity|reflexivity|lia].
Qed.
Lemma fsz_apart n : (2 <= n mod 4)%nat -> fsz (Z.rem (- Z.of_nat n) 4) (- Z.of_nat n) 1 (- PI) <> fsz ((- Z.of_nat n) mod 4) (- Z.of_nat n) 1 (- PI).
Proof.
  intros Hn. rewrite neg_rem, neg_mod. pose proof (mod4_lt n) as H4. unfold fsz. change ((1 + 1) / 2)%nat with 1%nat. change (1 mod 2 =? 0)%nat with false. cbv iota.
  rewrite opowz_neg. cbn [INR]. rewrite pow1, Rinv_1, !Rmult_1_l.
  destruct (n mod 4)%nat as [|[|[|[|r]]]]; try lia; cbn -[cos sin PI]; rewrite ?sin_neg, ?cos_neg, ?sin_PI, ?cos_PI; lra.
Qed.
Lemma zmat_ext B G G' s xs : (forall k z, G k z = G' k z) -> zmat B G s xs = zmat B G' s xs.
Proof. intros H. unfold zmat. f_equal. apply map_ext. intros x. apply map_ext. intros k. rewrite H. reflexivity. Qed.
Lemma speed_nz f x0 xf : x0 <> xf -> speed f x0 xf <> 0.
Proof.
  intros Hx. assert (xf - x0 <> 0) as Hd by lra. pose proof PI_RGT_0.
  destruct f; cbn [speed]; try lra; apply Rmult_integral_contrapositive_currified; try (apply Rinv_neq_0_compat; exact Hd); lra.
Qed.

(** *** extreme learning machines *)
Definition ez0 (f : elm) (w b : list R) (k : nat) (z : R) : R := ecol f w b k 0 z.
Lemma elm_c x0 xf nC m : b_c (elm_init ROps x0 xf nC m) = / (xf - x0).
Proof. cbn. unfold Rdiv. ring. Qed.
Lemma elm_z x0 xf nC m x : (x - b_x0 (elm_init ROps x0 xf nC m)) * b_c (elm_init ROps x0 xf nC m) + b_z0 (elm_init ROps x0 xf nC m) = (x - x0) / (xf - x0).
Proof. cbn. unfold Rdiv. ring. Qed.
Lemma like_neg n : (1 <= n)%nat -> like (- Z.of_nat n) = 9%nat.
Proof. intros Hn. unfold like. destruct (Z.ltb_spec (- Z.of_nat n) 0); [reflexivity|lia]. Qed.
Lemma HEz_untabulated lim jvp f w b x0 xf nC xs n : f = Sigmoid \/ f = Tanh -> (1 <= n)%nat -> length b = length w ->
  HEz lim jvp Cpp f w b x0 xf nC xs (- Z.of_nat n) true =
  Some (zmat (elm_init ROps x0 xf nC (length w)) (ez0 f w b) (opowz ROps (/ (xf - x0)) (- Z.of_nat n)) xs).
Proof.
  intros Hf Hn Hb. cbn [HEz]. unfold cpp_elm_Hz. rewrite <- (elm_c x0 xf nC (length w)). apply cpp_Hz_full. rewrite elm_init_m.
  intros x zs m dark Hx Hl. destruct (case_none 9 ltac:(lia)) as (E1 & E2 & _).
  destruct (cpp_elm_hint_ok f w b 0 ltac:(destruct Hf; subst f; discriminate) ltac:(destruct Hf; subst f; cbn; lia) Hb 0%nat x zs m dark Hx Hl) as (b0 & E0 & H0).
  exists b0. split; [|exact H0]. rewrite <- E0. unfold cpp_elm_hint_z. rewrite like_neg by exact Hn.
  destruct Hf; subst f; cbn [cpp_elm_hint]; unfold cpp_sigmoid_hint, cpp_tanh_hint; rewrite ?E1, ?E2; reflexivity.
Qed.
Lemma HEz_relu_cpp lim jvp w b x0 xf nC xs n : (1 <= n)%nat -> length b = length w ->
  HEz lim jvp Cpp ReLU w b x0 xf nC xs (- Z.of_nat n) true =
  Some (zmat (elm_init ROps x0 xf nC (length w)) (fun _ _ => 0) (opowz ROps (/ (xf - x0)) (- Z.of_nat n)) xs).
Proof.
  intros Hn Hb. cbn [HEz]. unfold cpp_elm_Hz. rewrite <- (elm_c x0 xf nC (length w)). apply cpp_Hz_full. rewrite elm_init_m.
  intros x zs m dark Hx Hl. destruct (cpp_relu_ok w b Hb 9%nat x zs m dark Hx Hl) as (b0 & E0 & H0). exists b0. split; [|exact H0].
  rewrite <- E0. unfold cpp_elm_hint_z. rewrite like_neg by exact Hn. reflexivity.
Qed.
Lemma HEz_relu_py lim jvp w b x0 xf nC xs n : (1 <= n)%nat ->
  HEz lim jvp Py ReLU w b x0 xf nC xs (- Z.of_nat n) true =
  Some (Mat (length w) (length xs) (repeat (repeat (0 * opowz ROps (b_c (elm_init ROps x0 xf nC (length w))) (- Z.of_nat n)) (length xs)) (length w))).
Proof.
  intros Hn. cbn [HEz]. unfold py_elm_Hz, py_Hz_with, py_elm_hint_z. rewrite like_neg by exact Hn. unfold py_relu_hint. cbn [Nat.eqb bind negb andb].
  unfold mat_scale. cbn [mr mc md]. rewrite map_length, elm_init_m.
  assert (H : forall X Y (g : X -> Y) a m, map g (repeat a m) = repeat (g a) m) by (intros X Y g a m; induction m as [|m IH]; cbn; [|rewrite IH]; reflexivity).
  rewrite !H. reflexivity.
Qed.
Lemma HEz_swish lim jvp w b x0 xf nC xs n : (1 <= n)%nat -> length b = length w -> w <> [] -> xs <> [] ->
  HEz lim jvp Cpp Swish w b x0 xf nC xs (- Z.of_nat n) true = None.
Proof.
  intros Hd Hb Hw Hxs. cbn [HEz]. unfold cpp_elm_Hz, cpp_Hz_with. rewrite elm_init_m. cbn [negb andb].
  set (B := elm_init ROps x0 xf nC (length w)). set (nn := length xs). set (m := length w).
  assert (Hn : (0 < nn)%nat) by (unfold nn; destruct xs; cbn; [congruence|lia]).
  assert (Hm : (0 < m)%nat) by (unfold m; destruct w; cbn; [congruence|lia]).
  destruct (cpp_map_points_ok B (bof xs) _ _ (pts_bof xs)) as (z & Ez & Hz). fold nn in Ez, Hz. rewrite Ez; cbn [bind].
  unfold cpp_elm_hint_z. rewrite like_neg by exact Hd. cbn [cpp_elm_hint]. unfold cpp_swish_hint. cbn [Nat.eqb].
  edestruct (elm_loop_wbx_ok m nn w b z (fun j => (nth j xs 0 - b_x0 B) * b_c B + b_z0 B) (fun j k => nth k w 0 * ((nth j xs 0 - b_x0 B) * b_c B + b_z0 B) + nth k b 0)
     (fun wk xj bk => oadd ROps (omul ROps wk xj) bk) (bnew (nn * m))) as (zi & Ez' & Hz');
    [reflexivity|exact Hb|exact Hz|cbn; lia|reflexivity|]. rewrite Ez'; cbn [bind].
  edestruct (elm_loop_ok m nn (fun _ _ => None) (fun j k => act Sigmoid (nth k w 0 * ((nth j xs 0 - b_x0 B) * b_c B + b_z0 B) + nth k b 0))
     (fun j k _ => z <- brd zi (m * j + k)%nat ;;
        Some (odiv ROps (o1 ROps) (oadd ROps (o1 ROps) (fexp RFun (oopp ROps z))))) (bnew (nn * m))) as (sg & Es & Hsg);
    [cbn; lia|reflexivity| |].
  { intros j k b' Hj Hk _ _. crd Hz'. litR. cbn [act]. unfold Rdiv. rewrite Rmult_1_l. reflexivity. }
  rewrite Es; cbn [bind]. destruct (case_none 9 ltac:(lia)) as (_ & _ & ->). cbn [bind].
  unfold cpp_emit. rewrite for_none; [reflexivity|exact Hm|]. apply for_none; [exact Hn|].
  replace (m * 0 + 0)%nat with 0%nat by lia. unfold brd. destruct (Nat.ltb 0 _); reflexivity.
Qed.
(** the branches of the sine for a negative order *)
Definition sinz (w b : list R) (n k : nat) (z : R) : R :=
  / nth k w 0 ^ n * (if (n mod 4 =? 0)%nat then sin (nth k w 0 * z + nth k b 0) else - cos (nth k w 0 * z + nth k b 0)).
Lemma HEz_sin lim jvp w b x0 xf nC xs n : length b = length w ->
  HEz lim jvp Cpp Sin w b x0 xf nC xs (- Z.of_nat n) true =
  Some (zmat (elm_init ROps x0 xf nC (length w)) (sinz w b n) (opowz ROps (/ (xf - x0)) (- Z.of_nat n)) xs).
Proof.
  intros Hb. cbn [HEz]. unfold cpp_elm_Hz. rewrite <- (elm_c x0 xf nC (length w)). apply cpp_Hz_full. rewrite elm_init_m.
  intros x zs m dark Hx Hl. unfold cpp_elm_hint_z, cpp_sin_hint_z. rewrite neg_rem. pose proof (mod4_lt n) as H4.
  assert (H : forall body, (forall wk xj bk, body wk xj bk = / wk ^ n * (if (n mod 4 =? 0)%nat then sin (wk * xj + bk) else - cos (wk * xj + bk))) ->
     exists b0, elm_loop_wbx (length w) m (bof w) (bof b) x body dark = Some b0 /\ cols b0 m (length w) (length w) (fun j k => sinz w b n k (zs j))).
  { intros body Hbody. apply elm_loop_wbx_ok with zs; try assumption; try reflexivity. intros j k _ _. rewrite Hbody. reflexivity. }
  destruct (n mod 4)%nat as [|[|[|[|r]]]]; [| | | |lia]; cbn -[elm_loop_wbx ROps RFun opowz Z.of_nat]; apply H; intros wk xj bk; rewrite opowz_neg; cbn -[pow]; ring.
Qed.
