(** Proofs for C92 that need no matrices. *)
From Coq Require Import Reals Arith Lia Lra List Bool ZArith.
From Coquelicot Require Import Coquelicot.
From Verif Require Import Base ProofBase Numbers ModelBFPy ModelBFCpp ProofTab ProofBFPy ProofBFCpp SpecBasis ProofH ProofPoly
  ModelELM SpecELM ProofELM ModelUtfc SpecUtfc ProofUtfc ProofIndep SpecColl ProofColl ProofRecover ModelOde SpecOde.
Import ListNotations.
Open Scope R_scope.

(** ** polynomials *)
Definition pdern (e : nat) (l : list R) : list R := Nat.iter e pder l.
Lemma pdern_len e l : length (pdern e l) = (length l - e)%nat.
Proof. induction e as [|e IH]; [cbn; lia|]. change (pdern (S e) l) with (pder (pdern e l)). rewrite (proj1 (pder_shape _)), IH. lia. Qed.
Lemma is_derive_peval e l x : is_derive (peval (pdern e l)) x (peval (pdern (S e) l) x).
Proof. apply pder_ok. Qed.
Lemma is_derive_n_peval l e x : is_derive_n (peval l) e x (peval (pdern e l) x).
Proof. apply (is_derive_n_chain (fun e x => peval (pdern e l) x)). intros d y. apply is_derive_peval. Qed.
Lemma Derive_n_peval l e x : Derive_n (peval l) e x = peval (pdern e l) x.
Proof. apply is_derive_n_unique, is_derive_n_peval. Qed.
Lemma Derive_n_poly_at l e x : Derive_n (poly_at l) e x = peval (pdern e l) x.
Proof. rewrite <- Derive_n_peval. apply Derive_n_ext, poly_at_peval. Qed.
Lemma Derive_n_of (y : R -> R) l : (forall t, y t = peval l t) -> forall e t, Derive_n y e t = peval (pdern e l) t.
Proof. intros H e t. rewrite <- Derive_n_peval. apply Derive_n_ext, H. Qed.

Lemma pmul l1 l2 : exists l, (length l <= pred (length l1 + length l2))%nat /\ forall x, peval l x = peval l1 x * peval l2 x.
Proof.
  destruct l2 as [|b l2']; [exists []; split; [cbn; lia|intros; cbn; ring]|]. set (l2 := b :: l2').
  induction l1 as [|a l1 (l & Hl & E)]; [exists []; split; [cbn; lia|intros; cbn; ring]|].
  exists (padd (pscale a l2) (0 :: l)). split.
  - rewrite padd_length, pscale_length. cbn [length] in *. unfold l2 in *. cbn [length] in *. destruct l1; cbn [length] in *; [|lia].
    assert (length l <= length l2')%nat by lia. lia.
  - intros x. rewrite peval_padd, peval_pscale. cbn [peval]. rewrite E. ring.
Qed.
Lemma pmul_len l1 l2 n : (length l1 + length l2 <= S n)%nat -> exists l, (length l <= n)%nat /\ forall x, peval l x = peval l1 x * peval l2 x.
Proof. intros H. destruct (pmul l1 l2) as (l & Hl & E). exists l. split; [lia|exact E]. Qed.

(** a polynomial with as many coefficients as it has roots, at most, is zero *)
Lemma trim l : (forall x, peval l x = 0) \/ exists l', l' <> [] /\ last l' 0 <> 0 /\ (length l' <= length l)%nat /\ forall x, peval l' x = peval l x.
Proof.
  induction l as [|a l IH] using rev_ind; [left; reflexivity|].
  destruct (Req_dec a 0) as [->|Ha].
  - destruct IH as [IH|(l' & H1 & H2 & H3 & H4)]; [left|right; exists l'].
    + intros x. rewrite peval_app, IH. ring.
    + repeat split; try assumption; [rewrite app_length; lia|]. intros x. rewrite H4, peval_app. ring.
  - right. exists (l ++ [a]). repeat split; [destruct l; discriminate|rewrite last_last; exact Ha|lia].
Qed.
Lemma zero_everywhere l rs : NoDup rs -> (length l <= length rs)%nat -> (forall r, In r rs -> peval l r = 0) -> forall x, peval l x = 0.
Proof.
  intros Hnd Hl Hr. destruct (trim l) as [H|(l' & H1 & H2 & H3 & H4)]; [exact H|].
  destruct l' as [|a l']; [congruence|].
  assert (length rs <= length l')%nat; [|cbn in H3; lia].
  apply (roots (length l') (a :: l')); try assumption; [reflexivity|]. intros r Hin. rewrite H4. apply Hr, Hin.
Qed.

(** ** rows of the basis matrices *)
Section Rows.
Context (jvp : (R -> R) -> R -> R -> R) (Hj : jvp_ok jvp).
Local Notation uH := (utfc_H ROps RFun jvp).

Lemma rows0 be f N d deg x0 xf w b u : mk be (UB f) N (NcInt (Z.of_nat d)) deg x0 xf w b = Some u -> f <> FS ->
  (2 <= N)%nat -> x0 < xf ->
  exists h : nat -> R -> list R,
    (forall xs e, uH u xs e false = Some (Mat (length xs) (deg + 1 - d) (map (h e) xs))) /\
    (forall e x, length (h e x) = (deg + 1 - d)%nat) /\
    (forall a e x, is_derive (fun t => row_comb a (h e t)) x (row_comb a (h (S e) x))) /\
    (forall a, exists l, (length l <= deg + 1)%nat /\ forall x, row_comb a (h 0%nat x) = peval l x) /\
    (forall p, (length p <= deg + 1)%nat -> exists a r, (length r <= d)%nat /\ forall x, peval p x = row_comb a (h 0%nat x) + peval r x) /\
    length (u_x u) = N /\ NoDup (u_x u) /\ (d <= deg)%nat.
Proof.
  intros Hu Hf HN Hx. assert (Hne : x0 <> xf) by lra.
  destruct (mk_inv _ _ _ _ _ _ _ _ _ _ Hu) as (l & z & xs0 & El & Hl & _ & _ & _ & Eu).
  assert (El2 : l = map Z.of_nat (seq 0 d)) by (cbn [utfc_nC] in El; rewrite Nat2Z.id in El; congruence).
  assert (Hd : (d <= deg)%nat) by (rewrite El2, map_length, seq_length in Hl; exact Hl).
  assert (Hv : valid_nC l (S deg)) by (rewrite El2; apply valid_first; lia).
  assert (EB : u_B u = fam_init ROps RFun f x0 xf l (S deg)) by (rewrite Eu; reflexivity).
  assert (Ek : uks u false = seq d (deg + 1 - d)).
  { unfold uks. rewrite EB, fam_init_m, fam_init_nC, El2, keptc_first by lia. f_equal. lia. }
  pose (g := fun k e x => col f k e ((x - b_x0 (u_B u)) * b_c (u_B u) + b_z0 (u_B u)) * b_c (u_B u) ^ e).
  pose (h := fun e x => map (fun k => g k e x) (seq d (deg + 1 - d))).
  assert (HH : forall xs e, uH u xs e false = Some (Mat (length xs) (deg + 1 - d) (map (h e) xs))).
  { intros xs e. rewrite (uH_k jvp Hj _ _ _ _ _ _ _ _ _ _ xs e false Hu I I) by (intros _; rewrite (mk_nC _ _ _ _ _ _ _ _ _ _ _ Hu El); exact Hv).
    unfold kmat. rewrite Ek, seq_length. reflexivity. }
  assert (Hg : graded (fun i x => ftab f (0 + i) 0 (slope f x0 xf * x + offset f x0 xf)))
    by (apply cols_graded; [exact Hf|apply slope_nz; assumption]).
  assert (Eg : forall k x, g k 0%nat x = ftab f k 0 (slope f x0 xf * x + offset f x0 xf)).
  { intros k x. unfold g. rewrite EB at 1 2 3. rewrite zmap_ok, zmap_affine by assumption. cbn [pow].
    assert (Ec : forall z, col f k 0 z = ftab f k 0 z) by (intros; destruct f; try reflexivity; congruence).
    rewrite Ec. ring. }
  exists h. split; [exact HH|]. split; [intros; unfold h; rewrite map_length; apply seq_length|].
  split; [|split; [|split; [|split; [|split]]]].
  - intros a e x. unfold h.
    apply (deriv_row_comb g). intros k e2 x2 _. unfold g.
    set (c := b_c (u_B u)). set (p := b_x0 (u_B u)). set (z1 := b_z0 (u_B u)). cbn [pow].
    replace (col f k (S e2) ((x2 - p) * c + z1) * (c * c ^ e2)) with (c ^ e2 * (col f k (S e2) ((x2 - p) * c + z1) * c)) by ring.
    apply is_derive_ext with (f := fun t => c ^ e2 * col f k e2 ((t - p) * c + z1)); [intros y; apply Rmult_comm|].
    apply (is_derive_scal (fun t => col f k e2 ((t - p) * c + z1))).
    apply is_derive_affine, col_deriv.
  - intros a. destruct (comb_poly f (slope f x0 xf) (offset f x0 xf) Hf (slope_nz _ _ _ Hf Hne) a d (deg + 1 - d)) as (l' & Hl' & E).
    exists l'. split; [lia|]. intros x. unfold h. rewrite row_comb_seq, <- E. apply comb_ext. intros i _. apply Eg.
  - intros p Hp. destruct (graded_span _ Hg (deg + 1) p Hp) as (a & Ha).
    destruct (comb_graded _ a d Hg) as (r & Hr & Er).
    exists (fun i => a (d + i)%nat), r. split; [exact Hr|]. intros x. rewrite <- Er, <- Ha. unfold h. rewrite row_comb_seq.
    replace (deg + 1)%nat with (d + (deg + 1 - d))%nat at 1 by lia. generalize (deg + 1 - d)%nat as k. induction k as [|k IH].
    + rewrite Nat.add_0_r. cbn [comb]. ring.
    + rewrite Nat.add_succ_r. cbn [comb]. rewrite IH, Eg. cbn [Nat.add]. ring.
  - rewrite (c18_points _ _ _ _ _ _ _ _ _ _ HN Hne Hu), map_length, seq_length. reflexivity.
  - rewrite (c18_points _ _ _ _ _ _ _ _ _ _ HN Hne Hu). replace N with (S (N - 1)) at 2 by lia. apply points_nodup, Hx.
  - exact Hd.
Qed.
End Rows.

(** ** the script *)
Lemma mapM_hd {X Y} (g : X -> Y) (k : X -> option (list Y)) l : (forall x, k x = Some [g x]) ->
  mapM (fun x => r <- k x ;; hd_error r) l = Some (map g l).
Proof. intros H. induction l as [|x l IH]; [reflexivity|]. cbn [mapM map]. rewrite H. cbn [bind hd_error]. rewrite IH. reflexivity. Qed.
Lemma combine_map_l {X Y Z} (f : X -> Y) (g : Y * X -> Z) l : map g (combine (map f l) l) = map (fun x => g (f x, x)) l.
Proof. induction l as [|x l IH]; [reflexivity|]. cbn. rewrite IH. reflexivity. Qed.
Lemma combine_map_lr {X Y Y' Z} (f : X -> Y) (f' : X -> Y') (g : Y * Y' * X -> Z) l :
  map g (combine (combine (map f l) (map f' l)) l) = map (fun x => g (f x, f' x, x)) l.
Proof. induction l as [|x l IH]; [reflexivity|]. cbn. rewrite IH. reflexivity. Qed.

Lemma switch_deriv phi : forall cs ks e x, is_derive (switch phi cs ks e) x (switch phi cs ks (S e) x).
Proof.
  induction phi as [|p phi IH]; intros cs ks e x; [apply is_derive_Reals, derivable_pt_lim_const|].
  destruct cs as [|c cs], ks as [|k ks]; cbn [switch]; try (apply is_derive_Reals, derivable_pt_lim_const).
  apply (is_derive_plus (fun x => Derive_n (poly_at p) e x * (c_val c - k)) (switch phi cs ks e)); [|apply IH].
  rewrite (Rmult_comm (Derive_n _ (S e) x)).
  apply is_derive_ext with (f := fun x => (c_val c - k) * peval (pdern e p) x); [intros t; rewrite Derive_n_poly_at; apply Rmult_comm|].
  rewrite Derive_n_poly_at. apply (is_derive_scal (peval (pdern e p))), is_derive_peval.
Qed.
Lemma switch_poly phi n : (forall p, In p phi -> (length p <= n)%nat) -> forall cs ks, exists l, (length l <= n)%nat /\
  forall x, switch phi cs ks 0 x = peval l x.
Proof.
  intros H. induction phi as [|p phi IH]; intros cs ks; [exists []; split; [cbn; lia|reflexivity]|].
  destruct cs as [|c cs], ks as [|k ks]; try (exists []; split; [cbn; lia|reflexivity]).
  destruct (IH (fun p Hp => H p (or_intror Hp)) cs ks) as (l & Hl & E).
  exists (padd (pscale (c_val c - k) p) l). split.
  - rewrite padd_length, pscale_length. specialize (H p (or_introl eq_refl)). lia.
  - intros x. cbn [switch]. rewrite E, Derive_n_poly_at, peval_padd, peval_pscale. cbn. ring.
Qed.
Lemma switch_delta phi : forall cs ks e x i, length phi = length cs -> length ks = length cs ->
  (forall j p, nth_error phi j = Some p -> Derive_n (poly_at p) e x = if (i =? j)%nat then 1 else 0) ->
  switch phi cs ks e x = match nth_error cs i, nth_error ks i with Some c, Some k => c_val c - k | _, _ => 0 end.
Proof.
  induction phi as [|p phi IH]; intros cs ks e x i H1 H2 H.
  - destruct cs; [|discriminate]. destruct i; reflexivity.
  - destruct cs as [|c cs]; [discriminate|]. destruct ks as [|k ks]; [discriminate|]. cbn [switch].
    rewrite (H 0%nat p eq_refl). destruct i as [|i]; cbn [Nat.eqb nth_error].
    + rewrite (IH cs ks e x (length phi)); [|cbn in H1; lia|cbn in H2; lia|].
      * rewrite (proj2 (nth_error_None cs (length phi))) by (cbn in H1; lia). ring.
      * intros j q Hq. rewrite (H (S j) q Hq). destruct (Nat.eqb_spec (length phi) j) as [<-|]; [|reflexivity].
        rewrite (proj2 (nth_error_None phi _) (le_n _)) in Hq. discriminate.
    + rewrite (IH cs ks e x i); [ring|cbn in H1; lia|cbn in H2; lia|]. intros j q Hq. apply (H (S j) q Hq).
Qed.

(** functions affine in the coefficients *)
Section Aff.
Variable n : nat.
Definition aff (F : (nat -> R) -> R) : Type := {row : list R & {c : R | length row = n /\ forall a, F a = row_comb a row + c}}.
Fixpoint radd (r s : list R) : list R := match r, s with x :: r, y :: s => (x + y) :: radd r s | _, _ => [] end.
Lemma radd_len r : forall s, length r = length s -> length (radd r s) = length r.
Proof. induction r as [|x r IH]; intros [|y s] H; try discriminate; [reflexivity|]. cbn. rewrite IH; [reflexivity|]. cbn in H. lia. Qed.
Lemma radd_ok r : forall s a, length r = length s -> row_comb a (radd r s) = row_comb a r + row_comb a s.
Proof. induction r as [|x r IH]; intros [|y s] a H; try discriminate; cbn; [ring|]. rewrite IH; [ring|]. cbn in H. lia. Qed.
Lemma rscale_ok k r : forall a, row_comb a (pscale k r) = k * row_comb a r.
Proof. induction r as [|x r IH]; intros a; cbn; [ring|]. fold (pscale k r). rewrite IH. ring. Qed.
Lemma rzero_ok k : forall a, row_comb a (repeat 0 k) = 0.
Proof. induction k as [|k IH]; intros a; cbn; [reflexivity|]. rewrite IH. ring. Qed.
Lemma aff_row r : length r = n -> aff (fun a => row_comb a r).
Proof. intros H. exists r, 0. split; [exact H|]. intros; ring. Qed.
Lemma aff_const k : aff (fun _ => k).
Proof. exists (repeat 0 n), k. split; [apply repeat_length|]. intros; rewrite rzero_ok; ring. Qed.
Lemma aff_plus F G : aff F -> aff G -> aff (fun a => F a + G a).
Proof.
  intros (r & c & Hr & HF) (s & d & Hs & HG). exists (radd r s), (c + d). split; [rewrite radd_len; congruence|].
  intros a. rewrite radd_ok, HF, HG by congruence. ring.
Qed.
Lemma aff_scal k F : aff F -> aff (fun a => k * F a).
Proof. intros (r & c & Hr & HF). exists (pscale k r), (k * c). split; [rewrite pscale_length; exact Hr|]. intros a. rewrite rscale_ok, HF. ring. Qed.
Lemma aff_ext F G : (forall a, F a = G a) -> aff F -> aff G.
Proof. intros H (r & c & Hr & HF). exists r, c. split; [exact Hr|]. intros a. rewrite <- H. apply HF. Qed.
End Aff.

Section Script.
Context (jvp : (R -> R) -> R -> R -> R) (u : utfc (T:=R)) (n : nat) (h : nat -> R -> list R) (cs : list cond) (phi : list (list R)).
Hypothesis HH : forall xs e, utfc_H ROps RFun jvp u xs e false = Some (Mat (length xs) n (map (h e) xs)).
Hypothesis Hl : forall e x, length (h e x) = n.
Hypothesis Hd : forall a e x, is_derive (fun t => row_comb a (h e t)) x (row_comb a (h (S e) x)).

Definition K (a : nat -> R) (c : cond) : R := row_comb a (h (c_ord c) (c_pt c)).
Definition Y (a : nat -> R) (e : nat) (x : R) : R := row_comb a (h e x) + switch phi cs (map (K a) cs) e x.
Fixpoint L (e : nat) (co : list (list R)) (a : nat -> R) (x : R) : R :=
  match co with [] => 0 | c :: co => poly_at c x * Y a e x + L (S e) co a x end.

Lemma free_ok xs e a : free jvp u xs e a = Some (map (fun x => row_comb a (h e x)) xs).
Proof. unfold free. rewrite HH. cbn [bind md]. rewrite map_map. reflexivity. Qed.
Lemma expr_ok xs e a : expr jvp u cs phi xs e a = Some (map (Y a e) xs).
Proof.
  unfold expr. rewrite free_ok. cbn [bind].
  rewrite (mapM_hd (K a)) by (intros c; rewrite free_ok; reflexivity). cbn [bind]. rewrite combine_map_l. reflexivity.
Qed.
Lemma lhs_ok xs co a : forall e, lhs jvp u cs phi xs e co a = Some (map (L e co a) xs).
Proof.
  induction co as [|c co IH]; intros e; [reflexivity|]. cbn [lhs]. rewrite expr_ok. cbn [bind]. rewrite IH. cbn [bind].
  rewrite combine_map_lr. reflexivity.
Qed.
Lemma residual_ok co q a : residual jvp u cs phi co q a = Some (map (fun x => L 0 co a x - poly_at q x) (u_x u)).
Proof. unfold residual. rewrite lhs_ok. cbn [bind]. rewrite combine_map_l. reflexivity. Qed.

Lemma Y_deriv a e x : is_derive (Y a e) x (Y a (S e) x).
Proof. unfold Y. apply (is_derive_plus (fun x => row_comb a (h e x)) (switch phi cs (map (K a) cs) e)); [apply Hd|apply switch_deriv]. Qed.
Lemma Y_derive_n a e x : is_derive_n (Y a 0) e x (Y a e x).
Proof. apply (is_derive_n_chain (Y a)). intros; apply Y_deriv. Qed.
Lemma L_ode a x co : forall e, L e co a x = ode_from e co (Y a 0) x.
Proof.
  induction co as [|c co IH]; intros e; [reflexivity|]. cbn [L ode_from]. rewrite IH.
  rewrite (is_derive_n_unique _ _ _ _ (Y_derive_n a e x)). reflexivity.
Qed.
Lemma Y_meets a : switching cs phi -> forall c, In c cs -> meets (Y a 0) c.
Proof.
  intros (H1 & H2 & H3) c Hc. unfold meets. rewrite (is_derive_n_unique _ _ _ _ (Y_derive_n a _ _)).
  apply In_nth_error in Hc as (i & Hi). unfold Y.
  rewrite (switch_delta phi cs (map (K a) cs) (c_ord c) (c_pt c) i H1).
  - rewrite Hi, nth_error_map, Hi. cbn. unfold K. ring.
  - apply map_length.
  - intros j p Hp. apply (H3 i j c p Hi Hp).
Qed.
Lemma Y_aff e x : aff n (fun a => Y a e x).
Proof.
  unfold Y. apply aff_plus; [apply aff_row, Hl|].
  generalize phi as ph. induction cs as [|c l IH]; intros ph.
  - apply (aff_ext n (fun _ => 0)); [|apply aff_const]. intros a. destruct ph; reflexivity.
  - destruct ph as [|p ph]; [apply (aff_ext n (fun _ => 0)); [reflexivity|apply aff_const]|]. cbn [map switch]. apply aff_plus; [|apply IH].
    apply aff_scal. apply (aff_ext n (fun a => -1 * K a c + c_val c)); [intros; ring|].
    apply aff_plus; [|apply aff_const]. apply aff_scal, aff_row, Hl.
Qed.
Lemma L_aff x co : forall e, aff n (fun a => L e co a x).
Proof.
  induction co as [|c co IH]; intros e; [exact (aff_const n 0)|]. cbn [L]. apply aff_plus; [|apply IH]. apply aff_scal, Y_aff.
Qed.
Lemma res_aff co q x : aff n (fun a => L 0 co a x - poly_at q x).
Proof. apply (aff_ext n (fun a => L 0 co a x + - poly_at q x)); [intros; ring|]. apply aff_plus; [apply L_aff|apply aff_const]. Qed.
End Script.

(** the left-hand side of an equation, for a polynomial, is a polynomial *)
Lemma ode_poly n m l : (length l <= m)%nat -> forall co e, 
  (forall k c, nth_error co k = Some c -> (length c + m <= n + 1 + (e + k))%nat) ->
  exists r, (length r <= n)%nat /\ forall y, (forall t, y t = peval l t) -> forall t, ode_from e co y t = peval r t.
Proof.
  intros Hl. induction co as [|c co IH]; intros e H.
  - exists []. split; [cbn; lia|]. reflexivity.
  - destruct (IH (S e)) as (r & Hr & E); [intros k c' Hk; specialize (H (S k) c' Hk); lia|].
    specialize (H 0%nat c eq_refl).
    destruct (Nat.leb_spec (length l) e) as [Hle|Hgt].
    + exists r. split; [exact Hr|]. intros y Hy t. cbn [ode_from]. rewrite (E y Hy), (Derive_n_of y l Hy).
      assert (Hz : pdern e l = []) by (apply length_zero_iff_nil; rewrite pdern_len; lia). rewrite Hz. cbn. ring.
    + destruct (pmul_len c (pdern e l) n) as (s & Hs & Es); [rewrite pdern_len; lia|].
      exists (padd s r). split; [rewrite padd_length; lia|]. intros y Hy t. cbn [ode_from].
      rewrite (E y Hy), (Derive_n_of y l Hy), peval_padd, Es, poly_at_peval. ring.
Qed.
Lemma ode_ext y1 y2 t co : (forall s, y1 s = y2 s) -> forall e, ode_from e co y1 t = ode_from e co y2 t.
Proof. intros H. induction co as [|c co IH]; intros e; [reflexivity|]. cbn [ode_from]. rewrite IH, (Derive_n_ext y1 y2 e t H). reflexivity. Qed.

(** ** an initial value problem has one polynomial solution *)
Lemma pdern_sub e : forall p q t, peval (pdern e (padd p (pscale (-1) q))) t = peval (pdern e p) t - peval (pdern e q) t.
Proof.
  intros p q t. rewrite <- !Derive_n_peval.
  rewrite (Derive_n_ext _ (fun t => peval p t - peval q t)) by (intros s; rewrite peval_padd, peval_pscale; ring).
  apply is_derive_n_unique. 
  apply (is_derive_n_ext (fun s => peval (pdern 0 p) s - peval (pdern 0 q) s)); [reflexivity|].
  rewrite !Derive_n_peval.
  apply (is_derive_n_chain (fun e s => peval (pdern e p) s - peval (pdern e q) s)). intros d x.
  apply (is_derive_minus (peval (pdern d p)) (peval (pdern d q))); apply is_derive_peval.
Qed.

Section Unique.
Variables (x0 : R).
(** w_k with ((t - x0)^i w)^(k) = (t - x0)^(i-k) w_k *)
Fixpoint wk (i : nat) (w : list R) (k : nat) : list R :=
  match k with O => w | S k => padd (pscale (INR (i - k)) (wk i w k)) (padd (pscale (- x0) (pder (wk i w k))) (0 :: pder (wk i w k))) end.
Lemma wk_S i w k t : peval (wk i w (S k)) t = INR (i - k) * peval (wk i w k) t + (t - x0) * peval (pder (wk i w k)) t.
Proof. cbn [wk]. rewrite !peval_padd, !peval_pscale. cbn [peval]. ring. Qed.
Lemma wk_at i w : forall k, (k <= i)%nat -> exists c, c <> 0 /\ peval (wk i w k) x0 = c * peval w x0.
Proof.
  induction k as [|k IH]; intros H; [exists 1; split; [lra|cbn; ring]|].
  destruct IH as (c & Hc & E); [lia|]. exists (INR (i - k) * c). split.
  - apply Rmult_integral_contrapositive_currified; [apply not_0_INR; lia|exact Hc].
  - rewrite wk_S, E. ring.
Qed.
Lemma wk_deriv i w k t : (k <= i)%nat -> is_derive_n (fun t => (t - x0) ^ i * peval w t) k t ((t - x0) ^ (i - k) * peval (wk i w k) t).
Proof.
  revert t. induction k as [|k IH]; intros t H.
  - cbn. rewrite Nat.sub_0_r. reflexivity.
  - cbn [is_derive_n]. apply is_derive_ext with (f := fun t => (t - x0) ^ (i - k) * peval (wk i w k) t).
    + intros s. symmetry. apply is_derive_n_unique, IH. lia.
    + rewrite wk_S. replace (i - S k)%nat with (pred (i - k)) by lia. set (j := (i - k)%nat). assert (Hj : (0 < j)%nat) by lia.
      replace ((t - x0) ^ pred j * (INR j * peval (wk i w k) t + (t - x0) * peval (pder (wk i w k)) t))
        with (INR j * 1 * (t - x0) ^ pred j * peval (wk i w k) t + (t - x0) ^ j * peval (pder (wk i w k)) t)
        by (destruct j; [lia|cbn [pred pow]; ring]).
      apply (is_derive_mult (fun t => (t - x0) ^ j) (peval (wk i w k))).
      * apply (is_derive_pow (fun s => s - x0)). replace 1 with (1 - 0) by ring.
        apply is_derive_Reals, (derivable_pt_lim_minus (fun s => s) (fun _ => x0)); [apply derivable_pt_lim_id|apply derivable_pt_lim_const].
      * apply pder_ok.
      * intros; apply Rmult_comm.
Qed.

Lemma poly_zero_off l : (forall t, t <> x0 -> peval l t = 0) -> peval l x0 = 0.
Proof.
  intros H. apply (zero_everywhere l (map (fun k => x0 + INR (S k)) (seq 0 (length l)))).
  - apply FinFun.Injective_map_NoDup; [|apply seq_NoDup]. intros a b E. apply Rplus_eq_reg_l in E. apply INR_eq in E. lia.
  - rewrite map_length, seq_length. lia.
  - intros r Hr. apply in_map_iff in Hr as (k & <- & _). apply H. pose proof (pos_INR k). rewrite S_INR. lra.
Qed.

(** sum over the coefficients of c_k (t - x0)^(d-k) w_k *)
Fixpoint gsum (d : nat) (co : list (list R)) (e i : nat) (w : list R) (t : R) : R :=
  match co with [] => 0 | c :: co => poly_at c t * ((t - x0) ^ (d - e) * peval (wk i w e) t) + gsum d co (S e) i w t end.
Lemma gsum_poly d i w co : forall e, exists r, forall t, gsum d co e i w t = peval r t.
Proof.
  induction co as [|c co IH]; intros e; [exists []; reflexivity|]. destruct (IH (S e)) as (r & Hr).
  assert (Hp : forall m, exists s, forall t, (t - x0) ^ m = peval s t).
  { induction m as [|m (s & Hs)]; [exists [1]; intros; cbn; ring|].
    destruct (pmul [- x0; 1] s) as (s' & _ & E). exists s'. intros t. rewrite E, <- Hs. cbn. ring. }
  destruct (Hp (d - e)%nat) as (s & Hs). destruct (pmul s (wk i w e)) as (s1 & _ & E1). destruct (pmul c s1) as (s2 & _ & E2).
  exists (padd s2 r). intros t. cbn [gsum]. rewrite peval_padd, E2, E1, <- Hs, <- Hr, poly_at_peval. reflexivity.
Qed.
Lemma gsum_ode d i w co y : (forall t, y t = (t - x0) ^ i * peval w t) -> (d <= i)%nat -> forall e, (e + length co <= S d)%nat ->
  forall t, ode_from e co y t = (t - x0) ^ (i - d) * gsum d co e i w t.
Proof.
  intros Hy Hi. induction co as [|c co IH]; intros e He t; cbn [ode_from gsum]; [ring|]. cbn [length] in He.
  rewrite IH by lia. rewrite (Derive_n_ext y _ e t Hy).
  rewrite (is_derive_n_unique _ _ _ _ (wk_deriv i w e t ltac:(lia))).
  replace (i - e)%nat with ((i - d) + (d - e))%nat by lia. rewrite pow_add. ring.
Qed.
Lemma gsum_at d i w co : forall e, (e + length co = S d)%nat -> co <> [] ->
  gsum d co e i w x0 = poly_at (last co []) x0 * peval (wk i w d) x0.
Proof.
  induction co as [|c co IH]; intros e He Hne; [congruence|]. destruct co as [|c' co].
  - cbn in He. cbn [gsum last]. replace (d - e)%nat with 0%nat by lia. replace d with e by lia. cbn. ring.
  - change (gsum d (c :: c' :: co) e i w x0) with (poly_at c x0 * ((x0 - x0) ^ (d - e) * peval (wk i w e) x0) + gsum d (c' :: co) (S e) i w x0).
    change (last (c :: c' :: co) []) with (last (c' :: co) []). cbn [length] in He. rewrite IH; [|cbn [length]; lia|discriminate].
    rewrite Rminus_eq_0, pow_ne_zero by lia. ring.
Qed.

Lemma ivp_unique d co l : length co = S d -> poly_at (last co []) x0 <> 0 ->
  (forall k, (k < d)%nat -> peval (pdern k l) x0 = 0) -> (forall t, ode_from 0 co (peval l) t = 0) -> forall t, peval l t = 0.
Proof.
  intros Hco Ha Hi Ho.
  assert (H : forall i, exists w, (length w <= length l - i)%nat /\ forall t, peval l t = (t - x0) ^ i * peval w t).
  { induction i as [|i (w & Hw & E)]; [exists l; split; [lia|intros; cbn; ring]|].
    assert (Hz : peval w x0 = 0).
    { destruct (Nat.leb_spec d i) as [Hd|Hd].
      - destruct (gsum_poly d i w co 0) as (r & Hr).
        assert (Hr0 : peval r x0 = 0).
        { apply poly_zero_off. intros t Ht. rewrite <- Hr. specialize (Ho t).
          rewrite (gsum_ode d i w co (peval l) E Hd 0) in Ho by lia. apply Rmult_integral in Ho as [Ho|Ho]; [|exact Ho].
          exfalso. revert Ho. apply pow_nonzero. lra. }
        rewrite <- Hr, gsum_at in Hr0; [|lia|destruct co; [discriminate|discriminate]].
        destruct (wk_at i w d Hd) as (c & Hc & Ec). rewrite Ec in Hr0.
        apply Rmult_integral in Hr0 as [H0|H0]; [contradiction|]. apply Rmult_integral in H0 as [H0|H0]; [contradiction|exact H0].
      - specialize (Hi i Hd). rewrite <- Derive_n_peval in Hi. rewrite (Derive_n_ext _ _ i x0 E) in Hi.
        rewrite (is_derive_n_unique _ _ _ _ (wk_deriv i w i x0 (le_n _))) in Hi. rewrite Nat.sub_diag in Hi. cbn [pow] in Hi.
        destruct (wk_at i w i (le_n _)) as (c & Hc & Ec). rewrite Ec in Hi.
        rewrite Rmult_1_l in Hi. apply Rmult_integral in Hi as [H0|H0]; [contradiction|exact H0]. }
    destruct (synth w x0) as (q & Hq & Hlq & _). exists q. split; [lia|]. intros t. rewrite E. cbn [pow].
    replace (peval w t) with (peval w t - peval w x0) by (rewrite Hz; ring). rewrite Hq. ring. }
  destruct (H (length l)) as (w & Hw & E). destruct w; [|cbn in Hw; lia]. intros t. rewrite E. cbn. ring.
Qed.
End Unique.

(** ** coefficients *)
Definition mono (j : nat) : list R := repeat 0 j ++ [1].
Lemma mono_at j x : peval (mono j) x = x ^ j.
Proof. unfold mono. induction j as [|j IH]; cbn [repeat app peval pow]; [ring|]. rewrite IH. ring. Qed.
Lemma comb_scal k a g q : comb a (fun j => k * g j) q = k * comb a g q.
Proof. induction q as [|q IH]; cbn [comb]; [ring|]. rewrite IH. ring. Qed.
Lemma peval_comb l x : forall d, (length l <= d)%nat -> peval l x = comb (fun j => nth j l 0) (fun j => x ^ j) d.
Proof.
  induction l as [|a l IH]; intros d Hd.
  - rewrite (comb_ext_coef _ (fun _ => 0)) by (intros [|i] _; reflexivity). clear. induction d as [|d IH]; cbn [comb]; [reflexivity|]. rewrite <- IH. cbn. ring.
  - destruct d as [|d]; [cbn in Hd; lia|]. rewrite comb_shift. cbn [nth peval pow].
    rewrite (comb_scal x), <- IH by (cbn in Hd; lia). ring.
Qed.
Lemma pdern_comb l e x d : (length l <= d)%nat -> peval (pdern e l) x = comb (fun j => nth j l 0) (fun j => peval (pdern e (mono j)) x) d.
Proof.
  intros Hd. rewrite <- Derive_n_peval.
  rewrite (Derive_n_ext _ (fun s => comb (fun j => nth j l 0) (fun j => peval (pdern 0 (mono j)) s) d)).
  - apply is_derive_n_unique.
    apply (is_derive_n_chain (fun e s => comb (fun j => nth j l 0) (fun j => peval (pdern e (mono j)) s) d)). clear Hd. intros e' s.
    induction d as [|d IH]; cbn [comb]; [apply is_derive_Reals, derivable_pt_lim_const|].
    apply (is_derive_plus (fun s => comb (fun j => nth j l 0) (fun j => peval (pdern e' (mono j)) s) d) (fun s => nth d l 0 * peval (pdern e' (mono d)) s)); [exact IH|].
    apply (is_derive_scal (peval (pdern e' (mono d)))), is_derive_peval.
  - intros s. rewrite (peval_comb l s d Hd). apply comb_ext. intros i _. symmetry. apply mono_at.
Qed.
Definition c0 : cond := Cond 0 0 0.
Lemma switch_comb phi : forall cs ks e x d, length phi = d -> length cs = d -> length ks = d ->
  switch phi cs ks e x = comb (fun j => c_val (nth j cs c0) - nth j ks 0) (fun j => peval (pdern e (nth j phi [])) x) d.
Proof.
  induction phi as [|p phi IH]; intros cs ks e x d H1 H2 H3; [destruct d; [reflexivity|discriminate]|].
  destruct d as [|d]; [discriminate|]. destruct cs as [|c cs]; [discriminate|]. destruct ks as [|k ks]; [discriminate|].
  cbn [switch]. rewrite comb_shift. cbn [nth]. rewrite (IH cs ks e x d), Derive_n_poly_at; [ring|cbn in *; lia..].
Qed.
