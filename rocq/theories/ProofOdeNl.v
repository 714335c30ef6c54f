From Coq Require Import List Arith Reals ZArith Lra Lia.
From Coquelicot Require Import Coquelicot.
From Verif Require Import Base ProofBase Numbers ModelBFPy SpecBasis ModelELM SpecELM ModelUtfc SpecUtfc ProofH ProofUtfc ProofTab ProofIndep SpecColl ProofColl
  ModelOde SpecOde ProofOde ModelOdeNl SpecOdeNl.
Import ListNotations.
Open Scope R_scope.

Lemma combine_map_llr {X A B C Z} (f1 : X -> A) (f2 : X -> B) (f3 : X -> C) (k : A * B * C * X -> Z) l :
  map k (combine (combine (combine (map f1 l) (map f2 l)) (map f3 l)) l) = map (fun x => k (f1 x, f2 x, f3 x, x)) l.
Proof. induction l as [|x l IH]; [reflexivity|]. cbn. rewrite IH. reflexivity. Qed.

Section Nl.
Context (jvp : (R -> R) -> R -> R -> R) (u : utfc (T:=R)) (n : nat) (h : nat -> R -> list R) (cs : list cond) (phi : list (list R)).
Hypothesis HH : forall xs e, utfc_H ROps RFun jvp u xs e false = Some (Mat (length xs) n (map (h e) xs)).
Lemma residual_nl_ok co g a b q xi : residual_nl jvp u cs phi co g a b q xi =
  Some (map (fun x => L h cs phi 0 co xi x + g x * Y h cs phi xi a x * Y h cs phi xi b x - q x) (u_x u)).
Proof.
  unfold residual_nl. rewrite (lhs_ok _ _ _ _ _ _ HH). cbn [bind]. rewrite !(expr_ok _ _ _ _ _ _ HH). cbn [bind].
  rewrite combine_map_llr. reflexivity.
Qed.
End Nl.

Lemma INR_nodup k : NoDup (map INR (seq 0 k)).
Proof. apply FinFun.Injective_map_NoDup; [intros x y; apply INR_eq|apply seq_NoDup]. Qed.

(** the remaining functions are independent of the small polynomials *)
Lemma rows0_indep jvp be f N d deg x0 xf w b u h : mk be (UB f) N (NcInt (Z.of_nat d)) deg x0 xf w b = Some u -> f <> FS -> x0 < xf ->
  (forall xs e, utfc_H ROps RFun jvp u xs e false = Some (Mat (length xs) (deg + 1 - d) (map (h e) xs))) ->
  forall a r, (length r <= d)%nat -> (forall x, row_comb a (h 0%nat x) = peval r x) -> forall i, (i < deg + 1 - d)%nat -> a i = 0.
Proof.
  intros Hu Hf Hx HH a r Hr E i Hi.
  destruct (mk_inv _ _ _ _ _ _ _ _ _ _ Hu) as (l & z & xs0 & El & Hl & _ & _ & _ & Eu).
  assert (El2 : l = map Z.of_nat (seq 0 d)) by (cbn [utfc_nC] in El; rewrite Nat2Z.id in El; congruence).
  assert (Hd : (d <= deg)%nat) by (rewrite El2, map_length, seq_length in Hl; exact Hl).
  set (xs := map INR (seq 0 (S deg))).
  destruct (c58 be f x0 xf d (S deg) xs a r Hf ltac:(lra) ltac:(lia) ltac:(lia) (INR_nodup _)) as (M & EM & H).
  - unfold xs. rewrite map_length, seq_length. lia.
  - exact Hr.
  - apply H; [|lia].
    assert (EH : utfc_H ROps RFun jvp u xs 0 false = H1 be f x0 xf (map Z.of_nat (seq 0 d)) (S deg) xs 0 false).
    { rewrite Eu. unfold utfc_H. cbn [u_be u_basis u_B]. rewrite <- El2. destruct be; reflexivity. }
    rewrite HH, EM in EH. assert (Emd : md M = map (h 0%nat) xs) by (apply some_inj in EH; rewrite <- EH; reflexivity). rewrite Emd.
    intros j x row Hj. rewrite nth_error_map, Hj. cbn [option_map]. intros Er. injection Er as <-.
    rewrite poly_at_peval. apply E.
Qed.

(** linear differential expressions of a difference of polynomials *)
Lemma Derive_n_psub p q e t : Derive_n (poly_at (padd p (pscale (-1) q))) e t = Derive_n (poly_at p) e t - Derive_n (poly_at q) e t.
Proof. rewrite !Derive_n_poly_at. apply pdern_sub. Qed.
Lemma ode_psub co p q t : ode co (poly_at (padd p (pscale (-1) q))) t = ode co (poly_at p) t - ode co (poly_at q) t.
Proof.
  unfold ode. generalize 0%nat as e. induction co as [|c co IH]; intros e; cbn [ode_from]; [ring|].
  rewrite IH, Derive_n_psub. ring.
Qed.

(** polynomials are bounded on bounded sets *)
Lemma peval_bound l T t : Rabs t <= T -> Rabs (peval l t) <= peval (map Rabs l) T.
Proof.
  intros Ht. induction l as [|c l IH]; [cbn; rewrite Rabs_R0; lra|]. cbn [map peval].
  eapply Rle_trans; [apply Rabs_triang|]. apply Rplus_le_compat_l. rewrite Rabs_mult.
  apply Rmult_le_compat; try apply Rabs_pos; assumption.
Qed.

(** the linearised equation is a linear differential equation: initial conditions determine its solution *)
Fixpoint addco (e : nat) (c : list R) (co : list (list R)) : list (list R) :=
  match co, e with [], _ => [] | x :: co, O => padd x c :: co | x :: co, S e => x :: addco e c co end.
Lemma addco_len c co : forall e, length (addco e c co) = length co.
Proof. induction co as [|x co IH]; intros [|e]; cbn; try rewrite IH; reflexivity. Qed.
Lemma addco_last c co : forall e, (S e < length co)%nat -> last (addco e c co) [] = last co [].
Proof.
  induction co as [|x co IH]; intros [|e] H; try (cbn in H; lia); destruct co as [|x' co]; try (cbn in H; lia); [reflexivity|].
  cbn [length] in H. specialize (IH e ltac:(cbn [length]; lia)). change (last (x :: addco e c (x' :: co)) [] = last (x' :: co) []).
  rewrite <- IH. destruct (addco e c (x' :: co)) eqn:E; [|reflexivity]. apply (f_equal (@length _)) in E. rewrite addco_len in E. discriminate.
Qed.
Lemma addco_ode c co y t : forall e k, (k < length co)%nat -> ode_from e (addco k c co) y t = ode_from e co y t + poly_at c t * Derive_n y (e + k) t.
Proof.
  induction co as [|x co IH]; intros e [|k] H; cbn [length] in H; try lia; cbn [addco ode_from].
  - rewrite Nat.add_0_r. pose proof (peval_padd x c t) as E. pose proof (poly_at_peval (padd x c) t) as E0.
    pose proof (poly_at_peval x t) as E1. pose proof (poly_at_peval c t) as E2. rewrite E0, E, <- E1, <- E2. ring.
  - rewrite IH by lia. replace (e + S k)%nat with (S e + k)%nat by lia. ring.
Qed.
Lemma addco_bound c co m n : forall e, (forall k x, nth_error co k = Some x -> (length x + m <= n + k)%nat) -> (length c + m <= n + e)%nat ->
  forall k x, nth_error (addco e c co) k = Some x -> (length x + m <= n + k)%nat.
Proof.
  revert n. induction co as [|y co IH]; intros n [|e] H Hc [|k] x E; cbn in E; try discriminate.
  - injection E as <-. rewrite padd_length. specialize (H 0%nat y eq_refl). lia.
  - exact (H (S k) x E).
  - injection E as <-. exact (H 0%nat y eq_refl).
  - specialize (IH (S n) e). replace (n + S k)%nat with (S n + k)%nat by lia. apply (IH (fun k x Hk => ltac:(specialize (H (S k) x Hk); lia)) ltac:(lia) k x E).
Qed.

Lemma ivp_isolated co gp a b p0 v d deg xs p : length co = S d -> poly_at (last co []) p0 <> 0 -> (a < d)%nat -> (b < d)%nat -> (d <= deg)%nat ->
  NoDup xs -> (length p <= deg + 1)%nat -> (forall k c, nth_error co k = Some c -> (length c + deg <= length xs + k)%nat) ->
  (length gp + 2 * deg <= length xs + a + b)%nat ->
  isolated co (poly_at gp) a b (initial p0 v d) (deg + 1) xs (poly_at p).
Proof.
  intros Hco Hlast Ha Hb Hd Hnd Hp Hc Hg w Hw Hini Hz t.
  destruct (pmul gp (pdern a p)) as (ca & Hca & Ea). destruct (pmul gp (pdern b p)) as (cb & Hcb & Eb).
  rewrite pdern_len in Hca, Hcb.
  set (co' := addco a cb (addco b ca co)).
  assert (E : forall s, nl_lin co (poly_at gp) a b (poly_at p) (poly_at w) s = ode_from 0 co' (peval w) s).
  { intros s. unfold nl_lin, ode, co'. rewrite !addco_ode by (rewrite ?addco_len; lia). cbn [Nat.add].
    rewrite (poly_at_peval ca), (poly_at_peval cb), Ea, Eb, <- !Derive_n_poly_at.
    change (peval w) with (poly_at w). change (peval gp) with (poly_at gp). ring. }
  rewrite poly_at_peval. apply (ivp_unique p0 d co').
  - unfold co'. rewrite !addco_len. exact Hco.
  - unfold co'. rewrite !addco_last by (rewrite ?addco_len; lia). exact Hlast.
  - intros k Hk. rewrite <- Derive_n_poly_at. apply (Hini (Cond k p0 (v k))). apply in_map_iff. exists k. split; [reflexivity|]. apply in_seq. lia.
  - destruct (ode_poly (length xs) (deg + 1) w Hw co' 0) as (r & Hr & Er).
    { intros k c Hk. enough (length c + deg <= length xs + k)%nat by lia. revert k c Hk. unfold co'.
      apply addco_bound; [apply addco_bound|].
      - exact Hc.
      - lia.
      - lia. }
    intros s. rewrite (Er (peval w) (fun s => eq_refl)). apply (zero_everywhere r xs Hnd Hr).
    intros x Hx. rewrite <- (Er (peval w) (fun s => eq_refl)), <- E. apply Hz, Hx.
Qed.
