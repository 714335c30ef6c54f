(** ELM bases: loops, activation derivatives, matrices. *)
From Coq Require Import Reals Arith Lia Lra List Bool ZArith.
From Coquelicot Require Import Coquelicot.
From Verif Require Import Base ProofBase Numbers ModelBFPy ModelBFCpp ProofTab ProofBFPy ProofBFCpp
  SpecBasis ProofH ModelELM SpecELM.
Import ListNotations.
Open Scope R_scope.

(** ** The double loop *)
Lemma elm_loop_ok {T} m n (W0 : nat -> nat -> option T) V body (b : buf T) :
  blen b = (m * n)%nat ->
  (forall j k, (j < n)%nat -> (k < m)%nat -> bcell b (m * j + k)%nat = W0 j k) ->
  (forall j k b', (j < n)%nat -> (k < m)%nat -> blen b' = (m * n)%nat ->
     bcell b' (m * j + k)%nat = W0 j k -> body j k b' = Some (V j k)) ->
  exists b', elm_loop m n body b = Some b' /\ cols b' n m m V.
Proof.
  intros Hl H0 Hbody. unfold elm_loop.
  set (P := fun (j k : nat) (b' : buf T) => blen b' = (m * n)%nat /\
     forall j' k', (j' < n)%nat -> (k' < m)%nat -> bcell b' (m * j' + k')%nat =
       if ((j' <? j) || ((j' =? j) && (k' <? k)))%nat then Some (V j' k') else W0 j' k').
  destruct (for_inv (fun j b' => P j 0%nat b')
     (fun j dark => for_ 0 m (fun k dark => v <- body j k dark ;; bwr dark (m * j + k)%nat v) dark) 0 n b)
    as (b' & E & Hl' & H').
  - lia.
  - split; [exact Hl|]. intros j' k' Hj' Hk'. rewrite H0 by assumption.
    destruct (Nat.ltb_spec j' 0); [lia|]. destruct (Nat.ltb_spec k' 0); [lia|].
    rewrite andb_false_r. reflexivity.
  - intros j b1 Hj HP.
    destruct (for_inv (fun k b' => P j k b')
       (fun k dark => v <- body j k dark ;; bwr dark (m * j + k)%nat v) 0 m b1) as (b2 & E2 & Hl2 & H2).
    + lia.
    + exact HP.
    + intros k b3 Hk [Hl3 H3].
      assert (Hc : bcell b3 (m * j + k)%nat = W0 j k).
      { rewrite H3 by lia. destruct (Nat.ltb_spec j j); [lia|]. destruct (Nat.ltb_spec k k); [lia|].
        rewrite andb_false_r. reflexivity. }
      rewrite (Hbody j k b3) by (lia || exact Hc). cbn [bind].
      rewrite bwr_in by (rewrite Hl3; nia). eexists; split; [reflexivity|].
      split; [exact Hl3|]. intros j' k' Hj' Hk'. cbn [bcell].
      destruct (Nat.eqb_spec (m * j' + k') (m * j + k)) as [He|He].
      * apply idx_inj in He; [|lia|lia]. destruct He as [-> ->].
        rewrite Nat.eqb_refl. destruct (Nat.ltb_spec k (S k)); [|lia]. rewrite orb_true_r. reflexivity.
      * rewrite H3 by assumption.
        destruct (Nat.ltb_spec j' j), (Nat.eqb_spec j' j), (Nat.ltb_spec k' k), (Nat.ltb_spec k' (S k));
          cbn; try reflexivity; try lia.
    + exists b2. split; [exact E2|]. split; [exact Hl2|]. intros j' k' Hj' Hk'. rewrite H2 by assumption.
      destruct (Nat.ltb_spec j' j), (Nat.eqb_spec j' j), (Nat.ltb_spec k' m), (Nat.ltb_spec j' (S j)),
        (Nat.eqb_spec j' (S j)), (Nat.ltb_spec k' 0); cbn; try reflexivity; lia.
  - exists b'. split; [exact E|]. split; [exact Hl'|]. intros j k Hj Hk. rewrite H' by assumption.
    destruct (Nat.ltb_spec j n); [reflexivity|lia].
Qed.

(** what a weight buffer must hold *)
Lemma elm_loop_wbx_ok m n w b x zs (V : nat -> nat -> R) body (dark : buf R) :
  length w = m -> length b = m -> pts x zs n -> blen dark = (m * n)%nat ->
  (forall j k, (j < n)%nat -> (k < m)%nat -> body (nth k w 0) (zs j) (nth k b 0) = V j k) ->
  exists b', elm_loop_wbx m n (bof w) (bof b) x body dark = Some b' /\ cols b' n m m V.
Proof.
  intros Hw Hb Hx Hl HV. unfold elm_loop_wbx.
  apply (elm_loop_ok m n (fun j k => bcell dark (m * j + k)%nat)); [exact Hl|reflexivity|].
  intros j k b' Hj Hk _ _. rewrite (pts_rd (bof w) (fun k => nth k w 0) m); [|rewrite <- Hw; apply pts_bof|exact Hk].
  cbn [bind]. prd Hx. rewrite (pts_rd (bof b) (fun k => nth k b 0) m); [|rewrite <- Hb; apply pts_bof|exact Hk].
  cbn [bind]. rewrite HV by assumption. reflexivity.
Qed.

Lemma cols_cell {T} (b : buf T) n m V j k : cols b n m m V -> (j < n)%nat -> (k < m)%nat ->
  bcell b (m * j + k)%nat = Some (V j k).
Proof. intros [_ H] Hj Hk. apply H; assumption. Qed.

Lemma wrd w m k : length w = m -> (k < m)%nat -> brd (bof w) k = Some (nth k w 0).
Proof. intros Hw Hk. apply (pts_rd (bof w) (fun k => nth k w 0) m); [rewrite <- Hw; apply pts_bof|exact Hk]. Qed.

Lemma elm_switch_ok m n w V case (f : R -> R -> R) dark :
  length w = m -> cols dark n m m V -> case = Some f ->
  exists b', cpp_elm_switch m n (bof w) case dark = Some b' /\
    cols b' n m m (fun j k => f (nth k w 0) (V j k)).
Proof.
  intros Hw Hc ->. unfold cpp_elm_switch.
  apply (elm_loop_ok m n (fun j k => Some (V j k))).
  - apply Hc.
  - intros j k Hj Hk. apply (cols_cell _ _ _ _ _ _ Hc Hj Hk).
  - intros j k b' Hj Hk Hl' Hc'. rewrite (wrd w m) by assumption. cbn [bind].
    rewrite brd_in by (rewrite Hl'; nia). rewrite Hc'. cbn [bind]. reflexivity.
Qed.

(** ** Literals *)
Lemma lit_R p : lit ROps p = IZR (Zpos p).
Proof.
  induction p as [p IH|p IH|]; cbn [lit].
  - rewrite IH. cbn [ROps oadd omul o1]. rewrite (Pos2Z.inj_xI p), plus_IZR, mult_IZR. lra.
  - rewrite IH. cbn [ROps oadd omul o1]. rewrite (Pos2Z.inj_xO p), mult_IZR. lra.
  - reflexivity.
Qed.

(** ** Derivative polynomials *)
Fixpoint hev (p : list Z) (s : R) : R := match p with [] => 0 | c :: p => IZR c + s * hev p s end.
Fixpoint padd (p q : list Z) : list Z :=
  match p, q with [], _ => q | _, [] => p | a :: p, b :: q => (a + b)%Z :: padd p q end.
Definition pscale (c : Z) (p : list Z) : list Z := map (Z.mul c) p.
(** derivative of c s^i, c' s^(i+1), ... divided by s^(i-1) *)
Fixpoint pder_from (i : Z) (p : list Z) : list Z :=
  match p with [] => [] | c :: p => (i * c)%Z :: pder_from (i + 1) p end.
Definition pder (p : list Z) : list Z := match p with [] => [] | _ :: p => pder_from 1 p end.
Fixpoint pmul (p q : list Z) : list Z :=
  match p with [] => [] | a :: p => padd (pscale a q) (0%Z :: pmul p q) end.

Lemma hev_add p q s : hev (padd p q) s = hev p s + hev q s.
Proof.
  revert q; induction p as [|a p IH]; intros [|b q]; cbn; try lra.
  rewrite IH, plus_IZR. lra.
Qed.
Lemma hev_scale c p s : hev (pscale c p) s = IZR c * hev p s.
Proof. induction p as [|a p IH]; cbn; [lra|]. fold (pscale c p). rewrite IH, mult_IZR. lra. Qed.
Lemma hev_mul p q s : hev (pmul p q) s = hev p s * hev q s.
Proof. induction p as [|a p IH]; cbn; [lra|]. rewrite hev_add, hev_scale. cbn. rewrite IH. lra. Qed.

Lemma hev_der_from p : forall i s,
  hev (pder_from i p) s = IZR i * hev p s + s * hev (pder p) s.
Proof.
  induction p as [|c p IH]; intros i s; cbn; [ring|].
  rewrite IH. rewrite (IH 1%Z), mult_IZR, plus_IZR. ring.
Qed.
Lemma hev_der p s : is_derive (hev p) s (hev (pder p) s).
Proof.
  induction p as [|c p IH]; cbn; [apply is_derive_Reals, derivable_pt_lim_const|].
  rewrite hev_der_from.
  replace (1 * hev p s + s * hev (pder p) s) with (0 + (1 * hev p s + s * hev (pder p) s)) by lra.
  apply @is_derive_plus; [apply is_derive_Reals, derivable_pt_lim_const|].
  apply @is_derive_mult; [apply @is_derive_id|exact IH|intros; apply Rmult_comm].
Qed.

(** polynomials of the derivatives of an activation [f] with [f' = hev q (f)] *)
Fixpoint dpoly (q : list Z) (d : nat) : list Z :=
  match d with O => [0; 1]%Z | S d => pmul q (pder (dpoly q d)) end.
Definition sq : list Z := [0; 1; -1]%Z.   (* s - s^2 *)
Definition tq : list Z := [1; 0; -1]%Z.   (* 1 - t^2 *)

Lemma dpoly_deriv q (f : R -> R) (Hf : forall u, is_derive f u (hev q (f u))) d u :
  is_derive (fun u => hev (dpoly q d) (f u)) u (hev (dpoly q (S d)) (f u)).
Proof.
  cbn [dpoly]. rewrite hev_mul.
  apply (is_derive_comp (hev (dpoly q d)) f); [apply hev_der|apply Hf].
Qed.

Lemma sig_pos u : 0 < 1 + exp (- u).
Proof. pose proof (exp_pos (- u)). lra. Qed.
Lemma sigmoid_deriv u : is_derive (act Sigmoid) u (hev sq (act Sigmoid u)).
Proof.
  unfold act. pose proof (sig_pos u) as H. auto_derive; [lra|]. cbn. field. lra.
Qed.
Lemma cosh_neq_0 u : cosh u <> 0.
Proof. pose proof (exp_pos u). pose proof (exp_pos (- u)). unfold cosh. lra. Qed.
Lemma tanh_deriv u : is_derive (act Tanh) u (hev tq (act Tanh u)).
Proof.
  unfold act, tanh, sinh, cosh.
  assert (H : exp u + exp (- u) <> 0) by (pose proof (exp_pos u); pose proof (exp_pos (- u)); lra).
  auto_derive; [lra|]. cbn. field. lra.
Qed.

Definition gact (f : elm) (d : nat) (u : R) : R :=
  match f with
  | ReLU => 0
  | Sigmoid => hev (dpoly sq d) (act Sigmoid u)
  | Tanh => hev (dpoly tq d) (act Tanh u)
  | Sin => match (d mod 4)%nat with O => sin u | 1%nat => cos u | 2%nat => - sin u | _ => - cos u end
  | Swish => match d with O => u * act Sigmoid u
             | S e => INR d * hev (dpoly sq e) (act Sigmoid u) + u * hev (dpoly sq d) (act Sigmoid u) end
  end.
Definition smooth (f : elm) : Prop := f <> ReLU.

Lemma gact_0 f u : smooth f -> gact f 0 u = act f u.
Proof.
  intros Hf. destruct f; [congruence| | | |]; cbn; try lra; reflexivity.
Qed.

Lemma id_mul_deriv (f : R -> R) u l : is_derive f u l -> is_derive (fun u => u * f u) u (1 * f u + u * l).
Proof.
  intros H. apply (is_derive_mult (fun u => u) f u 1 l); [apply @is_derive_id|exact H|intros; apply Rmult_comm].
Qed.

Lemma gact_deriv f d u : smooth f -> is_derive (gact f d) u (gact f (S d) u).
Proof.
  intros Hf. destruct f; [congruence| | | |].
  - apply dpoly_deriv, sigmoid_deriv.
  - apply dpoly_deriv, tanh_deriv.
  - unfold gact. rewrite mod4_succ. pose proof (mod4_lt d).
    destruct (d mod 4)%nat as [|[|[|[|r]]]]; try lia; auto_derive; trivial; ring.
  - destruct d as [|e]; unfold gact.
    + change (INR 1) with 1. cbn [dpoly hev].
      replace (1 * (IZR 0 + act Sigmoid u * (1 + act Sigmoid u * 0)) + u * hev (pmul sq (pder [0; 1]%Z)) (act Sigmoid u))
        with (1 * act Sigmoid u + u * hev (dpoly sq 1) (act Sigmoid u)) by (cbn [dpoly]; ring).
      apply id_mul_deriv.
      apply is_derive_ext with (fun u => hev (dpoly sq 0) (act Sigmoid u)); [intros; cbn; ring|].
      apply dpoly_deriv, sigmoid_deriv.
    + rewrite (S_INR (S e)).
      replace ((INR (S e) + 1) * hev (dpoly sq (S e)) (act Sigmoid u) + u * hev (dpoly sq (S (S e))) (act Sigmoid u))
        with (INR (S e) * hev (dpoly sq (S e)) (act Sigmoid u) +
              (1 * hev (dpoly sq (S e)) (act Sigmoid u) + u * hev (dpoly sq (S (S e))) (act Sigmoid u))) by ring.
      apply @is_derive_plus.
      * apply is_derive_scal. apply dpoly_deriv, sigmoid_deriv.
      * apply (id_mul_deriv (fun u => hev (dpoly sq (S e)) (act Sigmoid u))), dpoly_deriv, sigmoid_deriv.
Qed.

(** the entry for neuron [k] in the basis variable *)
Definition ecol (f : elm) (w b : list R) (k d : nat) (z : R) : R :=
  nth k w 0 ^ d * gact f d (nth k w 0 * z + nth k b 0).
Lemma ecol_deriv f w b k d z : smooth f -> is_derive (ecol f w b k d) z (ecol f w b k (S d) z).
Proof.
  intros Hf. unfold ecol. cbn [pow]. set (a := nth k w 0). set (c := nth k b 0).
  replace (a * a ^ d * gact f (S d) (a * z + c)) with (a ^ d * (a * gact f (S d) (a * z + c))) by ring.
  apply is_derive_scal.
  apply (is_derive_comp (gact f d) (fun z => a * z + c)); [apply gact_deriv, Hf|].
  auto_derive; trivial; ring.
Qed.

(** ** The C++ tables *)
Ltac litR := repeat rewrite lit_R; repeat rewrite opow_R;
  cbn [ROps oadd osub omul odiv oopp o0 o1 RFun fsin fcos fexp ftanh].
Lemma sigmoid_case_ok d f : cpp_sigmoid_case ROps d = Some f ->
  forall w s, f w s = w ^ d * hev (dpoly sq d) s.
Proof.
  intros Hf w s.
  do 9 (destruct d as [|d]; [try discriminate Hf; cbn [cpp_sigmoid_case] in Hf; apply some_inj in Hf; subst f;
    litR; match goal with |- context [dpoly sq ?n] => let v := eval vm_compute in (dpoly sq n) in
       change (dpoly sq n) with v end; cbn [hev]; ring|]).
  discriminate Hf.
Qed.
Lemma tanh_case_ok d f : cpp_tanh_case ROps d = Some f ->
  forall w s, f w s = w ^ d * hev (dpoly tq d) s.
Proof.
  intros Hf w s.
  do 9 (destruct d as [|d]; [try discriminate Hf; cbn [cpp_tanh_case] in Hf; apply some_inj in Hf; subst f;
    litR; match goal with |- context [dpoly tq ?n] => let v := eval vm_compute in (dpoly tq n) in
       change (dpoly tq n) with v end; cbn [hev]; ring|]).
  discriminate Hf.
Qed.
Lemma swish_case_ok d f : cpp_swish_case ROps d = Some f ->
  forall w s z, f w s z = w ^ d * (INR d * hev (dpoly sq (pred d)) s + z * hev (dpoly sq d) s).
Proof.
  intros Hf w s z.
  do 9 (destruct d as [|d]; [try discriminate Hf; cbn [cpp_swish_case] in Hf; apply some_inj in Hf; subst f;
    litR; cbn [pred]; repeat match goal with |- context [hev (dpoly sq ?n)] => let v := eval vm_compute in (dpoly sq n) in
       change (dpoly sq n) with v end; cbn [hev]; cbn [INR]; ring|]).
  discriminate Hf.
Qed.

(** orders for which the C++ has a formula *)
Definition tabulated (f : elm) (d : nat) : Prop :=
  match f with Sin => True | ReLU => False | _ => (d <= 8)%nat end.

Lemma act_sig w x b : 1 / (1 + exp (- w * x - b)) = act Sigmoid (w * x + b).
Proof. cbn. replace (- (w * x + b)) with (- w * x - b) by ring. unfold Rdiv. rewrite Rmult_1_l. reflexivity. Qed.

Lemma cpp_elm_hint_ok f w b d : smooth f -> tabulated f d -> length b = length w ->
  cpp_hint_spec (length w) (fun _ => cpp_elm_hint ROps RFun f (length w) (bof w) (bof b) d)
    (fun k _ => ecol f w b k d).
Proof.
  intros Hs Ht Hb _ x zs n dark Hx Hl. set (m := length w) in *. destruct f; [congruence| | | |]; cbn [cpp_elm_hint].
  - unfold cpp_sigmoid_hint.
    edestruct (elm_loop_wbx_ok m n w b x zs (fun j k => act Sigmoid (nth k w 0 * zs j + nth k b 0))) as (b1 & E1 & H1);
      [reflexivity|exact Hb|exact Hx|exact Hl| |rewrite E1; cbn [bind]].
    { intros j k Hj Hk. apply act_sig. }
    destruct d as [|d'].
    + exists b1. split; [reflexivity|]. eapply cols_ext; [exact H1|]. intros j k Hj Hk. unfold ecol. cbn; ring.
    + destruct (cpp_sigmoid_case ROps (S d')) as [fc|] eqn:Ec.
      2:{ exfalso. do 8 (destruct d' as [|d']; [discriminate Ec|]). cbn in Ht. lia. }
      destruct (elm_switch_ok m n w _ (Some fc) fc b1 eq_refl H1 eq_refl) as (b2 & E2 & H2).
      exists b2. split; [exact E2|]. eapply cols_ext; [exact H2|]. intros j k Hj Hk. cbn beta.
      rewrite (sigmoid_case_ok _ _ Ec). reflexivity.
  - unfold cpp_tanh_hint.
    edestruct (elm_loop_wbx_ok m n w b x zs (fun j k => act Tanh (nth k w 0 * zs j + nth k b 0))) as (b1 & E1 & H1);
      [reflexivity|exact Hb|exact Hx|exact Hl| |rewrite E1; cbn [bind]].
    { intros j k Hj Hk. reflexivity. }
    destruct d as [|d'].
    + exists b1. split; [reflexivity|]. eapply cols_ext; [exact H1|]. intros j k Hj Hk. unfold ecol. cbn; ring.
    + destruct (cpp_tanh_case ROps (S d')) as [fc|] eqn:Ec.
      2:{ exfalso. do 8 (destruct d' as [|d']; [discriminate Ec|]). cbn in Ht. lia. }
      destruct (elm_switch_ok m n w _ (Some fc) fc b1 eq_refl H1 eq_refl) as (b2 & E2 & H2).
      exists b2. split; [exact E2|]. eapply cols_ext; [exact H2|]. intros j k Hj Hk. cbn beta.
      rewrite (tanh_case_ok _ _ Ec). reflexivity.
  - unfold cpp_sin_hint. pose proof (mod4_lt d) as Hd4.
    destruct (Nat.eqb_spec (d mod 4) 0) as [E0|N0];
      [|destruct (Nat.eqb_spec (d mod 4) 1) as [E1|N1];
        [|destruct (Nat.eqb_spec (d mod 4) 2) as [E2|N2]]];
      apply elm_loop_wbx_ok with zs; try assumption; try reflexivity; intros j k Hj Hk; litR;
      unfold ecol, gact.
    + rewrite E0. ring.
    + rewrite E1. ring.
    + rewrite E2. ring.
    + replace (d mod 4)%nat with 3%nat by lia. ring.
  - unfold cpp_swish_hint. destruct (Nat.eqb_spec d 0) as [->|Hd].
    + apply elm_loop_wbx_ok with zs; try assumption; try reflexivity; intros j k Hj Hk; litR.
      unfold ecol, gact. rewrite <- act_sig. cbn [pow]. unfold Rdiv. ring.
    + edestruct (elm_loop_wbx_ok m n w b x zs (fun j k => nth k w 0 * zs j + nth k b 0)
         (fun wk xj bk => oadd ROps (omul ROps wk xj) bk) (bnew (n * m))) as (zi & Ez & Hz);
        [reflexivity|exact Hb|exact Hx|cbn; lia|reflexivity|]. rewrite Ez; cbn [bind].
      edestruct (elm_loop_ok m n (fun _ _ => None) (fun j k => act Sigmoid (nth k w 0 * zs j + nth k b 0))
         (fun j k _ => z <- brd zi (m * j + k)%nat ;;
            Some (odiv ROps (o1 ROps) (oadd ROps (o1 ROps) (fexp RFun (oopp ROps z))))) (bnew (n * m))) as (sg & Es & Hsg);
        [cbn; lia|reflexivity| |].
      { intros j k b' Hj Hk _ _. crd Hz. litR. cbn [act]. unfold Rdiv. rewrite Rmult_1_l. reflexivity. }
      rewrite Es; cbn [bind].
      destruct (cpp_swish_case ROps d) as [fc|] eqn:Ec.
      2:{ exfalso. cbn in Ht. do 9 (destruct d as [|d]; [first [lia|discriminate Ec]|]). lia. }
      edestruct (elm_loop_ok m n (fun j k => bcell dark (m * j + k)%nat) (fun j k => ecol Swish w b k d (zs j))
         (fun j k _ => wk <- brd (bof w) k ;; s <- brd sg (m * j + k)%nat ;; z <- brd zi (m * j + k)%nat ;;
            Some (fc wk s z)) dark) as (bb & Eb & Hbb);
        [exact Hl|reflexivity| |].
      { intros j k b' Hj Hk _ _. rewrite (wrd w m) by (reflexivity || exact Hk). cbn [bind]. crd Hsg. crd Hz.
        rewrite (swish_case_ok _ _ Ec). unfold ecol, gact. destruct d as [|e]; [lia|]. reflexivity. }
      exists bb. split; [exact Eb|exact Hbb].
Qed.

(** ** Python rows *)
Lemma combine_nth_map {Y} (g : R -> R -> Y) w b : length b = length w ->
  map (fun wb => g (fst wb) (snd wb)) (combine w b) = map (fun k => g (nth k w 0) (nth k b 0)) (seq 0 (length w)).
Proof.
  revert b; induction w as [|a w IH]; intros [|c b] H; try discriminate; [reflexivity|].
  cbn. f_equal. rewrite IH by (cbn in H; lia). rewrite <- seq_shift, map_map. reflexivity.
Qed.
Lemma py_rows_ok w b g zs : length b = length w ->
  py_rows w b g zs = map (fun z => map (fun k => g (nth k w 0) (nth k b 0) z) (seq 0 (length w))) zs.
Proof.
  intros H. unfold py_rows. apply map_ext. intros z. apply (combine_nth_map (fun a b => g a b z)), H.
Qed.

Lemma jvp_ext jvp (f g : R -> R) z l : jvp_ok jvp -> (forall t, f t = g t) -> is_derive g z l ->
  egrad1 ROps jvp f z = l.
Proof.
  intros Hj Hfg Hg. unfold egrad1. rewrite (Hj f z l); [cbn; ring|].
  apply (is_derive_ext g); [intros; symmetry; apply Hfg|exact Hg].
Qed.

Lemma py_recurse_ok jvp (G : nat -> R -> R) n : jvp_ok jvp ->
  (forall d z, is_derive (G d) z (G (S d) z)) ->
  forall d g, (forall z, g z = G d z) -> forall z, py_recurse ROps jvp n g z = G (n + d)%nat z.
Proof.
  intros Hj HG. induction n as [|n IH]; intros d g Hg z; cbn [py_recurse]; [apply Hg|].
  rewrite (IH (S d)); [f_equal; lia|]. intros t. apply (jvp_ext jvp g (G d)); [exact Hj|exact Hg|apply HG].
Qed.

Lemma py_act_ok f w b k z : smooth f ->
  py_act ROps RFun f (nth k w 0) (nth k b 0) z = ecol f w b k 0 z.
Proof.
  intros Hf. unfold ecol. rewrite gact_0 by exact Hf. cbn [pow]. rewrite Rmult_1_l.
  destruct f; [congruence| | | |]; cbn [py_act]; litR.
  - apply act_sig.
  - reflexivity.
  - reflexivity.
  - cbn [act]. replace (- (nth k w 0 * z + nth k b 0)) with (- nth k w 0 * z - nth k b 0) by ring. reflexivity.
Qed.

Lemma py_elm_hint_ok jvp f w b : jvp_ok jvp -> smooth f -> length b = length w ->
  py_hint_spec (length w) (py_elm_hint ROps RFun jvp f (length w) w b) (ecol f w b).
Proof.
  intros Hj Hf Hb zs d.
  assert (E : py_elm_hint ROps RFun jvp f (length w) w b zs d =
     Some (Mat (length zs) (length w) (py_rows w b (fun wk bk z => py_recurse ROps jvp d (py_act ROps RFun f wk bk) z) zs)))
    by (destruct f; [congruence| | | |]; reflexivity).
  rewrite E. rewrite py_rows_ok by exact Hb. do 2 f_equal. apply map_ext. intros z.
  apply map_ext. intros k.
  rewrite (py_recurse_ok jvp (ecol f w b k) d Hj (fun d z => ecol_deriv f w b k d z Hf) 0).
  - f_equal. lia.
  - intros t. apply py_act_ok, Hf.
Qed.

(** ** Matrices *)
Lemma elm_init_m x0 xf nC m : b_m (elm_init ROps x0 xf nC m) = m. Proof. reflexivity. Qed.

Lemma cpp_elm_H_eq f w b B xs d full :
  cpp_elm_H_mat ROps RFun f w b B xs d full =
  cpp_H_mat_with (fun _ => cpp_elm_hint ROps RFun f (b_m B) w b d) B xs d full.
Proof. reflexivity. Qed.

Definition elm_ok (be : backend) (f : elm) (d : nat) : Prop :=
  smooth f /\ match be with Py => True | Cpp => tabulated f d end.

Lemma full_mat_const B G xs d :
  full_mat B (fun k _ => G k d) xs d = full_mat B G xs d.
Proof. reflexivity. Qed.
Lemma part_mat_const B G xs d :
  part_mat B (fun k _ => G k d) xs d = part_mat B G xs d.
Proof. reflexivity. Qed.

Lemma HE_full jvp be f w b x0 xf nC xs d : jvp_ok jvp -> elm_ok be f d -> length b = length w ->
  HE jvp be f w b x0 xf nC xs d true = Some (full_mat (elm_init ROps x0 xf nC (length w)) (ecol f w b) xs d).
Proof.
  intros Hj [Hs Ht] Hb. destruct be; cbn [HE].
  - unfold py_elm_H. apply py_H_full. apply py_elm_hint_ok; assumption.
  - rewrite cpp_elm_H_eq, <- full_mat_const. apply cpp_H_full, cpp_elm_hint_ok; assumption.
Qed.
Lemma HE_part jvp be f w b x0 xf nC xs d : jvp_ok jvp -> elm_ok be f d -> length b = length w ->
  valid_nC nC (length w) ->
  HE jvp be f w b x0 xf nC xs d false = Some (part_mat (elm_init ROps x0 xf nC (length w)) (ecol f w b) xs d).
Proof.
  intros Hj [Hs Ht] Hb Hv. destruct be; cbn [HE].
  - unfold py_elm_H. apply py_H_part; [apply py_elm_hint_ok; assumption|apply Hv].
  - rewrite cpp_elm_H_eq, <- part_mat_const. apply cpp_H_part; [apply cpp_elm_hint_ok; assumption|exact Hv].
Qed.

Lemma neuron_full f w b x0 xf nC xs d : smooth f -> x0 <> xf ->
  neuron_matrix everywhere f w b x0 xf xs d (full_mat (elm_init ROps x0 xf nC (length w)) (ecol f w b) xs d).
Proof.
  intros Hs Hx. split; [apply full_mat_shaped|]. intros j k x Hj Hk _.
  rewrite full_mat_ent, Hj. rewrite elm_init_m. destruct (Nat.ltb_spec k (length w)); [|lia].
  eexists; split; [reflexivity|]. set (B := elm_init ROps x0 xf nC (length w)).
  apply is_derive_n_ext with (fun t => ecol f w b k 0 ((t - b_x0 B) * b_c B + b_z0 B)).
  - intros t. unfold ecol, neuron. cbn [pow]. rewrite Rmult_1_l, gact_0 by exact Hs.
    f_equal. f_equal. cbn. field. lra.
  - apply (affine_chain (ecol f w b k)). intros; apply ecol_deriv, Hs.
Qed.

Lemma c10_11 jvp be f w b x0 xf nC xs d : jvp_ok jvp -> elm_ok be f d -> length b = length w -> x0 <> xf ->
  exists M, HE jvp be f w b x0 xf nC xs d true = Some M /\ neuron_matrix everywhere f w b x0 xf xs d M.
Proof.
  intros Hj He Hb Hx. eexists. split; [apply HE_full; assumption|].
  apply neuron_full; [apply He|exact Hx].
Qed.

(** *** beyond the tables *)
Lemma case_none d : (9 <= d)%nat -> cpp_sigmoid_case ROps d = None /\ cpp_tanh_case ROps d = None /\ cpp_swish_case ROps d = None.
Proof. intros Hd. do 9 (destruct d as [|d]; [lia|]). repeat split. Qed.

Lemma c11_untabulated jvp f w b x0 xf nC xs d : f = Sigmoid \/ f = Tanh -> (9 <= d)%nat ->
  length b = length w ->
  exists M, HE jvp Cpp f w b x0 xf nC xs d true = Some M /\
  forall j k x, nth_error xs j = Some x -> (k < length w)%nat ->
    ment M j k = Some (neuron f w b x0 xf k x * (/ (xf - x0)) ^ d).
Proof.
  intros Hf Hd Hb.
  exists (full_mat (elm_init ROps x0 xf nC (length w)) (fun k _ => ecol f w b k 0) xs d). split.
  - cbn [HE]. rewrite cpp_elm_H_eq. apply cpp_H_full.
    intros d' x zs n dark Hx Hl. destruct (case_none d Hd) as (E1 & E2 & _).
    destruct (cpp_elm_hint_ok f w b 0 ltac:(destruct Hf; subst f; discriminate) ltac:(destruct Hf; subst f; cbn; lia) Hb 0%nat x zs n dark Hx Hl)
      as (b0 & E0 & H0).
    exists b0. split; [|exact H0]. rewrite <- E0.
    destruct Hf; subst f; cbn [cpp_elm_hint]; unfold cpp_sigmoid_hint, cpp_tanh_hint; rewrite ?E1, ?E2; reflexivity.
  - intros j k x Hj Hk. rewrite full_mat_ent, Hj, elm_init_m. destruct (Nat.ltb_spec k (length w)); [|lia].
    unfold ecol. cbn [pow]. rewrite Rmult_1_l, gact_0 by (destruct Hf; subst f; discriminate). f_equal.
    unfold neuron. f_equal.
    + f_equal. f_equal. cbn. unfold Rdiv. ring.
    + f_equal. cbn. unfold Rdiv. ring.
Qed.

Lemma is_derive_n_const_S (a : R) d x : is_derive_n (fun _ => a) (S d) x 0.
Proof.
  revert x. induction d as [|d IH]; intros x.
  - cbn. apply is_derive_Reals, derivable_pt_lim_const.
  - cbn. apply is_derive_ext with (fun _ => 0).
    + intros t. symmetry. apply (is_derive_n_unique _ (S d)), IH.
    + apply is_derive_Reals, derivable_pt_lim_const.
Qed.

Lemma act_pos f : f = Sigmoid \/ f = Tanh -> act f 1 <> 0.
Proof.
  intros [->| ->]; unfold act.
  - pose proof (sig_pos 1). apply Rinv_neq_0_compat. lra.
  - unfold tanh, sinh, cosh. pose proof (exp_pos 1). pose proof (exp_pos (Ropp 1)).
    assert (exp (Ropp 1) < exp 1) by (apply exp_increasing; lra).
    apply Rmult_integral_contrapositive. split; [lra|]. apply Rinv_neq_0_compat. lra.
Qed.

Lemma c11_refuted jvp f d : f = Sigmoid \/ f = Tanh -> (9 <= d)%nat ->
  exists M, HE jvp Cpp f [0] [1] 0 1 [] [0] d true = Some M /\ ~ neuron_matrix everywhere f [0] [1] 0 1 [0] d M.
Proof.
  intros Hf Hd. destruct (c11_untabulated jvp f [0] [1] 0 1 [] [0] d Hf Hd eq_refl) as (M & EM & HM).
  exists M. split; [exact EM|]. intros [_ Hn].
  specialize (HM 0%nat 0%nat 0 eq_refl (Nat.lt_succ_diag_r 0)).
  destruct (Hn 0%nat 0%nat 0 eq_refl (Nat.lt_succ_diag_r 0) I) as (v & Ev & Hv).
  rewrite HM in Ev. apply some_inj in Ev.
  assert (Hc : is_derive_n (neuron f [0] [1] 0 1 0) d 0 0).
  { destruct d as [|d']; [lia|]. apply is_derive_n_ext with (fun _ => act f 1); [|apply is_derive_n_const_S].
    intros t. unfold neuron. cbn. f_equal. lra. }
  pose proof (is_derive_n_unique _ _ _ _ Hv) as Q. rewrite (is_derive_n_unique _ _ _ _ Hc) in Q.
  rewrite <- Ev in Q. unfold neuron in Q. cbn [nth] in Q.
  replace (0 * ((0 - 0) / (1 - 0)) + 1) with 1 in Q by lra.
  replace (/ (1 - 0)) with 1 in Q by lra. rewrite pow1, Rmult_1_r in Q.
  apply (act_pos f Hf). symmetry. exact Q.
Qed.

Lemma buf_matrix_none {T} (b : buf T) n c j k : (j < n)%nat -> (k < c)%nat -> brd b (c * j + k) = None ->
  buf_matrix b n c = None.
Proof.
  intros Hj Hk H. unfold buf_matrix. apply (mapM_none _ _ j); [apply in_seq; lia|].
  apply (mapM_none _ _ k); [apply in_seq; lia|]. exact H.
Qed.

Lemma iter_none {S} n lo body (s : S) : (1 <= n)%nat -> body lo s = None -> iter_ n lo body s = None.
Proof. intros Hn H. destruct n; [lia|]. cbn. rewrite H. reflexivity. Qed.
Lemma for_none {S} lo hi body (s : S) : (lo < hi)%nat -> body lo s = None -> for_ lo hi body s = None.
Proof. intros Hn H. unfold for_. apply iter_none; [lia|exact H]. Qed.

Lemma c11_swish_undefined jvp w b x0 xf nC xs d : (9 <= d)%nat -> length b = length w ->
  w <> [] -> xs <> [] -> HE jvp Cpp Swish w b x0 xf nC xs d true = None.
Proof.
  intros Hd Hb Hw Hxs. cbn [HE]. rewrite cpp_elm_H_eq. unfold cpp_H_mat_with, cpp_H_with.
  rewrite elm_init_m. cbn [negb andb].
  set (B := elm_init ROps x0 xf nC (length w)). set (n := length xs). set (m := length w).
  assert (Hn : (0 < n)%nat) by (unfold n; destruct xs; cbn; [congruence|lia]).
  assert (Hm : (0 < m)%nat) by (unfold m; destruct w; cbn; [congruence|lia]).
  destruct (cpp_map_points_ok B (bof xs) _ _ (pts_bof xs)) as (z & Ez & Hz). fold n in Ez, Hz. rewrite Ez; cbn [bind].
  cbn [cpp_elm_hint]. unfold cpp_swish_hint. destruct (Nat.eqb_spec d 0); [lia|].
  edestruct (elm_loop_wbx_ok m n w b z (fun j => (nth j xs 0 - b_x0 B) * b_c B + b_z0 B) (fun j k => nth k w 0 * ((nth j xs 0 - b_x0 B) * b_c B + b_z0 B) + nth k b 0)
     (fun wk xj bk => oadd ROps (omul ROps wk xj) bk) (bnew (n * m))) as (zi & Ez' & Hz');
    [reflexivity|exact Hb|exact Hz|cbn; lia|reflexivity|]. rewrite Ez'; cbn [bind].
  edestruct (elm_loop_ok m n (fun _ _ => None) (fun j k => act Sigmoid (nth k w 0 * ((nth j xs 0 - b_x0 B) * b_c B + b_z0 B) + nth k b 0))
     (fun j k _ => z <- brd zi (m * j + k)%nat ;;
        Some (odiv ROps (o1 ROps) (oadd ROps (o1 ROps) (fexp RFun (oopp ROps z))))) (bnew (n * m))) as (sg & Es & Hsg);
    [cbn; lia|reflexivity| |].
  { intros j k b' Hj Hk _ _. crd Hz'. litR. cbn [act]. unfold Rdiv. rewrite Rmult_1_l. reflexivity. }
  rewrite Es; cbn [bind]. destruct (case_none d Hd) as (_ & _ & ->). cbn [bind].
  unfold cpp_emit.
  rewrite for_none; [reflexivity|exact Hm|]. apply for_none; [exact Hn|].
  replace (m * 0 + 0)%nat with 0%nat by lia. unfold brd. destruct (Nat.ltb 0 _); reflexivity.
Qed.

(** ** ReLU *)
Definition rcol (w b : list R) (k d : nat) (z : R) : R :=
  let u := nth k w 0 * z + nth k b 0 in
  match d with
  | O => if Rlt_dec 0 u then u else 0
  | 1%nat => if Rlt_dec 0 u then nth k w 0 else 0
  | _ => 0
  end.

Lemma fgt0_R u : fgt0 RFun u = if Rlt_dec 0 u then true else false. Proof. reflexivity. Qed.

Lemma cpp_relu_ok w b : length b = length w ->
  cpp_hint_spec (length w) (cpp_elm_hint ROps RFun ReLU (length w) (bof w) (bof b)) (rcol w b).
Proof.
  intros Hb d x zs n dark Hx Hl. cbn [cpp_elm_hint]. unfold cpp_relu_hint.
  destruct (Nat.eqb_spec d 0) as [->|H0]; [|destruct (Nat.eqb_spec d 1) as [->|H1]].
  - apply elm_loop_wbx_ok with zs; try assumption; try reflexivity; intros j k Hj Hk.
    cbv zeta. rewrite fgt0_R. cbn [ROps oadd omul o0]. unfold rcol. destruct (Rlt_dec _ _); reflexivity.
  - apply elm_loop_wbx_ok with zs; try assumption; try reflexivity; intros j k Hj Hk.
    cbv zeta. rewrite fgt0_R. cbn [ROps oadd omul o0]. unfold rcol. destruct (Rlt_dec _ _); reflexivity.
  - apply (elm_loop_ok _ n (fun j k => bcell dark (length w * j + k)%nat)); [exact Hl|reflexivity|].
    intros j k b' Hj Hk _ _. unfold rcol. destruct d as [|[|d]]; [lia|lia|]. reflexivity.
Qed.

Lemma py_relu_ok jvp w b d : length b = length w -> (d <= 1)%nat ->
  py_hint_spec (length w) (fun zs _ => py_elm_hint ROps RFun jvp ReLU (length w) w b zs d) (fun k _ => rcol w b k d).
Proof.
  intros Hb Hd zs _. cbn [py_elm_hint]. unfold py_relu_hint.
  destruct d as [|[|d]]; [| |lia]; cbn [Nat.eqb]; rewrite py_rows_ok by exact Hb; do 2 f_equal;
    apply map_ext; intros z; apply map_ext; intros k; cbv zeta; rewrite fgt0_R; cbn [ROps oadd omul o0 o1];
    unfold rcol; destruct (Rlt_dec _ _); try reflexivity; lra.
Qed.

Definition relu_ok (be : backend) (d : nat) : Prop := match be with Py => (d <= 1)%nat | Cpp => True end.

Lemma HE_relu_full jvp be w b x0 xf nC xs d : relu_ok be d -> length b = length w ->
  HE jvp be ReLU w b x0 xf nC xs d true = Some (full_mat (elm_init ROps x0 xf nC (length w)) (rcol w b) xs d).
Proof.
  intros Ht Hb. destruct be; cbn [HE].
  - unfold py_elm_H. rewrite <- full_mat_const.
    change (py_H_with ROps (py_elm_hint ROps RFun jvp ReLU (b_m (elm_init ROps x0 xf nC (length w))) w b)
       (elm_init ROps x0 xf nC (length w)) xs d true) with
      (py_H_with ROps (fun zs _ => py_elm_hint ROps RFun jvp ReLU (length w) w b zs d)
       (elm_init ROps x0 xf nC (length w)) xs d true).
    apply py_H_full. apply py_relu_ok; assumption.
  - rewrite cpp_elm_H_eq, <- full_mat_const. apply cpp_H_full.
    intros d' x zs n dark Hx Hl. apply (cpp_relu_ok w b Hb d x zs n dark Hx Hl).
Qed.

(** off the kink, ReLU is locally zero or locally affine *)
Lemma is_derive_n_affine (p q : R) d x : is_derive_n (fun t => p * t + q) d x
  (match d with O => p * x + q | 1%nat => p | _ => 0 end).
Proof.
  destruct d as [|[|d]].
  - reflexivity.
  - cbn. auto_derive; trivial; ring.
  - revert x. induction d as [|d IH]; intros x.
    + cbn. apply is_derive_ext with (fun _ => p).
      * intros t. symmetry. apply is_derive_unique. auto_derive; trivial; ring.
      * apply is_derive_Reals, derivable_pt_lim_const.
    + apply is_derive_ext with (fun _ => 0).
      * intros t. symmetry. apply (is_derive_n_unique _ (S (S d))), IH.
      * apply is_derive_Reals, derivable_pt_lim_const.
Qed.

Lemma is_derive_n_eq (f : R -> R) d x l l' : is_derive_n f d x l -> l = l' -> is_derive_n f d x l'.
Proof. intros H <-. exact H. Qed.

Lemma neuron_relu w b x0 xf nC xs d : x0 <> xf ->
  neuron_matrix (off_kink w b x0 xf) ReLU w b x0 xf xs d
    (full_mat (elm_init ROps x0 xf nC (length w)) (rcol w b) xs d).
Proof.
  intros Hx. split; [apply full_mat_shaped|]. intros j k x Hj Hk Hok.
  rewrite full_mat_ent, Hj, elm_init_m. destruct (Nat.ltb_spec k (length w)); [|lia].
  eexists; split; [reflexivity|]. unfold off_kink in Hok.
  set (a := nth k w 0) in *. set (c := nth k b 0) in *.
  set (p := a / (xf - x0)). set (q := c - a * x0 / (xf - x0)).
  assert (Hu : forall t, a * ((t - x0) / (xf - x0)) + c = p * t + q) by (intros t; unfold p, q; field; lra).
  assert (Hc : forall t, (t - b_x0 (elm_init ROps x0 xf nC (length w))) * b_c (elm_init ROps x0 xf nC (length w))
      + b_z0 (elm_init ROps x0 xf nC (length w)) = (t - x0) / (xf - x0)) by (intros t; cbn; field; lra).
  unfold rcol. fold a c. rewrite Hc, Hu. rewrite Hu in Hok.
  assert (Hcc : b_c (elm_init ROps x0 xf nC (length w)) = / (xf - x0)) by (cbn; field; lra). rewrite Hcc.
  assert (Hloc : forall t, neuron ReLU w b x0 xf k t = Rmax 0 (p * t + q)).
  { intros t. unfold neuron. fold a c. rewrite Hu. reflexivity. }
  apply is_derive_n_ext with (fun t => Rmax 0 (p * t + q)); [intros; symmetry; apply Hloc|].
  assert (Hcont : continuous (fun t => p * t + q) x).
  { apply (ex_derive_continuous (fun t => p * t + q)). exists p. auto_derive; trivial; ring. }
  destruct (Rlt_dec 0 (p * x + q)) as [Hp|Hp].
  - apply (is_derive_n_ext_loc (fun t => p * t + q)).
    + assert (L : locally (p * x + q) (fun u => 0 < u)) by (apply (open_gt 0), Hp).
      specialize (Hcont _ L). change (locally x (fun t => 0 < p * t + q)) in Hcont.
      revert Hcont. apply filter_imp. intros t Ht. unfold Rmax. destruct (Rle_dec _ _); lra.
    + replace (match d with O => p * x + q | 1%nat => a | S (S _) => 0 end * (/ (xf - x0)) ^ d)
        with (match d with O => p * x + q | 1%nat => p | _ => 0 end);
        [apply is_derive_n_affine|].
      destruct d as [|[|d]]; cbn; unfold p; [ring|field; lra|ring].
  - assert (Hp' : p * x + q < 0) by lra.
    apply (is_derive_n_ext_loc (fun t => 0 * t + 0)).
    + assert (L : locally (p * x + q) (fun u => u < 0)) by (apply (open_lt 0), Hp').
      specialize (Hcont _ L). change (locally x (fun t => p * t + q < 0)) in Hcont.
      revert Hcont. apply filter_imp. intros t Ht. unfold Rmax. destruct (Rle_dec _ _); lra.
    + apply (is_derive_n_eq _ _ _ _ _ (is_derive_n_affine 0 0 d x)).
      destruct d as [|[|d]]; cbn; ring.
Qed.

Lemma c12 jvp be w b x0 xf nC xs d : relu_ok be d -> length b = length w -> x0 <> xf ->
  exists M, HE jvp be ReLU w b x0 xf nC xs d true = Some M /\
    neuron_matrix (off_kink w b x0 xf) ReLU w b x0 xf xs d M.
Proof.
  intros Ht Hb Hx. eexists. split; [apply HE_relu_full; assumption|apply neuron_relu, Hx].
Qed.

Lemma c12_shape jvp w b x0 xf nC xs d : (2 <= d)%nat ->
  exists M, HE jvp Py ReLU w b x0 xf nC xs d true = Some M /\ shaped M (length w) (length xs).
Proof.
  intros Hd. cbn [HE]. unfold py_elm_H, py_H_with. rewrite elm_init_m. cbn [py_elm_hint]. unfold py_relu_hint.
  destruct (Nat.eqb_spec d 0); [lia|]. destruct (Nat.eqb_spec d 1); [lia|]. cbn [bind negb andb].
  eexists; split; [reflexivity|]. unfold mat_scale. cbn [mr mc md]. rewrite map_length.
  repeat split; cbn [mr mc md].
  - rewrite map_length, repeat_length. reflexivity.
  - intros row Hr. apply in_map_iff in Hr as (r0 & <- & Hr0). apply repeat_spec in Hr0. subst r0.
    rewrite map_length, repeat_length. reflexivity.
Qed.

(** ** Compiled entry point, any [Hint] *)
Lemma xla_generic hint G B xs d full out M : cpp_hint_spec (b_m B) hint G -> valid_nC (b_nC B) (b_m B) ->
  cpp_H_mat_with hint B xs d full = Some M -> blen out = (mr M * mc M)%nat ->
  exists b, cpp_xla_with ROps hint B (bof xs) d full (mr M) (mc M) out = Some b
    /\ buf_matrix b (mr M) (mc M) = Some (md M).
Proof.
  intros Hh Hv HM Hout. unfold cpp_xla_with.
  destruct (cpp_map_points_ok B (bof xs) _ _ (pts_bof xs)) as (z & Ez & Hz).
  destruct (Hh d z _ (length xs) (bnew (length xs * b_m B)) Hz) as (dk & Ed & Hd); [cbn; lia|].
  destruct full.
  - rewrite (cpp_H_full hint G) in HM by exact Hh. apply some_inj in HM. subst M.
    unfold full_mat in *; cbn [mr mc md] in *. rewrite Ez; cbn [bind]. rewrite Ed; cbn [bind].
    edestruct (cpp_emit_full (b_nC B) (b_m B) (length xs) (b_m B) (opow ROps (b_c B) d) dk out _ Hd) as (F & EF & HF); [rewrite Hout; lia|].
    exists F. split; [exact EF|]. rewrite (buf_matrix_bmat F (length xs) (b_m B) _ (cols_bmat _ _ _ _ HF)).
    f_equal. rewrite opow_R.
    rewrite <- (rows_of_points (fun x => map (fun k => G k d ((x - b_x0 B) * b_c B + b_z0 B) * b_c B ^ d) (seq 0 (b_m B)))).
    reflexivity.
  - rewrite (cpp_H_part hint G) in HM by assumption. apply some_inj in HM. subst M.
    unfold part_mat in *; cbn [mr mc md] in *. rewrite Ez; cbn [bind]. rewrite Ed; cbn [bind].
    edestruct (cpp_emit_part (b_nC B) (b_m B) (length xs) (opow ROps (b_c B) d) dk out _ Hv Hd) as (F & EF & HF); [rewrite Hout; lia|].
    exists F. split; [exact EF|]. rewrite (buf_matrix_bmat F (length xs) _ _ (cols_bmat _ _ _ _ HF)).
    f_equal. rewrite opow_R.
    rewrite <- (rows_of_points (fun x => map (fun k => G k d ((x - b_x0 B) * b_c B + b_z0 B) * b_c B ^ d) (keptc (b_nC B) (b_m B)))).
    apply map_ext. intros j.
    apply (map_seq_nth (fun k => G k d ((nth j xs 0 - b_x0 B) * b_c B + b_z0 B) * b_c B ^ d) (keptc (b_nC B) (b_m B)) 0%nat).
Qed.

Definition gcol (f : elm) w b := match f with ReLU => rcol w b | _ => ecol f w b end.

Lemma HE_any_full jvp be f w b x0 xf nC xs d : jvp_ok jvp -> supported be f d -> length b = length w ->
  HE jvp be f w b x0 xf nC xs d true = Some (full_mat (elm_init ROps x0 xf nC (length w)) (gcol f w b) xs d).
Proof.
  intros Hj Hs Hb. destruct f; cbn [gcol].
  1: apply HE_relu_full; [destruct be; exact Hs|exact Hb].
  all: apply HE_full; [exact Hj| |exact Hb]; split; [discriminate|destruct be; exact Hs].
Qed.
Lemma HE_any_part jvp be f w b x0 xf nC xs d : jvp_ok jvp -> supported be f d -> length b = length w ->
  valid_nC nC (length w) ->
  HE jvp be f w b x0 xf nC xs d false = Some (part_mat (elm_init ROps x0 xf nC (length w)) (gcol f w b) xs d).
Proof.
  intros Hj Hs Hb Hv. destruct f; cbn [gcol].
  2-5: apply HE_part; [exact Hj| |exact Hb|exact Hv]; split; [discriminate|destruct be; exact Hs].
  destruct be; cbn [HE].
  - unfold py_elm_H. rewrite <- part_mat_const.
    change (py_H_with ROps (py_elm_hint ROps RFun jvp ReLU (b_m (elm_init ROps x0 xf nC (length w))) w b)
       (elm_init ROps x0 xf nC (length w)) xs d false) with
      (py_H_with ROps (fun zs _ => py_elm_hint ROps RFun jvp ReLU (length w) w b zs d)
       (elm_init ROps x0 xf nC (length w)) xs d false).
    apply py_H_part; [apply py_relu_ok; assumption|apply Hv].
  - rewrite cpp_elm_H_eq, <- part_mat_const. apply cpp_H_part; [|exact Hv].
    intros d' x zs n dark Hx Hl. apply (cpp_relu_ok w b Hb d x zs n dark Hx Hl).
Qed.

Lemma HE_backends jvp f w b x0 xf nC xs d full : jvp_ok jvp -> supported Py f d -> supported Cpp f d ->
  length b = length w -> valid_nC nC (length w) ->
  exists M, HE jvp Py f w b x0 xf nC xs d full = Some M /\ HE jvp Cpp f w b x0 xf nC xs d full = Some M.
Proof.
  intros Hj H1 H2 Hb Hv. destruct full; eexists.
  - split; apply HE_any_full; assumption.
  - split; apply HE_any_part; assumption.
Qed.
Lemma HE_removed jvp be f w b x0 xf nC xs d : jvp_ok jvp -> supported be f d ->
  length b = length w -> valid_nC nC (length w) ->
  exists M Mc, HE jvp be f w b x0 xf nC xs d true = Some M /\ HE jvp be f w b x0 xf nC xs d false = Some Mc /\
    columns_removed (length w) nC M Mc /\ mc Mc = (length w - length nC)%nat.
Proof.
  intros Hj Hs Hb Hv. eexists; eexists. split; [apply HE_any_full; assumption|].
  split; [apply HE_any_part; assumption|]. split.
  - apply (part_mat_removed (elm_init ROps x0 xf nC (length w)) (gcol f w b) xs d).
  - cbn [mc part_mat]. apply keptc_length, Hv.
Qed.
Lemma HE_xla jvp f w b x0 xf nC xs d full out M : supported Cpp f d ->
  length b = length w -> valid_nC nC (length w) ->
  HE jvp Cpp f w b x0 xf nC xs d full = Some M -> blen out = (mr M * mc M)%nat ->
  exists bb, cpp_xla_with ROps (cpp_elm_hint ROps RFun f (length w) (bof w) (bof b))
      (elm_init ROps x0 xf nC (length w)) (bof xs) d full (mr M) (mc M) out = Some bb
    /\ buf_matrix bb (mr M) (mc M) = Some (md M).
Proof.
  intros Hs Hb Hv HM Hout. cbn [HE] in HM. rewrite cpp_elm_H_eq in HM.
  apply (xla_generic (fun _ => cpp_elm_hint ROps RFun f (length w) (bof w) (bof b) d)
    (fun k _ => gcol f w b k d) (elm_init ROps x0 xf nC (length w)) xs d full out M);
    [|exact Hv|exact HM|exact Hout].
  intros d' x zs n dark Hx Hl. destruct f; cbn [gcol].
  - apply (cpp_relu_ok w b Hb d x zs n dark Hx Hl).
  - apply (cpp_elm_hint_ok Sigmoid w b d ltac:(discriminate) Hs Hb 0%nat x zs n dark Hx Hl).
  - apply (cpp_elm_hint_ok Tanh w b d ltac:(discriminate) Hs Hb 0%nat x zs n dark Hx Hl).
  - apply (cpp_elm_hint_ok Sin w b d ltac:(discriminate) Hs Hb 0%nat x zs n dark Hx Hl).
  - apply (cpp_elm_hint_ok Swish w b d ltac:(discriminate) Hs Hb 0%nat x zs n dark Hx Hl).
Qed.

Lemma elm_ok_of be f d : f = Sigmoid \/ f = Tanh \/ f = Swish -> supported be f d -> elm_ok be f d.
Proof. intros [->|[->| ->]] H; (split; [discriminate|]); destruct be; exact H. Qed.
Lemma c12_any jvp be w b x0 xf nC xs d : supported be ReLU d -> length b = length w -> x0 <> xf ->
  exists M, HE jvp be ReLU w b x0 xf nC xs d true = Some M /\
    neuron_matrix (off_kink w b x0 xf) ReLU w b x0 xf xs d M.
Proof. intros Hs. apply c12. destruct be; exact Hs. Qed.
Lemma c12_shape_bad jvp w b x0 xf nC xs d : (2 <= d)%nat ->
  exists M, HE jvp Py ReLU w b x0 xf nC xs d true = Some M /\ shaped M (length w) (length xs) /\
    (length xs <> length w -> ~ shaped M (length xs) (length w)).
Proof.
  intros Hd. destruct (c12_shape jvp w b x0 xf nC xs d Hd) as (M & E & H). exists M.
  split; [exact E|]. split; [exact H|]. intros Hne (Hr & _). destruct H as (Hr' & _). congruence.
Qed.
Lemma c10 jvp be w b x0 xf nC xs d : jvp_ok jvp -> length b = length w -> x0 <> xf ->
  exists M, HE jvp be Sin w b x0 xf nC xs d true = Some M /\ neuron_matrix everywhere Sin w b x0 xf xs d M.
Proof.
  intros Hj. apply c10_11; [exact Hj|]. split; [discriminate|]. destruct be; exact I.
Qed.
