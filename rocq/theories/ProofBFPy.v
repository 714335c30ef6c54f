(** The Python rows equal the recurrence tables of ProofTab.v. *)
From Coq Require Import Reals Arith Lia Lra List Bool ZArith.
From Verif Require Import Base ProofBase Numbers ModelBFPy ProofTab.
Import ListNotations.
Open Scope R_scope.

(** recurrence coefficients of the families: F_{k+1} = (a_k z + b_k) F_k - c_k F_{k-1} *)
Definition ca (f : fam) (k : nat) : R :=
  match f with
  | CP => match k with O => 1 | _ => 2 end
  | LeP => (2 * INR k + 1) / (INR k + 1)
  | LaP => - 1 / (INR k + 1)
  | HoPpro => 1
  | HoPphy => 2
  | FS => 0
  end.
Definition cb (f : fam) (k : nat) : R :=
  match f with LaP => (2 * INR k + 1) / (INR k + 1) | _ => 0 end.
Definition cc (f : fam) (k : nat) : R :=
  match f with
  | CP => 1 | LeP | LaP => INR k / (INR k + 1)
  | HoPpro => INR k | HoPphy => 2 * INR k | FS => 0
  end.
Definition ftab (f : fam) := tab (ca f) (cb f) (cc f).

Lemma INR_p1 k : INR k + 1 <> 0.
Proof. pose proof (pos_INR k). lra. Qed.

(** a loop that fills cells [lo+off .. hi+off) of a row *)
Lemma for_row {T} m lo hi off (G : nat -> T) (body : nat -> buf T -> option (buf T)) b :
  (lo <= hi)%nat -> (hi + off <= m)%nat -> blen b = m -> holds b (lo + off) G ->
  (forall k b', (lo <= k < hi)%nat -> blen b' = m -> holds b' (k + off) G ->
     body k b' = bwr b' (k + off)%nat (G (k + off)%nat)) ->
  exists b', for_ lo hi body b = Some b' /\ blen b' = m /\ holds b' (hi + off) G.
Proof.
  intros Hle Hm Hl Hh Hbody.
  destruct (for_inv (fun k b' => blen b' = m /\ holds b' (k + off) G) body lo hi b) as (b' & H1 & H2 & H3).
  - exact Hle.
  - split; assumption.
  - intros k b' Hk [Hl' Hh']. rewrite (Hbody k b' Hk Hl' Hh').
    rewrite bwr_in by lia. eexists; split; [reflexivity|]. split; [exact Hl'|].
    intros i Hi; cbn. destruct (Nat.eqb_spec i (k + off)) as [->|]; [reflexivity|].
    apply Hh'. lia.
  - exists b'; repeat split; assumption.
Qed.

Lemma rd_holds {T} (b : buf T) m n (G : nat -> T) k :
  blen b = m -> holds b n G -> (n <= m)%nat -> (k < n)%nat -> brd b k = Some (G k).
Proof. intros Hl Hh Hn Hk. rewrite brd_in by lia. apply Hh, Hk. Qed.

Lemma holds_ext {T} (b : buf T) n (G G' : nat -> T) :
  holds b n G -> (forall k, (k < n)%nat -> G k = G' k) -> holds b n G'.
Proof. intros H E k Hk. rewrite <- E by exact Hk. apply H, Hk. Qed.

Lemma np_row2_ok m u v : (3 <= m)%nat ->
  exists b, np_row2 ROps m u v = Some b /\ blen b = m /\ bcell b 0%nat = Some u /\ bcell b 1%nat = Some v
       /\ forall k, (2 <= k)%nat -> bcell b k = Some 0.
Proof.
  intros Hm. unfold np_row2. destruct (Nat.ltb_spec m 2); [lia|].
  eexists; split; [reflexivity|]. repeat split. intros [|[|k]] Hk; [lia|lia|reflexivity].
Qed.

Lemma holds2 {T} (b : buf T) (G : nat -> T) :
  bcell b 0%nat = Some (G 0%nat) -> bcell b 1%nat = Some (G 1%nat) -> holds b 2 G.
Proof. intros H0 H1 [|[|k]] Hk; [exact H0|exact H1|lia]. Qed.

(** columns 0 and 1 *)
Ltac tab01 := unfold ftab; rewrite ?tab_0, ?tab_1; cbn.

Ltac rdsolve Hl Hh :=
  repeat (erewrite (rd_holds _ _ _ _ _ Hl Hh) by lia; cbn [bind]).

Lemma INR_2 : INR 2 = 2. Proof. reflexivity. Qed.

Lemma tab_step f k d z : (1 <= k)%nat ->
  ftab f (k + 1) d z = (ca f k * z + cb f k) * ftab f k d z
    + ca f k * INR d * ftab f k (pred d) z - cc f k * ftab f (k - 1) d z.
Proof.
  intros Hk. destruct k as [|k]; [lia|]. unfold ftab.
  replace (S k + 1)%nat with (S (S k)) by lia. replace (S k - 1)%nat with k by lia.
  apply tab_SS.
Qed.

(** initial rows of the derivative tables *)
Lemma deriv_init f m w z dCurr : (3 <= m)%nat -> w = ca f 0 ->
  exists b, (if dCurr =? 0 then np_row2 ROps m (o0 ROps) w else Some (bfill m (o0 ROps)))%nat = Some b
    /\ blen b = m /\ holds b 2 (fun k => ftab f k (S dCurr) z).
Proof.
  intros Hm ->. destruct (Nat.eqb_spec dCurr 0) as [->|Hd].
  - destruct (np_row2_ok m (o0 ROps) (ca f 0) Hm) as (b & H1 & H2 & H3 & H4 & _).
    exists b; repeat split; try assumption. apply holds2; [rewrite H3|rewrite H4]; tab01; reflexivity.
  - exists (bfill m (o0 ROps)); repeat split.
    apply holds2; tab01; [reflexivity|]. destruct dCurr; [lia|reflexivity].
Qed.

(** ** CP *)
Lemma py_cp_recurse_ok m z : (3 <= m)%nat -> forall n dCurr b,
  blen b = m -> holds b m (fun k => ftab CP k dCurr z) ->
  exists b', py_cp_recurse ROps m z n dCurr b = Some b' /\ blen b' = m /\
     holds b' m (fun k => ftab CP k (dCurr + n) z).
Proof.
  intros Hm. induction n as [|n IH]; intros dCurr b Hl Hh.
  - exists b; repeat split; [assumption|]. rewrite Nat.add_0_r; exact Hh.
  - cbn [py_cp_recurse].
    destruct (deriv_init CP m (o1 ROps) z dCurr Hm) as (b0 & E0 & Hl0 & Hh0); [reflexivity|].
    rewrite E0; cbn [bind].
    destruct (for_row m 2 m 0 (fun k => ftab CP k (S dCurr) z)
      (fun k dark2 => a <- brd b (k - 1)%nat ;; b1 <- brd dark2 (k - 1)%nat ;; c <- brd dark2 (k - 2)%nat ;;
         bwr dark2 k (osub ROps (oadd ROps (omul ROps (onat ROps (2 + 2 * dCurr)) a)
            (omul ROps (omul ROps (onat ROps 2) z) b1)) c)) b0)
      as (b1 & E1 & Hl1 & Hh1); [lia|lia|exact Hl0| | |].
    + eapply holds_ext; [exact Hh0|reflexivity].
    + intros k b' Hk Hl' Hh'. rewrite Nat.add_0_r in Hh'.
      rdsolve Hl Hh. rdsolve Hl' Hh'. rewrite Nat.add_0_r. f_equal.
      cbn [ROps osub oadd omul onat].
      pose proof (tab_step CP (k - 1) (S dCurr) z ltac:(lia)) as Ht.
      replace (k - 1 + 1)%nat with k in Ht by lia. rewrite Ht.
      replace (k - 1 - 1)%nat with (k - 2)%nat by lia. cbn [pred].
      replace (ca CP (k - 1)) with 2 by (destruct k as [|[|k]]; [lia|lia|reflexivity]).
      unfold cb, cc. rewrite plus_INR, mult_INR, INR_2, S_INR. ring.
    + rewrite E1; cbn [bind]. rewrite Nat.add_0_r in Hh1.
      destruct (IH (S dCurr) b1 Hl1 Hh1) as (b2 & E2 & Hl2 & Hh2).
      exists b2; repeat split; [exact E2|exact Hl2|].
      replace (dCurr + S n)%nat with (S dCurr + n)%nat by lia. exact Hh2.
Qed.

Definition hint_ok (f : fam) (r : nat -> R -> nat -> option (buf R)) : Prop :=
  forall m z d, (1 <= m)%nat ->
  exists b, r m z d = Some b /\ blen b = m /\ holds b m (fun k => ftab f k d z).

Lemma small_ok f m z d (w : R) (v : R) (r : option (buf R)) :
  (m = 1 \/ m = 2)%nat -> w = ca f 0 -> v = ca f 0 * z + cb f 0 ->
  r = (if (m =? 1)%nat then Some (bof [if (0 <? d)%nat then 0 else 1])
       else Some (bof (if (1 <? d)%nat then [0; 0] else if (0 <? d)%nat then [0; w] else [1; v]))) ->
  exists b, r = Some b /\ blen b = m /\ holds b m (fun k => ftab f k d z).
Proof.
  intros [-> | ->] -> -> ->; cbn [Nat.eqb].
  - eexists; split; [reflexivity|]. split; [reflexivity|].
    intros [|k] Hk; [|lia]. tab01. destruct d; reflexivity.
  - eexists; split; [reflexivity|]. split.
    + destruct d as [|[|d]]; reflexivity.
    + intros [|[|k]] Hk; [| |lia]; tab01; destruct d as [|[|d]]; reflexivity.
Qed.

Ltac big m := destruct (Nat.eqb_spec m 1); [lia|]; destruct (Nat.eqb_spec m 2); [lia|].

Lemma py_cp_ok : hint_ok CP (py_cp_hint ROps).
Proof.
  intros m z d Hm.
  destruct (Nat.le_gt_cases 3 m) as [H3|H3].
  2:{ apply (small_ok CP m z d 1 z); [lia|reflexivity|cbn; ring|].
      unfold py_cp_hint. destruct (Nat.eqb_spec m 1); [reflexivity|].
      destruct (Nat.eqb_spec m 2); [reflexivity|lia]. }
  unfold py_cp_hint. big m.
  destruct (np_row2_ok m (o1 ROps) z H3) as (b0 & E0 & Hl0 & Hc0 & Hc1 & _).
  rewrite E0; cbn [bind].
  destruct (for_row m 2 m 0 (fun k => ftab CP k 0 z)
     (fun k F => a <- brd F (k - 1)%nat ;; b <- brd F (k - 2)%nat ;;
        bwr F k (osub ROps (omul ROps (omul ROps (onat ROps 2) z) a) b)) b0)
    as (b1 & E1 & Hl1 & Hh1); [lia|lia|exact Hl0| | |].
  - apply holds2; [rewrite Hc0|rewrite Hc1]; tab01; f_equal; ring.
  - intros k b' Hk Hl' Hh'. rewrite Nat.add_0_r in *. rdsolve Hl' Hh'. f_equal.
    cbn [ROps osub oadd omul onat].
    pose proof (tab_step CP (k - 1) 0 z ltac:(lia)) as Ht.
    replace (k - 1 + 1)%nat with k in Ht by lia. rewrite Ht.
    replace (k - 1 - 1)%nat with (k - 2)%nat by lia.
    replace (ca CP (k - 1)) with 2 by (destruct k as [|[|k]]; [lia|lia|reflexivity]).
    unfold cb, cc. rewrite INR_2. cbn [INR]. ring.
  - rewrite E1; cbn [bind]. rewrite Nat.add_0_r in Hh1.
    destruct (py_cp_recurse_ok m z H3 d 0%nat b1 Hl1 Hh1) as (b2 & E2 & Hl2 & Hh2).
    exists b2; repeat split; assumption.
Qed.

(** The other polynomial families share the shape of their loops
    (k from 1 to m-2, cell k+1 written); only the formulas differ. *)
Lemma gen_recurse f m z (step : nat -> R -> R -> R -> nat -> R)
  (rec : nat -> nat -> buf R -> option (buf R)) w : (3 <= m)%nat -> w = ca f 0 ->
  (forall dCurr k a b c, (1 <= k)%nat ->
     step dCurr a b c k = (ca f k * z + cb f k) * b + ca f k * INR (S dCurr) * a - cc f k * c) ->
  (forall dCurr b, rec 0%nat dCurr b = Some b) ->
  (forall n dCurr b, rec (S n) dCurr b =
     (dark2 <- (if dCurr =? 0 then np_row2 ROps m (o0 ROps) w else Some (bfill m (o0 ROps)))%nat ;;
      dark2 <- for_ 1 (m - 1) (fun k dark2 =>
                 a <- brd b k ;; b1 <- brd dark2 k ;; c <- brd dark2 (k - 1)%nat ;;
                 bwr dark2 (k + 1)%nat (step dCurr a b1 c k)) dark2 ;;
      rec n (S dCurr) dark2)) ->
  forall n dCurr b,
  blen b = m -> holds b m (fun k => ftab f k dCurr z) ->
  exists b', rec n dCurr b = Some b' /\ blen b' = m /\
     holds b' m (fun k => ftab f k (dCurr + n) z).
Proof.
  intros Hm Hw Hstep Hr0 HrS. induction n as [|n IH]; intros dCurr b Hl Hh.
  - exists b; rewrite Hr0; repeat split; [assumption|]. rewrite Nat.add_0_r; exact Hh.
  - rewrite HrS.
    destruct (deriv_init f m w z dCurr Hm Hw) as (b0 & E0 & Hl0 & Hh0).
    rewrite E0; cbn [bind].
    destruct (for_row m 1 (m - 1) 1 (fun k => ftab f k (S dCurr) z)
      (fun k dark2 => a <- brd b k ;; b1 <- brd dark2 k ;; c <- brd dark2 (k - 1)%nat ;;
         bwr dark2 (k + 1)%nat (step dCurr a b1 c k)) b0)
      as (b1 & E1 & Hl1 & Hh1); [lia|lia|exact Hl0|exact Hh0| |].
    + intros k b' Hk Hl' Hh'.
      rdsolve Hl Hh. rdsolve Hl' Hh'. f_equal.
      rewrite Hstep by lia. rewrite tab_step by lia. reflexivity.
    + rewrite E1; cbn [bind]. replace (m - 1 + 1)%nat with m in Hh1 by lia.
      destruct (IH (S dCurr) b1 Hl1 Hh1) as (b2 & E2 & Hl2 & Hh2).
      exists b2; repeat split; [exact E2|exact Hl2|].
      replace (dCurr + S n)%nat with (S dCurr + n)%nat by lia. exact Hh2.
Qed.

Lemma gen_ok f m z d v (step0 : R -> R -> nat -> R) (rec : nat -> nat -> buf R -> option (buf R)) :
  (3 <= m)%nat -> v = ca f 0 * z + cb f 0 ->
  (forall k a b, (1 <= k)%nat -> step0 a b k = (ca f k * z + cb f k) * a - cc f k * b) ->
  (forall n dCurr b,
     blen b = m -> holds b m (fun k => ftab f k dCurr z) ->
     exists b', rec n dCurr b = Some b' /\ blen b' = m /\
       holds b' m (fun k => ftab f k (dCurr + n) z)) ->
  exists b,
    (F <- np_row2 ROps m (o1 ROps) v ;;
     F <- for_ 1 (m - 1) (fun k F => a <- brd F k ;; b <- brd F (k - 1)%nat ;;
            bwr F (k + 1)%nat (step0 a b k)) F ;;
     rec d 0%nat F) = Some b /\ blen b = m /\ holds b m (fun k => ftab f k d z).
Proof.
  intros Hm Hv Hstep Hrec.
  destruct (np_row2_ok m (o1 ROps) v Hm) as (b0 & E0 & Hl0 & Hc0 & Hc1 & _).
  rewrite E0; cbn [bind].
  destruct (for_row m 1 (m - 1) 1 (fun k => ftab f k 0 z)
     (fun k F => a <- brd F k ;; b <- brd F (k - 1)%nat ;; bwr F (k + 1)%nat (step0 a b k)) b0)
    as (b1 & E1 & Hl1 & Hh1); [lia|lia|exact Hl0| | |].
  - apply holds2; [rewrite Hc0|rewrite Hc1, Hv]; tab01; reflexivity.
  - intros k b' Hk Hl' Hh'. rdsolve Hl' Hh'. f_equal.
    rewrite Hstep by lia. rewrite tab_step by lia. cbn [INR]. ring.
  - rewrite E1; cbn [bind]. replace (m - 1 + 1)%nat with m in Hh1 by lia.
    destruct (Hrec d 0%nat b1 Hl1 Hh1) as (b2 & E2 & Hl2 & Hh2).
    exists b2; repeat split; assumption.
Qed.

Lemma S_INR' n : INR (S n) = INR n + 1. Proof. apply S_INR. Qed.

Ltac famsolve := intros; cbn [ROps osub oadd omul odiv oopp onat o0 o1]; unfold ca, cb, cc;
  rewrite ?INR_2, ?S_INR'; try (field; apply INR_p1); try ring.

Lemma py_lep_ok : hint_ok LeP (py_lep_hint ROps).
Proof.
  intros m z d Hm.
  destruct (Nat.le_gt_cases 3 m) as [H3|H3].
  2:{ apply (small_ok LeP m z d 1 z); [lia|cbn; field|cbn; field|].
      unfold py_lep_hint. destruct (Nat.eqb_spec m 1); [reflexivity|].
      destruct (Nat.eqb_spec m 2); [reflexivity|lia]. }
  unfold py_lep_hint. big m.
  apply (gen_ok LeP m z d z (fun a b k => odiv ROps (osub ROps (omul ROps (omul ROps
     (oadd ROps (omul ROps (onat ROps 2) (onat ROps k)) (o1 ROps)) z) a) (omul ROps (onat ROps k) b))
     (oadd ROps (onat ROps k) (o1 ROps))) (py_lep_recurse ROps m z)); [exact H3|cbn; field|famsolve|].
  apply (gen_recurse LeP m z (fun dCurr a b c k => odiv ROps (osub ROps (omul ROps
     (oadd ROps (omul ROps (onat ROps 2) (onat ROps k)) (o1 ROps))
     (oadd ROps (omul ROps (oadd ROps (onat ROps dCurr) (o1 ROps)) a) (omul ROps z b)))
      (omul ROps (onat ROps k) c)) (oadd ROps (onat ROps k) (o1 ROps))) (py_lep_recurse ROps m z) (o1 ROps));
    [exact H3|cbn; field|famsolve|reflexivity|reflexivity].
Qed.

Lemma py_lap_ok : hint_ok LaP (py_lap_hint ROps).
Proof.
  intros m z d Hm.
  destruct (Nat.le_gt_cases 3 m) as [H3|H3].
  2:{ apply (small_ok LaP m z d (-(1)) (1 - z)); [lia|cbn; field|cbn; field|].
      unfold py_lap_hint. destruct (Nat.eqb_spec m 1); [reflexivity|].
      destruct (Nat.eqb_spec m 2); [reflexivity|lia]. }
  unfold py_lap_hint. big m.
  apply (gen_ok LaP m z d (osub ROps (o1 ROps) z) (fun a b k => odiv ROps (osub ROps (omul ROps
     (osub ROps (oadd ROps (omul ROps (onat ROps 2) (onat ROps k)) (o1 ROps)) z) a) (omul ROps (onat ROps k) b))
     (oadd ROps (onat ROps k) (o1 ROps))) (py_lap_recurse ROps m z)); [exact H3|cbn; field|famsolve|].
  apply (gen_recurse LaP m z (fun dCurr a b c k => odiv ROps (osub ROps (osub ROps (omul ROps
     (osub ROps (oadd ROps (omul ROps (onat ROps 2) (onat ROps k)) (o1 ROps)) z) b)
     (omul ROps (oadd ROps (onat ROps dCurr) (o1 ROps)) a))
      (omul ROps (onat ROps k) c)) (oadd ROps (onat ROps k) (o1 ROps))) (py_lap_recurse ROps m z)
      (oopp ROps (o1 ROps)));
    [exact H3|cbn; field|famsolve|reflexivity|reflexivity].
Qed.

Lemma py_hoppro_ok : hint_ok HoPpro (py_hoppro_hint ROps).
Proof.
  intros m z d Hm.
  destruct (Nat.le_gt_cases 3 m) as [H3|H3].
  2:{ apply (small_ok HoPpro m z d 1 z); [lia|cbn; field|cbn; field|].
      unfold py_hoppro_hint. destruct (Nat.eqb_spec m 1); [reflexivity|].
      destruct (Nat.eqb_spec m 2); [reflexivity|lia]. }
  unfold py_hoppro_hint. big m.
  apply (gen_ok HoPpro m z d z (fun a b k => osub ROps (omul ROps z a) (omul ROps (onat ROps k) b))
     (py_hoppro_recurse ROps m z)); [exact H3|cbn; field|famsolve|].
  apply (gen_recurse HoPpro m z (fun dCurr a b c k => osub ROps (oadd ROps
     (omul ROps (oadd ROps (onat ROps dCurr) (o1 ROps)) a) (omul ROps z b))
      (omul ROps (onat ROps k) c)) (py_hoppro_recurse ROps m z) (o1 ROps));
    [exact H3|cbn; field|famsolve|reflexivity|reflexivity].
Qed.

Lemma py_hopphy_ok : hint_ok HoPphy (py_hopphy_hint ROps).
Proof.
  intros m z d Hm.
  destruct (Nat.le_gt_cases 3 m) as [H3|H3].
  2:{ apply (small_ok HoPphy m z d (2 * 1) (2 * z)); [lia|cbn; field|cbn; field|].
      unfold py_hopphy_hint. destruct (Nat.eqb_spec m 1); [reflexivity|].
      destruct (Nat.eqb_spec m 2); [reflexivity|lia]. }
  unfold py_hopphy_hint. big m.
  apply (gen_ok HoPphy m z d (omul ROps (onat ROps 2) z) (fun a b k => osub ROps
     (omul ROps (omul ROps (onat ROps 2) z) a) (omul ROps (omul ROps (onat ROps 2) (onat ROps k)) b))
     (py_hopphy_recurse ROps m z)); [exact H3|cbn; ring|famsolve|].
  apply (gen_recurse HoPphy m z (fun dCurr a b c k => osub ROps (oadd ROps
     (omul ROps (omul ROps (onat ROps 2) (oadd ROps (onat ROps dCurr) (o1 ROps))) a)
     (omul ROps (omul ROps (onat ROps 2) z) b))
      (omul ROps (omul ROps (onat ROps 2) (onat ROps k)) c)) (py_hopphy_recurse ROps m z)
      (omul ROps (onat ROps 2) (o1 ROps)));
    [exact H3|cbn; field|famsolve|reflexivity|reflexivity].
Qed.
