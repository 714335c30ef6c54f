(** The C++ buffers hold the same tables as the Python rows. *)
From Coq Require Import Reals Arith Lia Lra List Bool ZArith.
From Verif Require Import Base ProofBase Numbers ModelBFPy ModelBFCpp ProofTab ProofBFPy.
Import ListNotations.
Open Scope R_scope.

(** the first [K] columns of the row-major buffer hold [V] *)
Definition cols {T} (b : buf T) (n m K : nat) (V : nat -> nat -> T) : Prop :=
  blen b = (m * n)%nat /\
  forall j k, (j < n)%nat -> (k < K)%nat -> bcell b (m * j + k)%nat = Some (V j k).

Lemma cols_rd {T} (b : buf T) n m K V j k : cols b n m K V -> (K <= m)%nat ->
  (j < n)%nat -> (k < K)%nat -> brd b (m * j + k)%nat = Some (V j k).
Proof.
  intros [Hl H] HK Hj Hk. rewrite brd_in; [apply H; assumption|]. rewrite Hl. nia.
Qed.

Lemma cols_ext {T} (b : buf T) n m K V V' : cols b n m K V ->
  (forall j k, (j < n)%nat -> (k < K)%nat -> V j k = V' j k) -> cols b n m K V'.
Proof. intros [Hl H] E; split; [exact Hl|]. intros; rewrite <- E by assumption; auto. Qed.

(** inner loop: one column *)
Lemma for_cols1 {T} m n K (V : nat -> nat -> T) (body : nat -> buf T -> option (buf T)) b :
  (K < m)%nat -> cols b n m K V ->
  (forall j b', (j < n)%nat -> cols b' n m K V -> body j b' = bwr b' (m * j + K)%nat (V j K)) ->
  exists b', for_ 0 n body b = Some b' /\ cols b' n m (S K) V.
Proof.
  intros HK Hb Hbody.
  destruct (for_inv (fun j b' => cols b' n m K V /\
     forall j', (j' < j)%nat -> bcell b' (m * j' + K)%nat = Some (V j' K)) body 0 n b)
    as (b' & H1 & [H2l H2] & H3).
  - lia.
  - split; [exact Hb|lia].
  - intros j b' Hj [Hb' Hc]. rewrite Hbody by (lia || exact Hb').
    destruct Hb' as [Hl Hb']. rewrite bwr_in by (rewrite Hl; nia).
    eexists; split; [reflexivity|]. split.
    + split; [exact Hl|]. intros j' k' Hj' Hk'; cbn.
      destruct (Nat.eqb_spec (m * j' + k') (m * j + K)) as [He|He]; [|apply Hb'; assumption].
      apply idx_inj in He; lia.
    + intros j' Hj'; cbn. destruct (Nat.eqb_spec (m * j' + K) (m * j + K)) as [He|He].
      * apply idx_inj in He; [|lia|lia]. destruct He as [-> _]. reflexivity.
      * apply Hc. destruct (Nat.eq_dec j' j); [subst; lia|lia].
  - exists b'; split; [exact H1|]. split; [exact H2l|].
    intros j k Hj Hk. destruct (Nat.eq_dec k K) as [->|]; [apply H3, Hj|apply H2; lia].
Qed.

Lemma for_cols {T} m n lo hi off (V : nat -> nat -> T) (body : nat -> nat -> buf T -> option (buf T)) b :
  (lo <= hi)%nat -> (hi + off <= m)%nat -> cols b n m (lo + off) V ->
  (forall k j b', (lo <= k < hi)%nat -> (j < n)%nat -> cols b' n m (k + off) V ->
     body k j b' = bwr b' (m * j + (k + off))%nat (V j (k + off)%nat)) ->
  exists b', for_ lo hi (fun k F => for_ 0 n (body k) F) b = Some b' /\ cols b' n m (hi + off) V.
Proof.
  intros Hle Hm Hb Hbody.
  apply (for_inv (fun k b' => cols b' n m (k + off) V)); [exact Hle|exact Hb|].
  intros k b' Hk Hb'.
  destruct (for_cols1 m n (k + off) V (body k) b') as (b2 & H1 & H2);
    [lia|exact Hb'| |exists b2; split; assumption].
  intros j b2 Hj Hb2. apply Hbody; assumption.
Qed.

Lemma cols_0 {T} (b : buf T) n m V : blen b = (m * n)%nat -> cols b n m 0 V.
Proof. intros Hl; split; [exact Hl|lia]. Qed.

(** columns 0 and 1 *)
Lemma cpp_col01_ok m n v0 v1 (V : nat -> nat -> R) b :
  (2 <= m)%nat -> blen b = (m * n)%nat ->
  (forall j, (j < n)%nat -> V j 0%nat = v0) ->
  (forall j, (j < n)%nat -> v1 j = Some (V j 1%nat)) ->
  exists b', cpp_col01 m n v0 v1 b = Some b' /\ cols b' n m 2 V.
Proof.
  intros Hm Hl H0 H1. unfold cpp_col01.
  destruct (for_inv (fun k b' => blen b' = (m * n)%nat /\ forall j c, (j < k)%nat -> (c < 2)%nat ->
      bcell b' (m * j + c)%nat = Some (V j c))
      (fun k dark => dark <- bwr dark (m * k)%nat v0 ;; v <- v1 k ;; bwr dark (m * k + 1)%nat v) 0 n b)
    as (b' & E & Hl' & H').
  - lia.
  - split; [exact Hl|lia].
  - intros k b' Hk [Hl' H']. rewrite bwr_in by (rewrite Hl'; nia). cbn [bind].
    rewrite (H1 k) by lia. cbn [bind]. rewrite bwr_in by (cbn; rewrite Hl'; nia).
    eexists; split; [reflexivity|]. split; [exact Hl'|].
    intros j c Hj Hc; cbn.
    destruct (Nat.eqb_spec (m * j + c) (m * k + 1)) as [He|He].
    + apply idx_inj in He; [|lia|lia]. destruct He as [-> ->]. reflexivity.
    + destruct (Nat.eqb_spec (m * j + c) (m * k)) as [He'|He'].
      * replace (m * k)%nat with (m * k + 0)%nat in He' by lia.
        apply idx_inj in He'; [|lia|lia]. destruct He' as [-> ->]. rewrite H0 by lia. reflexivity.
      * apply H'; [|exact Hc]. destruct (Nat.eq_dec j k) as [->|]; [|lia].
        destruct c as [|[|c]]; lia.
  - exists b'; split; [exact E|]. split; [exact Hl'|]. intros j k Hj Hk; apply H'; assumption.
Qed.

Lemma fill_ok n m (b : buf R) : blen b = (m * n)%nat ->
  exists b', for_ 0 (m * n)%nat (fun k dark => bwr dark k 0) b = Some b' /\ cols b' n m m (fun _ _ => 0).
Proof.
  intros Hl.
  destruct (for_inv (fun k b' => blen b' = (m * n)%nat /\ forall i, (i < k)%nat -> bcell b' i = Some 0)
     (fun k dark => bwr dark k 0) 0 (m * n) b) as (b' & E & Hl' & H').
  - lia.
  - split; [exact Hl|lia].
  - intros k b' Hk [Hl' H']. rewrite bwr_in by (rewrite Hl'; lia).
    eexists; split; [reflexivity|]. split; [exact Hl'|]. intros i Hi; cbn.
    destruct (Nat.eqb_spec i k); [reflexivity|apply H'; lia].
  - exists b'; split; [exact E|]. split; [exact Hl'|]. intros j k Hj Hk; apply H'; nia.
Qed.

(** what a point buffer must hold *)
Definition pts (x : buf R) (zs : nat -> R) (n : nat) : Prop := blen x = n /\ holds x n zs.
Lemma pts_rd x zs n j : pts x zs n -> (j < n)%nat -> brd x j = Some (zs j).
Proof. intros [Hl H] Hj. rewrite brd_in by lia. apply H, Hj. Qed.

Definition chint_ok (f : fam) (h : nat -> nat -> buf R -> nat -> buf R -> option (buf R)) : Prop :=
  forall m d x zs n dark, (1 <= m)%nat -> pts x zs n -> blen dark = (m * n)%nat ->
  exists b, h m d x n dark = Some b /\ cols b n m m (fun j k => ftab f k d (zs j)).

Lemma cpp_deg0_ok f d n zs (dark : buf R) : blen dark = (1 * n)%nat ->
  exists b, cpp_deg0 ROps d n dark = Some b /\ cols b n 1 1 (fun j k => ftab f k d (zs j)).
Proof.
  intros Hl. unfold cpp_deg0.
  assert (H : forall v, exists b, for_ 0 n (fun k dark => bwr dark k v) dark = Some b /\
      cols b n 1 1 (fun _ _ => v)).
  { intros v. apply (for_cols1 1 n 0 (fun _ _ => v)); [lia|apply cols_0, Hl|].
    intros j b' Hj Hb'. f_equal. lia. }
  destruct (Nat.ltb_spec 0 d) as [Hd|Hd].
  - destruct (H 0) as (b & E & Hb). exists b; split; [exact E|]. eapply cols_ext; [exact Hb|].
    intros j [|k] Hj Hk; [|lia]. tab01. destruct d; [lia|reflexivity].
  - destruct (H 1) as (b & E & Hb). exists b; split; [exact E|]. eapply cols_ext; [exact Hb|].
    intros j [|k] Hj Hk; [|lia]. tab01. destruct d; [reflexivity|lia].
Qed.

Lemma cpp_deg1_ok f d n zs w v1 (dark : buf R) : blen dark = (2 * n)%nat -> w = ca f 0 ->
  (forall j, (j < n)%nat -> v1 j = Some (ca f 0 * zs j + cb f 0)) ->
  exists b, cpp_deg1 ROps 2 d n w v1 dark = Some b /\ cols b n 2 2 (fun j k => ftab f k d (zs j)).
Proof.
  intros Hl -> Hv. unfold cpp_deg1.
  destruct (Nat.ltb_spec 1 d) as [Hd|Hd].
  - destruct (fill_ok n 2 dark Hl) as (b & E & Hb). exists b; split; [exact E|].
    eapply cols_ext; [exact Hb|].
    intros j [|[|k]] Hj Hk; [| |lia]; tab01; destruct d as [|[|d]]; try lia; reflexivity.
  - destruct (Nat.ltb_spec 0 d) as [Hd'|Hd'].
    + assert (d = 1)%nat by lia. subst d.
      apply cpp_col01_ok; [lia|exact Hl| |]; intros j Hj; tab01; reflexivity.
    + assert (d = 0)%nat by lia. subst d.
      apply cpp_col01_ok; [lia|exact Hl| |]; intros j Hj; [tab01; reflexivity|].
      rewrite Hv by exact Hj. tab01. reflexivity.
Qed.

Lemma cpp_reset_ok f dCurr m n zs w (F : buf R) : (3 <= m)%nat -> w = ca f 0 ->
  cols F n m m (fun j k => ftab f k dCurr (zs j)) ->
  exists b, cpp_reset ROps dCurr m n w F = Some b /\ cols b n m 2 (fun j k => ftab f k (S dCurr) (zs j)).
Proof.
  intros Hm -> HF. unfold cpp_reset.
  destruct (Nat.eqb_spec dCurr 0) as [->|Hd0].
  - apply cpp_col01_ok; [lia|apply HF| |]; intros j Hj; tab01; reflexivity.
  - destruct (Nat.eqb_spec dCurr 1) as [->|Hd1].
    + destruct (for_cols1 m n 1 (fun j k => ftab f k 2 (zs j))
         (fun k F => bwr F (m * k + 1)%nat 0) F) as (b & E & Hb).
      * lia.
      * split; [apply HF|]. intros j [|k] Hj Hk; [|lia].
        rewrite (proj2 HF) by lia. tab01. reflexivity.
      * intros j b' Hj Hb'. tab01. reflexivity.
      * exists b; split; [exact E|exact Hb].
    + exists F; split; [reflexivity|]. split; [apply HF|].
      intros j k Hj Hk. rewrite (proj2 HF) by lia.
      destruct k as [|[|k]]; [| |lia]; tab01; destruct dCurr as [|[|d]]; try lia; reflexivity.
Qed.

Lemma bcopy_ok {T} (F : buf T) n m V : cols F n m m V ->
  exists b, bcopy F (m * n) = Some b /\ cols b n m m V.
Proof.
  intros [Hl H]. unfold bcopy. destruct (Nat.leb_spec (m * n) (blen F)); [|lia].
  eexists; split; [reflexivity|]. split; [reflexivity|exact H].
Qed.

(** ** families whose loops write column k+1 *)
Section Gen.
Variables (f : fam) (m n : nat) (x : buf R) (zs : nat -> R).
Hypothesis Hm : (3 <= m)%nat.
Hypothesis Hx : pts x zs n.

Lemma gen_cderiv w (inner : nat -> buf R -> nat -> nat -> buf R -> option (buf R))
  (rec : nat -> nat -> buf R -> option (buf R)) : w = ca f 0 ->
  (forall dCurr dark k j F, (1 <= k < m - 1)%nat -> (j < n)%nat ->
     cols dark n m m (fun j k => ftab f k dCurr (zs j)) ->
     cols F n m (k + 1) (fun j k => ftab f k (S dCurr) (zs j)) ->
     inner dCurr dark k j F = bwr F (m * j + (k + 1))%nat (ftab f (k + 1) (S dCurr) (zs j))) ->
  (forall dCurr F, rec 0%nat dCurr F = Some F) ->
  (forall n' dCurr F, rec (S n') dCurr F =
     (dark <- bcopy F (m * n)%nat ;; F <- cpp_reset ROps dCurr m n w F ;;
      F <- for_ 1 (m - 1) (fun k F => for_ 0 n (fun j F => inner dCurr dark k j F) F) F ;;
      rec n' (S dCurr) F)) ->
  forall n' dCurr F, cols F n m m (fun j k => ftab f k dCurr (zs j)) ->
  exists b, rec n' dCurr F = Some b /\ cols b n m m (fun j k => ftab f k (dCurr + n') (zs j)).
Proof.
  intros Hw Hin H0 HS. induction n' as [|n' IH]; intros dCurr F HF.
  - exists F; rewrite H0; split; [reflexivity|]. rewrite Nat.add_0_r; exact HF.
  - rewrite HS. destruct (bcopy_ok F n m _ HF) as (dark & Ed & Hd). rewrite Ed; cbn [bind].
    destruct (cpp_reset_ok f dCurr m n zs w F Hm Hw HF) as (F1 & E1 & H1). rewrite E1; cbn [bind].
    destruct (for_cols m n 1 (m - 1) 1 (fun j k => ftab f k (S dCurr) (zs j))
                (fun k j F => inner dCurr dark k j F) F1) as (F2 & E2 & H2);
      [lia|lia|exact H1| |].
    + intros k j b' Hk Hj Hb'. apply Hin; assumption.
    + rewrite E2; cbn [bind]. replace (m - 1 + 1)%nat with m in H2 by lia.
      destruct (IH (S dCurr) F2 H2) as (b & E & Hb). exists b; split; [exact E|].
      replace (dCurr + S n')%nat with (S dCurr + n')%nat by lia. exact Hb.
Qed.

Lemma gen_chint d v1 (inner : nat -> nat -> buf R -> option (buf R))
  (rec : nat -> nat -> buf R -> option (buf R)) dark : blen dark = (m * n)%nat ->
  (forall j, (j < n)%nat -> v1 j = Some (ca f 0 * zs j + cb f 0)) ->
  (forall k j F, (1 <= k < m - 1)%nat -> (j < n)%nat ->
     cols F n m (k + 1) (fun j k => ftab f k 0 (zs j)) ->
     inner k j F = bwr F (m * j + (k + 1))%nat (ftab f (k + 1) 0 (zs j))) ->
  (forall n' dCurr F, cols F n m m (fun j k => ftab f k dCurr (zs j)) ->
     exists b, rec n' dCurr F = Some b /\ cols b n m m (fun j k => ftab f k (dCurr + n') (zs j))) ->
  exists b, (dark <- cpp_col01 m n (o1 ROps) v1 dark ;;
             dark <- for_ 1 (m - 1) (fun k F => for_ 0 n (fun j F => inner k j F) F) dark ;;
             rec d 0%nat dark) = Some b /\ cols b n m m (fun j k => ftab f k d (zs j)).
Proof.
  intros Hl Hv Hin Hrec.
  destruct (cpp_col01_ok m n (o1 ROps) v1 (fun j k => ftab f k 0 (zs j)) dark) as (F1 & E1 & H1);
    [lia|exact Hl|reflexivity| |].
  { intros j Hj. rewrite Hv by exact Hj. tab01. reflexivity. }
  rewrite E1; cbn [bind].
  destruct (for_cols m n 1 (m - 1) 1 (fun j k => ftab f k 0 (zs j)) (fun k j F => inner k j F) F1) as (F2 & E2 & H2);
    [lia|lia|exact H1|exact Hin|].
  rewrite E2; cbn [bind]. replace (m - 1 + 1)%nat with m in H2 by lia.
  apply (Hrec d 0%nat F2 H2).
Qed.
End Gen.

Ltac crd Hd := erewrite (cols_rd _ _ _ _ _ _ _ Hd) by (lia || nia); cbn [bind].
Ltac prd Hx := erewrite (pts_rd _ _ _ _ Hx) by lia; cbn [bind].
Ltac reidx j k m :=
  replace (m * j + k - 1)%nat with (m * j + (k - 1))%nat by lia;
  replace (m * j + k + 1)%nat with (m * j + (k + 1))%nat by lia.
Ltac csmall f m v :=
  match goal with
  | Hm : (1 <= m)%nat, Hx : pts _ _ _, Hl : blen _ = _ |- _ =>
    destruct (Nat.eqb_spec m 1) as [->|]; [apply cpp_deg0_ok, Hl|];
    destruct (Nat.eqb_spec m 2) as [->|];
    [apply cpp_deg1_ok; [exact Hl|cbn; field|intros j Hj; prd Hx; cbn; f_equal; field]|];
    assert (3 <= m)%nat by lia
  end.

Lemma cpp_lep_ok : chint_ok LeP (cpp_lep_hint ROps).
Proof.
  intros m d x zs n dark Hm Hx Hl. unfold cpp_lep_hint. csmall LeP m z.
  eapply (gen_chint LeP m n zs ltac:(assumption) d (brd x)
    (fun k j dark => xj <- brd x j ;; a <- brd dark (m * j + k)%nat ;; b <- brd dark (m * j + k - 1)%nat ;;
       bwr dark (m * j + k + 1)%nat _) (fun n' dC F => cpp_lep_deriv ROps m n' dC x n F) dark Hl).
  - intros j Hj. prd Hx. cbn. f_equal; field.
  - intros k j F Hk Hj HF. reidx j k m. prd Hx. crd HF. crd HF. f_equal.
    rewrite tab_step by lia. change (INR 0) with 0. famsolve.
  - eapply (gen_cderiv LeP m n zs ltac:(assumption) (o1 ROps)
      (fun dCurr dark k j F =>
             a <- brd dark (m * j + k)%nat ;;
             xj <- brd x j ;;
             b <- brd F (m * j + k)%nat ;;
             c <- brd F (m * j + k - 1)%nat ;;
             bwr F (m * j + k + 1)%nat _)); [cbn; field| |reflexivity|reflexivity].
    intros dCurr dk k j F Hk Hj Hdk HF. reidx j k m. crd Hdk. prd Hx. crd HF. crd HF. f_equal.
    rewrite tab_step by lia. cbn [pred]. famsolve.
Qed.

Lemma cpp_lap_ok : chint_ok LaP (cpp_lap_hint ROps).
Proof.
  intros m d x zs n dark Hm Hx Hl. unfold cpp_lap_hint. csmall LaP m z.
  eapply (gen_chint LaP m n zs ltac:(assumption) d (fun k => xk <- brd x k ;; Some (osub ROps (o1 ROps) xk))
    (fun k j dark => xj <- brd x j ;; a <- brd dark (m * j + k)%nat ;; b <- brd dark (m * j + k - 1)%nat ;;
       bwr dark (m * j + k + 1)%nat _) (fun n' dC F => cpp_lap_deriv ROps m n' dC x n F) dark Hl).
  - intros j Hj. prd Hx. cbn. f_equal; field.
  - intros k j F Hk Hj HF. reidx j k m. prd Hx. crd HF. crd HF. f_equal.
    rewrite tab_step by lia. change (INR 0) with 0. famsolve.
  - eapply (gen_cderiv LaP m n zs ltac:(assumption) (oopp ROps (o1 ROps))
      (fun dCurr dark k j F =>
             xj <- brd x j ;;
             b <- brd F (m * j + k)%nat ;;
             a <- brd dark (m * j + k)%nat ;;
             c <- brd F (m * j + k - 1)%nat ;;
             bwr F (m * j + k + 1)%nat _)); [cbn; field| |reflexivity|reflexivity].
    intros dCurr dk k j F Hk Hj Hdk HF. reidx j k m. prd Hx. crd HF. crd Hdk. crd HF. f_equal.
    rewrite tab_step by lia. cbn [pred]. famsolve.
Qed.

Lemma cpp_hoppro_ok : chint_ok HoPpro (cpp_hoppro_hint ROps).
Proof.
  intros m d x zs n dark Hm Hx Hl. unfold cpp_hoppro_hint. csmall HoPpro m z.
  eapply (gen_chint HoPpro m n zs ltac:(assumption) d (brd x)
    (fun k j dark => xj <- brd x j ;; a <- brd dark (m * j + k)%nat ;; b <- brd dark (m * j + k - 1)%nat ;;
       bwr dark (m * j + k + 1)%nat _) (fun n' dC F => cpp_hoppro_deriv ROps m n' dC x n F) dark Hl).
  - intros j Hj. prd Hx. cbn. f_equal; field.
  - intros k j F Hk Hj HF. reidx j k m. prd Hx. crd HF. crd HF. f_equal.
    rewrite tab_step by lia. change (INR 0) with 0. famsolve.
  - eapply (gen_cderiv HoPpro m n zs ltac:(assumption) (o1 ROps)
      (fun dCurr dark k j F =>
             a <- brd dark (m * j + k)%nat ;;
             xj <- brd x j ;;
             b <- brd F (m * j + k)%nat ;;
             c <- brd F (m * j + k - 1)%nat ;;
             bwr F (m * j + k + 1)%nat _)); [cbn; field| |reflexivity|reflexivity].
    intros dCurr dk k j F Hk Hj Hdk HF. reidx j k m. crd Hdk. prd Hx. crd HF. crd HF. f_equal.
    rewrite tab_step by lia. cbn [pred]. famsolve.
Qed.

Lemma cpp_hopphy_ok : chint_ok HoPphy (cpp_hopphy_hint ROps).
Proof.
  intros m d x zs n dark Hm Hx Hl. unfold cpp_hopphy_hint. csmall HoPphy m z.
  eapply (gen_chint HoPphy m n zs ltac:(assumption) d
    (fun k => xk <- brd x k ;; Some (omul ROps (onat ROps 2) xk))
    (fun k j dark => xj <- brd x j ;; a <- brd dark (m * j + k)%nat ;; b <- brd dark (m * j + k - 1)%nat ;;
       bwr dark (m * j + k + 1)%nat _) (fun n' dC F => cpp_hopphy_deriv ROps m n' dC x n F) dark Hl).
  - intros j Hj. prd Hx. cbn. f_equal; field.
  - intros k j F Hk Hj HF. reidx j k m. prd Hx. crd HF. crd HF. f_equal.
    rewrite tab_step by lia. change (INR 0) with 0. famsolve.
  - eapply (gen_cderiv HoPphy m n zs ltac:(assumption) (onat ROps 2)
      (fun dCurr dark k j F =>
             a <- brd dark (m * j + k)%nat ;;
             xj <- brd x j ;;
             b <- brd F (m * j + k)%nat ;;
             c <- brd F (m * j + k - 1)%nat ;;
             bwr F (m * j + k + 1)%nat _)); [cbn; field| |reflexivity|reflexivity].
    intros dCurr dk k j F Hk Hj Hdk HF. reidx j k m. crd Hdk. prd Hx. crd HF. crd HF. f_equal.
    rewrite tab_step by lia. cbn [pred]. famsolve.
Qed.

(** ** CP: the loops write column k *)
Ltac reidx2 j k m :=
  replace (m * j + k - 1)%nat with (m * j + (k - 1))%nat by lia;
  replace (m * j + k - 2)%nat with (m * j + (k - 2))%nat by lia.
Lemma cp_step k d z : (2 <= k)%nat ->
  ftab CP k d z = 2 * z * ftab CP (k - 1) d z + 2 * INR d * ftab CP (k - 1) (pred d) z - ftab CP (k - 2) d z.
Proof.
  intros Hk. pose proof (tab_step CP (k - 1) d z ltac:(lia)) as Ht.
  replace (k - 1 + 1)%nat with k in Ht by lia. rewrite Ht.
  replace (k - 1 - 1)%nat with (k - 2)%nat by lia.
  replace (ca CP (k - 1)) with 2 by (destruct k as [|[|k]]; [lia|lia|reflexivity]).
  unfold cb, cc. ring.
Qed.

Lemma cpp_cp_deriv_ok m n x zs : (3 <= m)%nat -> pts x zs n ->
  forall n' dCurr F, cols F n m m (fun j k => ftab CP k dCurr (zs j)) ->
  exists b, cpp_cp_deriv ROps m n' dCurr x n F = Some b /\
    cols b n m m (fun j k => ftab CP k (dCurr + n') (zs j)).
Proof.
  intros Hm Hx. induction n' as [|n' IH]; intros dCurr F HF.
  - exists F; split; [reflexivity|]. rewrite Nat.add_0_r; exact HF.
  - cbn [cpp_cp_deriv]. destruct (bcopy_ok F n m _ HF) as (dark & Ed & Hd). rewrite Ed; cbn [bind].
    destruct (cpp_reset_ok CP dCurr m n zs (o1 ROps) F Hm eq_refl HF) as (F1 & E1 & H1).
    rewrite E1; cbn [bind].
    destruct (for_cols m n 2 m 0 (fun j k => ftab CP k (S dCurr) (zs j))
                (fun k j F => a <- brd dark (m * j + k - 1)%nat ;;
             xj <- brd x j ;;
             b <- brd F (m * j + k - 1)%nat ;;
             c <- brd F (m * j + k - 2)%nat ;;
             bwr F (m * j + k)%nat (osub ROps (oadd ROps (omul ROps (oadd ROps (onat ROps 2) (omul ROps (onat ROps 2) (onat ROps dCurr))) a) (omul ROps (omul ROps (onat ROps 2) xj) b)) c)) F1) as (F2 & E2 & H2);
      [lia|lia|exact H1| |].
    + intros k j b' Hk Hj Hb'. rewrite Nat.add_0_r in *. reidx2 j k m.
      crd Hd. prd Hx. crd Hb'. crd Hb'. f_equal. rewrite (cp_step k) by lia. cbn [pred].
      rewrite (S_INR dCurr).
      cbn [ROps osub oadd omul odiv oopp onat o0 o1]. rewrite INR_2. ring.
    + cbv beta in E2. rewrite E2; cbn [bind]. rewrite Nat.add_0_r in H2.
      destruct (IH (S dCurr) F2 H2) as (b & E & Hb). exists b; split; [exact E|].
      replace (dCurr + S n')%nat with (S dCurr + n')%nat by lia. exact Hb.
Qed.

Lemma cpp_cp_ok : chint_ok CP (cpp_cp_hint ROps).
Proof.
  intros m d x zs n dark Hm Hx Hl. unfold cpp_cp_hint. csmall CP m z.
  destruct (cpp_col01_ok m n (o1 ROps) (brd x) (fun j k => ftab CP k 0 (zs j)) dark) as (F1 & E1 & H1);
    [lia|exact Hl|reflexivity| |].
  { intros j Hj. prd Hx. tab01. f_equal; ring. }
  rewrite E1; cbn [bind].
  destruct (for_cols m n 2 m 0 (fun j k => ftab CP k 0 (zs j))
     (fun k j dark => xj <- brd x j ;;
              a <- brd dark (m * j + k - 1)%nat ;;
              b <- brd dark (m * j + k - 2)%nat ;;
              bwr dark (m * j + k)%nat (osub ROps (omul ROps (omul ROps (onat ROps 2) xj) a) b)) F1)
     as (F2 & E2 & H2); [lia|lia|exact H1| |].
  - intros k j b' Hk Hj Hb'. rewrite Nat.add_0_r in *. reidx2 j k m.
    prd Hx. crd Hb'. crd Hb'. f_equal. rewrite (cp_step k) by lia. cbn [pred].
    cbn [ROps osub oadd omul odiv oopp onat o0 o1]. rewrite INR_2. cbn [INR]. ring.
  - rewrite E2; cbn [bind]. rewrite Nat.add_0_r in H2.
    apply (cpp_cp_deriv_ok m n x zs ltac:(assumption) Hx d 0%nat F2 H2).
Qed.
