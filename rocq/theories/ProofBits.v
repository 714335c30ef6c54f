(** Both backends perform the same operations in the same order: the values of [H]
    agree for every arithmetic, not only for exact numbers.  The proofs below use
    no algebraic law of the operations; the only facts about numbers they need are
    the two of [small_ints]. *)
From Coq Require Import Arith Lia List Bool ZArith.
From Verif Require Import Base ProofBase ModelBFPy ModelBFCpp ProofBFPy ProofBFCpp ProofH SpecBasis.
Import ListNotations.

Section Any.
Context {T : Type} (A : Ops T) (E : Fun T).
Local Notation "0" := (o0 A). Local Notation "1" := (o1 A).
Local Infix "+" := (oadd A). Local Infix "-" := (osub A).
Local Infix "*" := (omul A). Local Infix "/" := (odiv A).
Local Notation "- x" := (oopp A x).
Local Notation "# n" := (onat A n) (at level 1).

(** two-term recurrences *)
Fixpoint pairs (u0 u1 : T) (step : nat -> T -> T -> T) (k : nat) : T * T :=
  match k with
  | O => (u0, u1)
  | S k' => let p := pairs u0 u1 step k' in (snd p, step (S k') (snd p) (fst p))
  end.
Definition rec2 u0 u1 step k := fst (pairs u0 u1 step k).
Lemma rec2_0 u0 u1 s : rec2 u0 u1 s 0 = u0. Proof. reflexivity. Qed.
Lemma rec2_1 u0 u1 s : rec2 u0 u1 s 1 = u1. Proof. reflexivity. Qed.
Lemma rec2_SS u0 u1 s k : rec2 u0 u1 s (S (S k)) = s (S k) (rec2 u0 u1 s (S k)) (rec2 u0 u1 s k).
Proof. reflexivity. Qed.

(** the formula of the value columns, and of the derivative columns *)
Definition s0 (f : fam) (z : T) (k : nat) (a b : T) : T :=
  match f with
  | CP => #2 * z * a - b
  | LeP => ((#2 * #k + 1) * z * a - #k * b) / (#k + 1)
  | LaP => ((#2 * #k + 1 - z) * a - #k * b) / (#k + 1)
  | HoPpro => z * a - #k * b
  | HoPphy => #2 * z * a - #2 * #k * b
  | FS => a
  end.
Definition s1 (f : fam) (z : T) (dC k : nat) (a b c : T) : T :=
  match f with
  | CP => (#2 + #2 * #dC) * a + #2 * z * b - c
  | LeP => ((#2 * #k + 1) * ((#dC + 1) * a + z * b) - #k * c) / (#k + 1)
  | LaP => ((#2 * #k + 1 - z) * b - (#dC + 1) * a - #k * c) / (#k + 1)
  | HoPpro => (#dC + 1) * a + z * b - #k * c
  | HoPphy => #2 * (#dC + 1) * a + #2 * z * b - #2 * #k * c
  | FS => a
  end.
Definition fw (f : fam) : T := match f with LaP => oopp A 1 | HoPphy => #2 | _ => 1 end.
Definition fv (f : fam) (z : T) : T := match f with LaP => 1 - z | HoPphy => #2 * z | _ => z end.

Fixpoint gt (f : fam) (z : T) (d : nat) : nat -> T :=
  match d with
  | O => rec2 1 (fv f z) (s0 f z)
  | S d' => rec2 0 (if d' =? 0%nat then fw f else 0)
              (fun k b c => s1 f z d' k (gt f z d' k) b c)
  end.
Lemma gt_step0 f z k : (1 <= k)%nat -> gt f z 0 (k + 1)%nat = s0 f z k (gt f z 0 k) (gt f z 0 (k - 1)%nat).
Proof.
  intros Hk. destruct k as [|k]; [lia|]. replace (S k + 1)%nat with (S (S k)) by lia.
  replace (S k - 1)%nat with k by lia. reflexivity.
Qed.
Lemma gt_step1 f z d k : (1 <= k)%nat -> gt f z (S d) (k + 1)%nat =
  s1 f z d k (gt f z d k) (gt f z (S d) k) (gt f z (S d) (k - 1)%nat).
Proof.
  intros Hk. destruct k as [|k]; [lia|]. replace (S k + 1)%nat with (S (S k)) by lia.
  replace (S k - 1)%nat with k by lia. reflexivity.
Qed.
Lemma gt_00 f z d : gt f z d 0 = match d with O => 1 | _ => 0 end. Proof. destruct d; reflexivity. Qed.
Lemma gt_01 f z d : gt f z d 1 = match d with O => fv f z | S O => fw f | _ => 0 end.
Proof. destruct d as [|[|d]]; reflexivity. Qed.
Ltac g01 := rewrite ?gt_00, ?gt_01; cbn [fv fw].

(** Fourier columns, as computed *)
Definition gfs (z : T) (d k : nat) : T :=
  match k with
  | O => match d with O => 1 | _ => 0 end
  | _ => let g := #((k + 1) / 2)%nat in
         let ev := (k mod 2 =? 0)%nat in
         if (d =? 0)%nat then (if ev then fcos E (g * z) else fsin E (g * z))
         else if (d mod 4 =? 0)%nat then
           (if ev then opow A g d * fcos E (g * z) else opow A g d * fsin E (g * z))
         else if (d mod 4 =? 1)%nat then
           (if ev then - opow A g d * fsin E (g * z) else opow A g d * fcos E (g * z))
         else if (d mod 4 =? 2)%nat then
           (if ev then - opow A g d * fcos E (g * z) else - opow A g d * fsin E (g * z))
         else (if ev then opow A g d * fsin E (g * z) else - opow A g d * fcos E (g * z))
  end.
Definition gcol (f : fam) (k d : nat) (z : T) : T :=
  match f with FS => gfs z d k | _ => gt f z d k end.

(** the facts about small integers: [2 + 2n] is the same float whether it is computed on
    integers or on floats, and [2 * 1] is [2] *)
Definition small_ints (d : nat) : Prop :=
  (forall n, (n < d)%nat -> #(2 + 2 * n) = #2 + #2 * #n) /\ #2 * 1 = #2.

(** ** Python *)
Lemma gnp_row2 m u v : (2 <= m)%nat ->
  exists b, np_row2 A m u v = Some b /\ blen b = m /\ bcell b 0%nat = Some u /\ bcell b 1%nat = Some v.
Proof.
  intros Hm. unfold np_row2. destruct (Nat.ltb_spec m 2); [lia|].
  eexists; split; [reflexivity|]. repeat split.
Qed.
Lemma gderiv_init f m w z dC : (3 <= m)%nat -> w = fw f ->
  exists b, (if dC =? 0%nat then np_row2 A m 0 w else Some (bfill m 0)) = Some b
    /\ blen b = m /\ holds b 2 (gt f z (S dC)).
Proof.
  intros Hm ->. destruct (Nat.eqb_spec dC 0) as [->|Hd].
  - destruct (gnp_row2 m 0 (fw f)) as (b & H1 & H2 & H3 & H4); [lia|].
    exists b; repeat split; try assumption. apply holds2; [rewrite H3|rewrite H4]; g01; reflexivity.
  - exists (bfill m 0); repeat split. apply holds2; g01; [reflexivity|]. destruct dC; [lia|reflexivity].
Qed.

Definition grow_ok (f : fam) (N : nat) (r : nat -> T -> nat -> option (buf T)) : Prop :=
  forall m z d, (1 <= m)%nat -> small_ints N -> (d <= N)%nat ->
  exists b, r m z d = Some b /\ blen b = m /\ holds b m (gt f z d).

Lemma gsmall f m z d w v (r : option (buf T)) : (m = 1 \/ m = 2)%nat -> w = fw f -> v = fv f z ->
  r = (if (m =? 1)%nat then Some (bof [if (0 <? d)%nat then 0 else 1])
       else Some (bof (if (1 <? d)%nat then [0; 0] else if (0 <? d)%nat then [0; w] else [1; v]))) ->
  exists b, r = Some b /\ blen b = m /\ holds b m (gt f z d).
Proof.
  intros [-> | ->] -> -> ->; cbn [Nat.eqb].
  - eexists; split; [reflexivity|]. split; [reflexivity|].
    intros [|k] Hk; [|lia]. g01. destruct d; reflexivity.
  - eexists; split; [reflexivity|]. split.
    + destruct d as [|[|d]]; reflexivity.
    + intros [|[|k]] Hk; [| |lia]; g01; destruct d as [|[|d]]; reflexivity.
Qed.

Lemma gpy_cp_recurse m z N : (3 <= m)%nat -> small_ints N -> forall n dC b, (dC + n <= N)%nat ->
  blen b = m -> holds b m (gt CP z dC) ->
  exists b', py_cp_recurse A m z n dC b = Some b' /\ blen b' = m /\ holds b' m (gt CP z (dC + n)).
Proof.
  intros Hm [HN _]. induction n as [|n IH]; intros dC b Hd Hl Hh.
  - exists b; repeat split; [assumption|]. rewrite Nat.add_0_r; exact Hh.
  - cbn [py_cp_recurse].
    destruct (gderiv_init CP m 1 z dC Hm) as (b0 & E0 & Hl0 & Hh0); [reflexivity|].
    rewrite E0; cbn [bind].
    destruct (for_row m 2 m 0 (gt CP z (S dC))
      (fun k dark2 => a <- brd b (k - 1)%nat ;; b1 <- brd dark2 (k - 1)%nat ;; c <- brd dark2 (k - 2)%nat ;;
         bwr dark2 k (#(2 + 2 * dC)%nat * a + #2 * z * b1 - c)) b0)
      as (b1 & E1 & Hl1 & Hh1); [lia|lia|exact Hl0|exact Hh0| |].
    + intros k b' Hk Hl' Hh'. rewrite Nat.add_0_r in Hh'.
      rdsolve Hl Hh. rdsolve Hl' Hh'. rewrite Nat.add_0_r. f_equal.
      pose proof (gt_step1 CP z dC (k - 1) ltac:(lia)) as Ht.
      replace (k - 1 + 1)%nat with k in Ht by lia. rewrite Ht.
      replace (k - 1 - 1)%nat with (k - 2)%nat by lia. cbn [s1]. rewrite HN by lia. reflexivity.
    + rewrite E1; cbn [bind]. rewrite Nat.add_0_r in Hh1.
      destruct (IH (S dC) b1 ltac:(lia) Hl1 Hh1) as (b2 & E2 & Hl2 & Hh2).
      exists b2; repeat split; [exact E2|exact Hl2|].
      replace (dC + S n)%nat with (S dC + n)%nat by lia. exact Hh2.
Qed.

Lemma gpy_cp N : grow_ok CP N (py_cp_hint A).
Proof.
  intros m z d Hm HN Hd.
  destruct (Nat.le_gt_cases 3 m) as [H3|H3].
  2:{ apply (gsmall CP m z d 1 z); [lia|reflexivity|reflexivity|].
      unfold py_cp_hint. destruct (Nat.eqb_spec m 1); [reflexivity|].
      destruct (Nat.eqb_spec m 2); [reflexivity|lia]. }
  unfold py_cp_hint. big m.
  destruct (gnp_row2 m 1 z) as (b0 & E0 & Hl0 & Hc0 & Hc1); [lia|].
  rewrite E0; cbn [bind].
  destruct (for_row m 2 m 0 (gt CP z 0)
     (fun k F => a <- brd F (k - 1)%nat ;; b <- brd F (k - 2)%nat ;;
        bwr F k (#2 * z * a - b)) b0)
    as (b1 & E1 & Hl1 & Hh1); [lia|lia|exact Hl0| | |].
  - apply holds2; [rewrite Hc0|rewrite Hc1]; g01; reflexivity.
  - intros k b' Hk Hl' Hh'. rewrite Nat.add_0_r in *. rdsolve Hl' Hh'. f_equal.
    pose proof (gt_step0 CP z (k - 1) ltac:(lia)) as Ht.
    replace (k - 1 + 1)%nat with k in Ht by lia. rewrite Ht.
    replace (k - 1 - 1)%nat with (k - 2)%nat by lia. reflexivity.
  - rewrite E1; cbn [bind]. rewrite Nat.add_0_r in Hh1.
    apply (gpy_cp_recurse m z N H3 HN d 0%nat b1 Hd Hl1 Hh1).
Qed.

Lemma ggen_recurse f m z (step : nat -> T -> T -> T -> nat -> T)
  (rec : nat -> nat -> buf T -> option (buf T)) w : (3 <= m)%nat -> w = fw f ->
  (forall dC k a b c, step dC a b c k = s1 f z dC k a b c) ->
  (forall dC b, rec 0%nat dC b = Some b) ->
  (forall n dC b, rec (S n) dC b =
     (dark2 <- (if dC =? 0%nat then np_row2 A m 0 w else Some (bfill m 0)) ;;
      dark2 <- for_ 1 (m - 1) (fun k dark2 =>
                 a <- brd b k ;; b1 <- brd dark2 k ;; c <- brd dark2 (k - 1)%nat ;;
                 bwr dark2 (k + 1)%nat (step dC a b1 c k)) dark2 ;;
      rec n (S dC) dark2)) ->
  forall n dC b, blen b = m -> holds b m (gt f z dC) ->
  exists b', rec n dC b = Some b' /\ blen b' = m /\ holds b' m (gt f z (dC + n)).
Proof.
  intros Hm Hw Hstep Hr0 HrS. induction n as [|n IH]; intros dC b Hl Hh.
  - exists b; rewrite Hr0; repeat split; [assumption|]. rewrite Nat.add_0_r; exact Hh.
  - rewrite HrS. destruct (gderiv_init f m w z dC Hm Hw) as (b0 & E0 & Hl0 & Hh0).
    rewrite E0; cbn [bind].
    destruct (for_row m 1 (m - 1) 1 (gt f z (S dC))
      (fun k dark2 => a <- brd b k ;; b1 <- brd dark2 k ;; c <- brd dark2 (k - 1)%nat ;;
         bwr dark2 (k + 1)%nat (step dC a b1 c k)) b0)
      as (b1 & E1 & Hl1 & Hh1); [lia|lia|exact Hl0|exact Hh0| |].
    + intros k b' Hk Hl' Hh'. rdsolve Hl Hh. rdsolve Hl' Hh'. f_equal.
      rewrite Hstep, gt_step1 by lia. reflexivity.
    + rewrite E1; cbn [bind]. replace (m - 1 + 1)%nat with m in Hh1 by lia.
      destruct (IH (S dC) b1 Hl1 Hh1) as (b2 & E2 & Hl2 & Hh2).
      exists b2; repeat split; [exact E2|exact Hl2|].
      replace (dC + S n)%nat with (S dC + n)%nat by lia. exact Hh2.
Qed.

Lemma ggen_ok f m z d v (step0 : T -> T -> nat -> T) (rec : nat -> nat -> buf T -> option (buf T)) :
  (3 <= m)%nat -> v = fv f z -> (forall k a b, step0 a b k = s0 f z k a b) ->
  (forall n dC b, blen b = m -> holds b m (gt f z dC) ->
     exists b', rec n dC b = Some b' /\ blen b' = m /\ holds b' m (gt f z (dC + n))) ->
  exists b,
    (F <- np_row2 A m 1 v ;;
     F <- for_ 1 (m - 1) (fun k F => a <- brd F k ;; b <- brd F (k - 1)%nat ;;
            bwr F (k + 1)%nat (step0 a b k)) F ;;
     rec d 0%nat F) = Some b /\ blen b = m /\ holds b m (gt f z d).
Proof.
  intros Hm Hv Hstep Hrec.
  destruct (gnp_row2 m 1 v) as (b0 & E0 & Hl0 & Hc0 & Hc1); [lia|].
  rewrite E0; cbn [bind].
  destruct (for_row m 1 (m - 1) 1 (gt f z 0)
     (fun k F => a <- brd F k ;; b <- brd F (k - 1)%nat ;; bwr F (k + 1)%nat (step0 a b k)) b0)
    as (b1 & E1 & Hl1 & Hh1); [lia|lia|exact Hl0| | |].
  - apply holds2; [rewrite Hc0|rewrite Hc1, Hv]; g01; reflexivity.
  - intros k b' Hk Hl' Hh'. rdsolve Hl' Hh'. f_equal. rewrite Hstep, gt_step0 by lia. reflexivity.
  - rewrite E1; cbn [bind]. replace (m - 1 + 1)%nat with m in Hh1 by lia.
    apply (Hrec d 0%nat b1 Hl1 Hh1).
Qed.

Ltac gfam f h :=
  intros m z d Hm HN Hd; destruct (Nat.le_gt_cases 3 m) as [H3|H3];
  [h; big m |
   eapply (gsmall f m z d _ _); [lia| | |h; destruct (Nat.eqb_spec m 1); [reflexivity|];
      destruct (Nat.eqb_spec m 2); [reflexivity|lia]]; try reflexivity].

Lemma gpy_lep N : grow_ok LeP N (py_lep_hint A).
Proof.
  gfam LeP ltac:(idtac; unfold py_lep_hint).
  apply (ggen_ok LeP m z d z (fun a b k => ((#2 * #k + 1) * z * a - #k * b) / (#k + 1))
    (py_lep_recurse A m z)); [exact H3|reflexivity|reflexivity|].
  apply (ggen_recurse LeP m z (fun dC a b c k =>
    ((#2 * #k + 1) * ((#dC + 1) * a + z * b) - #k * c) / (#k + 1)) (py_lep_recurse A m z) 1);
    try exact H3; reflexivity.
Qed.
Lemma gpy_lap N : grow_ok LaP N (py_lap_hint A).
Proof.
  gfam LaP ltac:(idtac; unfold py_lap_hint).
  apply (ggen_ok LaP m z d (1 - z) (fun a b k => ((#2 * #k + 1 - z) * a - #k * b) / (#k + 1))
    (py_lap_recurse A m z)); [exact H3|reflexivity|reflexivity|].
  apply (ggen_recurse LaP m z (fun dC a b c k =>
    ((#2 * #k + 1 - z) * b - (#dC + 1) * a - #k * c) / (#k + 1)) (py_lap_recurse A m z) (oopp A 1));
    try exact H3; reflexivity.
Qed.
Lemma gpy_hoppro N : grow_ok HoPpro N (py_hoppro_hint A).
Proof.
  gfam HoPpro ltac:(idtac; unfold py_hoppro_hint).
  apply (ggen_ok HoPpro m z d z (fun a b k => z * a - #k * b)
    (py_hoppro_recurse A m z)); [exact H3|reflexivity|reflexivity|].
  apply (ggen_recurse HoPpro m z (fun dC a b c k => (#dC + 1) * a + z * b - #k * c)
    (py_hoppro_recurse A m z) 1); try exact H3; reflexivity.
Qed.
Lemma gpy_hopphy N : grow_ok HoPphy N (py_hopphy_hint A).
Proof.
  gfam HoPphy ltac:(idtac; unfold py_hopphy_hint).
  - apply (ggen_ok HoPphy m z d (#2 * z) (fun a b k => #2 * z * a - #2 * #k * b)
      (py_hopphy_recurse A m z)); [exact H3|reflexivity|reflexivity|].
    apply (ggen_recurse HoPphy m z (fun dC a b c k => #2 * (#dC + 1) * a + #2 * z * b - #2 * #k * c)
      (py_hopphy_recurse A m z) (#2 * 1)); try exact H3; try reflexivity. apply HN.
  - apply HN.
Qed.
Lemma gpy_fs m z d : (1 <= m)%nat ->
  exists b, py_fs_hint A E m z d = Some b /\ blen b = m /\ holds b m (gfs z d).
Proof.
  intros Hm. unfold py_fs_hint.
  assert (Hinit : forall v, exists b, bwr (bfill m 0) 0 v = Some b /\ blen b = m /\ bcell b 0%nat = Some v).
  { intros v. rewrite bwr_in by (cbn; lia). eexists; split; [reflexivity|]. split; reflexivity. }
  assert (Hloop : forall (W : nat -> T) b, blen b = m -> bcell b 0%nat = Some (gfs z d 0) ->
     (forall k, (1 <= k)%nat -> W k = gfs z d k) ->
     exists b', for_ 1 m (fun k F => bwr F k (W k)) b = Some b' /\ blen b' = m /\ holds b' m (gfs z d)).
  { intros W b Hl H0 HW.
    destruct (for_row m 1 m 0 (gfs z d) (fun k F => bwr F k (W k)) b) as (b' & E1 & Hl' & Hh');
      [lia|lia|exact Hl| | |].
    - intros [|k] Hk; [exact H0|lia].
    - intros k b' Hk Hl' _. rewrite Nat.add_0_r, HW by lia. reflexivity.
    - exists b'. rewrite Nat.add_0_r in Hh'. repeat split; assumption. }
  destruct (Nat.eqb_spec d 0) as [->|Hd].
  - destruct (Hinit 1) as (b & E1 & Hl & H0). rewrite E1; cbn [bind].
    apply Hloop; [exact Hl|exact H0|]. intros [|k] Hk; [lia|]. reflexivity.
  - destruct (Hinit 0) as (b & E1 & Hl & H0). rewrite E1; cbn [bind].
    assert (H0' : bcell b 0%nat = Some (gfs z d 0)) by (rewrite H0; destruct d; [lia|reflexivity]).
    assert (Hd0 : (d =? 0)%nat = false) by (apply Nat.eqb_neq; exact Hd).
    destruct (d mod 4 =? 0)%nat eqn:E0; [|destruct (d mod 4 =? 1)%nat eqn:E2;
      [|destruct (d mod 4 =? 2)%nat eqn:E3]];
      apply Hloop; try assumption; intros [|k] Hk; try lia; unfold gfs;
      rewrite Hd0, E0, ?E2, ?E3; reflexivity.
Qed.

Lemma gpy_row f m z d : (1 <= m)%nat -> small_ints d ->
  py_hint_row A E f m z d = Some (map (fun k => gcol f k d z) (seq 0 m)).
Proof.
  intros Hm HN. unfold py_hint_row.
  assert (H : forall (r : option (buf T)) G, (exists b, r = Some b /\ blen b = m /\ holds b m G) ->
     (b <- r ;; bto_list b) = Some (map G (seq 0 m))).
  { intros r G (b & -> & Hl & Hh). cbn [bind]. rewrite <- Hl. apply bto_list_holds. rewrite Hl; exact Hh. }
  destruct f; apply H.
  - apply (gpy_cp d); auto.
  - apply (gpy_lep d); auto.
  - apply (gpy_lap d); auto.
  - apply (gpy_hoppro d); auto.
  - apply (gpy_hopphy d); auto.
  - apply gpy_fs, Hm.
Qed.

(** ** C++ *)
Definition gpts (x : buf T) (zs : nat -> T) (n : nat) : Prop := blen x = n /\ holds x n zs.
Lemma gpts_rd x zs n j : gpts x zs n -> (j < n)%nat -> brd x j = Some (zs j).
Proof. intros [Hl H] Hj. rewrite brd_in by lia. apply H, Hj. Qed.
Ltac gprd Hx := erewrite (gpts_rd _ _ _ _ Hx) by lia; cbn [bind].

Lemma gcol01 m n v0 v1 (V : nat -> nat -> T) b :
  (2 <= m)%nat -> blen b = (m * n)%nat ->
  (forall j, (j < n)%nat -> V j 0%nat = v0) ->
  (forall j, (j < n)%nat -> v1 j = Some (V j 1%nat)) ->
  exists b', cpp_col01 m n v0 v1 b = Some b' /\ cols b' n m 2 V.
Proof.
  intros Hm Hl H0 H1. unfold cpp_col01.
  destruct (for_inv (fun k b' => blen b' = (m * n)%nat /\ forall j c, (j < k)%nat -> (c < 2)%nat ->
      bcell b' (m * j + c)%nat = Some (V j c))
      (fun k dark => dark <- bwr dark (m * k)%nat v0 ;; v <- v1 k ;; bwr dark (m * k + 1)%nat v) 0 n b)
    as (b' & E1 & Hl' & H').
  - lia.
  - split; [exact Hl|lia].
  - intros k b' Hk [Hl' H']. rewrite bwr_in by (rewrite Hl'; nia). cbn [bind].
    rewrite (H1 k) by lia. cbn [bind]. rewrite bwr_in by (cbn; rewrite Hl'; nia).
    eexists; split; [reflexivity|]. split; [exact Hl'|].
    intros j c Hj Hc; cbn.
    destruct (Nat.eqb_spec (m * j + c) (m * k + 1)) as [He|He].
    + apply idx_inj in He; [|lia|lia]. destruct He as [-> ->]. reflexivity.
    + destruct (Nat.eqb_spec (m * j + c) (m * k)) as [He'|He'].
      * replace (m * k)%nat with (m * k + 0)%nat in He' by lia.
        apply idx_inj in He'; [|lia|lia]. destruct He' as [-> ->]. rewrite H0 by lia. reflexivity.
      * apply H'; [|exact Hc]. destruct (Nat.eq_dec j k) as [->|]; [|lia].
        destruct c as [|[|c]]; lia.
  - exists b'; split; [exact E1|]. split; [exact Hl'|]. intros j k Hj Hk; apply H'; assumption.
Qed.

Lemma gfill n m (v : T) (b : buf T) : blen b = (m * n)%nat ->
  exists b', for_ 0 (m * n)%nat (fun k dark => bwr dark k v) b = Some b' /\ cols b' n m m (fun _ _ => v).
Proof.
  intros Hl.
  destruct (for_inv (fun k b' => blen b' = (m * n)%nat /\ forall i, (i < k)%nat -> bcell b' i = Some v)
     (fun k dark => bwr dark k v) 0 (m * n) b) as (b' & E1 & Hl' & H').
  - lia.
  - split; [exact Hl|lia].
  - intros k b' Hk [Hl' H']. rewrite bwr_in by (rewrite Hl'; lia).
    eexists; split; [reflexivity|]. split; [exact Hl'|]. intros i Hi; cbn.
    destruct (Nat.eqb_spec i k); [reflexivity|apply H'; lia].
  - exists b'; split; [exact E1|]. split; [exact Hl'|]. intros j k Hj Hk; apply H'; nia.
Qed.

Definition gchint_ok (f : fam) (h : nat -> nat -> buf T -> nat -> buf T -> option (buf T)) : Prop :=
  forall m d x zs n dark, (1 <= m)%nat -> gpts x zs n -> blen dark = (m * n)%nat ->
  exists b, h m d x n dark = Some b /\ cols b n m m (fun j k => gt f (zs j) d k).

Lemma gdeg0 f d n zs (dark : buf T) : blen dark = (1 * n)%nat ->
  exists b, cpp_deg0 A d n dark = Some b /\ cols b n 1 1 (fun j k => gt f (zs j) d k).
Proof.
  intros Hl. unfold cpp_deg0.
  assert (H : forall v, exists b, for_ 0 n (fun k dark => bwr dark k v) dark = Some b /\
      cols b n 1 1 (fun _ _ => v)).
  { intros v. apply (for_cols1 1 n 0 (fun _ _ => v)); [lia|apply cols_0, Hl|].
    intros j b' Hj Hb'. f_equal. lia. }
  destruct (Nat.ltb_spec 0 d) as [Hd|Hd].
  - destruct (H 0) as (b & E1 & Hb). exists b; split; [exact E1|]. eapply cols_ext; [exact Hb|].
    intros j [|k] Hj Hk; [|lia]. g01. destruct d; [lia|reflexivity].
  - destruct (H 1) as (b & E1 & Hb). exists b; split; [exact E1|]. eapply cols_ext; [exact Hb|].
    intros j [|k] Hj Hk; [|lia]. g01. destruct d; [reflexivity|lia].
Qed.

Lemma gdeg1 f d n zs w v1 (dark : buf T) : blen dark = (2 * n)%nat -> w = fw f ->
  (forall j, (j < n)%nat -> v1 j = Some (fv f (zs j))) ->
  exists b, cpp_deg1 A 2 d n w v1 dark = Some b /\ cols b n 2 2 (fun j k => gt f (zs j) d k).
Proof.
  intros Hl -> Hv. unfold cpp_deg1.
  destruct (Nat.ltb_spec 1 d) as [Hd|Hd].
  - destruct (gfill n 2 0 dark Hl) as (b & E1 & Hb). exists b; split; [exact E1|].
    eapply cols_ext; [exact Hb|].
    intros j [|[|k]] Hj Hk; [| |lia]; g01; destruct d as [|[|d]]; try lia; reflexivity.
  - destruct (Nat.ltb_spec 0 d) as [Hd'|Hd'].
    + assert (d = 1)%nat by lia. subst d.
      apply gcol01; [lia|exact Hl| |]; intros j Hj; g01; reflexivity.
    + assert (d = 0)%nat by lia. subst d.
      apply gcol01; [lia|exact Hl| |]; intros j Hj; [g01; reflexivity|].
      rewrite Hv by exact Hj. g01. reflexivity.
Qed.

Lemma greset f dC m n zs w (F : buf T) : (3 <= m)%nat -> w = fw f ->
  cols F n m m (fun j k => gt f (zs j) dC k) ->
  exists b, cpp_reset A dC m n w F = Some b /\ cols b n m 2 (fun j k => gt f (zs j) (S dC) k).
Proof.
  intros Hm -> HF. unfold cpp_reset.
  destruct (Nat.eqb_spec dC 0) as [->|Hd0].
  - apply gcol01; [lia|apply HF| |]; intros j Hj; g01; reflexivity.
  - destruct (Nat.eqb_spec dC 1) as [->|Hd1].
    + destruct (for_cols1 m n 1 (fun j k => gt f (zs j) 2 k)
         (fun k F => bwr F (m * k + 1)%nat 0) F) as (b & E1 & Hb).
      * lia.
      * split; [apply HF|]. intros j [|k] Hj Hk; [|lia]. rewrite (proj2 HF) by lia. g01. reflexivity.
      * intros j b' Hj Hb'. g01. reflexivity.
      * exists b; split; [exact E1|exact Hb].
    + exists F; split; [reflexivity|]. split; [apply HF|].
      intros j k Hj Hk. rewrite (proj2 HF) by lia.
      destruct k as [|[|k]]; [| |lia]; g01; destruct dC as [|[|d]]; try lia; reflexivity.
Qed.

Section GenC.
Variables (f : fam) (m n : nat) (x : buf T) (zs : nat -> T).
Hypothesis Hm : (3 <= m)%nat.
Hypothesis Hx : gpts x zs n.

(** [off] is 1 for the loops that write column [k + 1] and 0 for CP *)
Lemma gcderiv lo hi off w (inner : nat -> buf T -> nat -> nat -> buf T -> option (buf T))
  (rec : nat -> nat -> buf T -> option (buf T)) : w = fw f -> (lo + off = 2)%nat -> (hi + off = m)%nat ->
  (forall dC dark k j F, (lo <= k < hi)%nat -> (j < n)%nat ->
     cols dark n m m (fun j k => gt f (zs j) dC k) ->
     cols F n m (k + off) (fun j k => gt f (zs j) (S dC) k) ->
     inner dC dark k j F = bwr F (m * j + (k + off))%nat (gt f (zs j) (S dC) (k + off)%nat)) ->
  (forall dC F, rec 0%nat dC F = Some F) ->
  (forall n' dC F, rec (S n') dC F =
     (dark <- bcopy F (m * n)%nat ;; F <- cpp_reset A dC m n w F ;;
      F <- for_ lo hi (fun k F => for_ 0 n (fun j F => inner dC dark k j F) F) F ;;
      rec n' (S dC) F)) ->
  forall n' dC F, cols F n m m (fun j k => gt f (zs j) dC k) ->
  exists b, rec n' dC F = Some b /\ cols b n m m (fun j k => gt f (zs j) (dC + n') k).
Proof.
  intros Hw Hlo Hhi Hin H0 HS. induction n' as [|n' IH]; intros dC F HF.
  - exists F; rewrite H0; split; [reflexivity|]. rewrite Nat.add_0_r; exact HF.
  - rewrite HS. destruct (bcopy_ok F n m _ HF) as (dark & Ed & Hd). rewrite Ed; cbn [bind].
    destruct (greset f dC m n zs w F Hm Hw HF) as (F1 & E1 & H1). rewrite E1; cbn [bind].
    rewrite <- Hlo in H1.
    destruct (for_cols m n lo hi off (fun j k => gt f (zs j) (S dC) k)
                (fun k j F => inner dC dark k j F) F1) as (F2 & E2 & H2);
      [lia|lia|exact H1| |].
    + intros k j b' Hk Hj Hb'. apply Hin; assumption.
    + rewrite E2; cbn [bind]. rewrite Hhi in H2.
      destruct (IH (S dC) F2 H2) as (b & E3 & Hb). exists b; split; [exact E3|].
      replace (dC + S n')%nat with (S dC + n')%nat by lia. exact Hb.
Qed.

Lemma gchint lo hi off d v1 (inner : nat -> nat -> buf T -> option (buf T))
  (rec : nat -> nat -> buf T -> option (buf T)) dark : blen dark = (m * n)%nat -> (lo + off = 2)%nat -> (hi + off = m)%nat ->
  (forall j, (j < n)%nat -> v1 j = Some (fv f (zs j))) ->
  (forall k j F, (lo <= k < hi)%nat -> (j < n)%nat ->
     cols F n m (k + off) (fun j k => gt f (zs j) 0 k) ->
     inner k j F = bwr F (m * j + (k + off))%nat (gt f (zs j) 0 (k + off)%nat)) ->
  (forall n' dC F, cols F n m m (fun j k => gt f (zs j) dC k) ->
     exists b, rec n' dC F = Some b /\ cols b n m m (fun j k => gt f (zs j) (dC + n') k)) ->
  exists b, (dark <- cpp_col01 m n 1 v1 dark ;;
             dark <- for_ lo hi (fun k F => for_ 0 n (fun j F => inner k j F) F) dark ;;
             rec d 0%nat dark) = Some b /\ cols b n m m (fun j k => gt f (zs j) d k).
Proof.
  intros Hl Hlo Hhi Hv Hin Hrec.
  destruct (gcol01 m n 1 v1 (fun j k => gt f (zs j) 0 k) dark) as (F1 & E1 & H1);
    [lia|exact Hl|reflexivity| |].
  { intros j Hj. rewrite Hv by exact Hj. g01. reflexivity. }
  rewrite E1; cbn [bind]. rewrite <- Hlo in H1.
  destruct (for_cols m n lo hi off (fun j k => gt f (zs j) 0 k) (fun k j F => inner k j F) F1)
    as (F2 & E2 & H2); [lia|lia|exact H1|exact Hin|].
  rewrite E2; cbn [bind]. rewrite Hhi in H2.
  apply (Hrec d 0%nat F2 H2).
Qed.
End GenC.

Ltac gcsmall f m :=
  match goal with
  | Hm : (1 <= m)%nat, Hx : gpts _ _ _, Hl : blen _ = _ |- _ =>
    destruct (Nat.eqb_spec m 1) as [->|]; [apply gdeg0, Hl|];
    destruct (Nat.eqb_spec m 2) as [->|];
    [apply gdeg1; [exact Hl|reflexivity|intros j Hj; gprd Hx; reflexivity]|];
    assert (3 <= m)%nat by lia
  end.
Ltac gcfam f h dv :=
  intros m d x zs n dark Hm Hx Hl; h; gcsmall f m;
  eapply (gchint f m n zs ltac:(assumption) 1 (m - 1) 1 d _ _ (fun n' dC F => dv T A m n' dC x n F) dark Hl eq_refl ltac:(lia));
  [ intros j Hj; gprd Hx; reflexivity
  | intros k j F Hk Hj HF; reidx j k m; gprd Hx; crd HF; crd HF; rewrite gt_step0 by lia; reflexivity
  | eapply (gcderiv f m n zs ltac:(assumption) 1 (m - 1) 1 (fw f) _ _ eq_refl eq_refl ltac:(lia));
    [ | reflexivity | intros n' dC F; reflexivity]; cbv beta;
    intros dC dk k j F Hk Hj Hdk HF; reidx j k m ].

Lemma gcpp_lep : gchint_ok LeP (cpp_lep_hint A).
Proof.
  gcfam LeP ltac:(idtac; unfold cpp_lep_hint) @cpp_lep_deriv.
  crd Hdk. gprd Hx. crd HF. crd HF. rewrite gt_step1 by lia. reflexivity.
Qed.
Lemma gcpp_lap : gchint_ok LaP (cpp_lap_hint A).
Proof.
  gcfam LaP ltac:(idtac; unfold cpp_lap_hint) @cpp_lap_deriv.
  gprd Hx. crd HF. crd Hdk. crd HF. rewrite gt_step1 by lia. reflexivity.
Qed.
Lemma gcpp_hoppro : gchint_ok HoPpro (cpp_hoppro_hint A).
Proof.
  gcfam HoPpro ltac:(idtac; unfold cpp_hoppro_hint) @cpp_hoppro_deriv.
  crd Hdk. gprd Hx. crd HF. crd HF. rewrite gt_step1 by lia. reflexivity.
Qed.
Lemma gcpp_hopphy : gchint_ok HoPphy (cpp_hopphy_hint A).
Proof.
  gcfam HoPphy ltac:(idtac; unfold cpp_hopphy_hint) @cpp_hopphy_deriv.
  crd Hdk. gprd Hx. crd HF. crd HF. rewrite gt_step1 by lia. reflexivity.
Qed.
Lemma gcpp_cp : gchint_ok CP (cpp_cp_hint A).
Proof.
  intros m d x zs n dark Hm Hx Hl. unfold cpp_cp_hint. gcsmall CP m.
  eapply (gchint CP m n zs ltac:(assumption) 2 m 0 d _ _ (fun n' dC F => cpp_cp_deriv A m n' dC x n F)
    dark Hl eq_refl ltac:(lia)).
  - intros j Hj. gprd Hx. reflexivity.
  - intros k j F Hk Hj HF. rewrite Nat.add_0_r in *. reidx2 j k m. gprd Hx. crd HF. crd HF.
    pose proof (gt_step0 CP (zs j) (k - 1) ltac:(lia)) as Ht.
    replace (k - 1 + 1)%nat with k in Ht by lia. rewrite Ht.
    replace (k - 1 - 1)%nat with (k - 2)%nat by lia. reflexivity.
  - eapply (gcderiv CP m n zs ltac:(assumption) 2 m 0 (fw CP) _ _ eq_refl eq_refl ltac:(lia));
      [ | reflexivity | intros n' dC F; reflexivity]; cbv beta.
    intros dC dk k j F Hk Hj Hdk HF. rewrite Nat.add_0_r in *. reidx2 j k m.
    crd Hdk. gprd Hx. crd HF. crd HF.
    pose proof (gt_step1 CP (zs j) dC (k - 1) ltac:(lia)) as Ht.
    replace (k - 1 + 1)%nat with k in Ht by lia. rewrite Ht.
    replace (k - 1 - 1)%nat with (k - 2)%nat by lia. reflexivity.
Qed.

Lemma gfs_loop m d x zs n even odd dark : (1 <= m)%nat -> gpts x zs n ->
  cols dark n m 1 (fun j k => gfs (zs j) d k) ->
  (forall k z, (1 <= k)%nat -> (if (k mod 2 =? 0)%nat then even #((k + 1) / 2)%nat z
       else odd #((k + 1) / 2)%nat z) = gfs z d k) ->
  exists b, cpp_fs_loop A m x n even odd dark = Some b /\ cols b n m m (fun j k => gfs (zs j) d k).
Proof.
  intros Hm Hx Hb HW. unfold cpp_fs_loop.
  destruct (for_cols m n 1 m 0 (fun j k => gfs (zs j) d k)
    (fun j k dark => let g := #((j + 1) / 2)%nat in xk <- brd x k ;;
       bwr dark (m * k + j)%nat (if (j mod 2 =? 0)%nat then even g xk else odd g xk)) dark)
    as (b & E1 & H); [lia|lia|exact Hb| |].
  - intros k j b' Hk Hj Hb'. cbv zeta. gprd Hx. rewrite Nat.add_0_r. rewrite HW by lia. reflexivity.
  - exists b. rewrite Nat.add_0_r in H. split; assumption.
Qed.

Lemma gcpp_fs m d x zs n dark : (1 <= m)%nat -> gpts x zs n -> blen dark = (m * n)%nat ->
  exists b, cpp_fs_hint A E m d x n dark = Some b /\ cols b n m m (fun j k => gfs (zs j) d k).
Proof.
  intros Hm Hx Hl. unfold cpp_fs_hint.
  assert (Hinit : forall v, (forall z, v = gfs z d 0) ->
      exists b, for_ 0 n (fun k dark => bwr dark (m * k)%nat v) dark = Some b /\
      cols b n m 1 (fun j k => gfs (zs j) d k)).
  { intros v Hv. apply (for_cols1 m n 0 (fun j k => gfs (zs j) d k)); [lia|apply cols_0, Hl|].
    intros j b' Hj _. rewrite Nat.add_0_r. f_equal. apply Hv. }
  destruct (Nat.eqb_spec d 0) as [->|Hd].
  - destruct (Hinit 1 (fun _ => eq_refl)) as (b & E1 & Hb). rewrite E1; cbn [bind].
    apply (gfs_loop m 0 x zs n _ _ b Hm Hx Hb). intros [|k] z Hk; [lia|]. reflexivity.
  - destruct (Hinit 0) as (b & E1 & Hb); [intros z; destruct d; [lia|reflexivity]|]. rewrite E1; cbn [bind].
    assert (Hd0 : (d =? 0)%nat = false) by (apply Nat.eqb_neq; exact Hd).
    destruct (d mod 4 =? 0)%nat eqn:E0; [|destruct (d mod 4 =? 1)%nat eqn:E2;
      [|destruct (d mod 4 =? 2)%nat eqn:E3]];
      apply (gfs_loop m d x zs n _ _ b Hm Hx Hb); intros [|k] z Hk; try lia; unfold gfs;
      rewrite Hd0, E0, ?E2, ?E3; reflexivity.
Qed.

Lemma gcpp_hint f m d x zs n dark : (1 <= m)%nat -> gpts x zs n -> blen dark = (m * n)%nat ->
  exists b, cpp_hint A E f m d x n dark = Some b /\ cols b n m m (fun j k => gcol f k d (zs j)).
Proof.
  intros Hm Hx Hl. destruct f; cbn [cpp_hint gcol].
  - apply gcpp_cp; assumption.
  - apply gcpp_lep; assumption.
  - apply gcpp_lap; assumption.
  - apply gcpp_hoppro; assumption.
  - apply gcpp_hopphy; assumption.
  - apply gcpp_fs; assumption.
Qed.

(** ** the matrices *)
Definition zmap (B : basis (T := T)) (x : T) : T := (x - b_x0 B) * b_c B + b_z0 B.
Definition gmat (B : basis (T := T)) (f : fam) (keep : list nat) (xs : list T) (d : nat) : mat T :=
  Mat (length xs) (length keep)
    (map (fun x => map (fun k => gcol f k d (zmap B x) * opow A (b_c B) d) keep) xs).

Lemma gdelete nC m r (rows : list (nat -> T)) :
  (forall i, In i nC -> (Z.of_nat 0 <= i < Z.of_nat m)%Z) ->
  np_delete_cols (Mat r m (map (fun g => map g (seq 0 m)) rows)) nC =
    Some (Mat r (length (keptc nC m)) (map (fun g => map g (keptc nC m)) rows)).
Proof.
  intros Hr. unfold np_delete_cols. cbn [mc mr md].
  rewrite (mapM_some_map _ Z.to_nat).
  2:{ intros i Hi. specialize (Hr i Hi). unfold np_index.
      destruct (Z.leb_spec (- Z.of_nat m) i); [|lia]. destruct (Z.ltb_spec i (Z.of_nat m)); [|lia].
      cbn [andb]. destruct (Z.ltb_spec i Z0); [lia|]. reflexivity. }
  cbn [bind].
  assert (Hk : forall s, filter (fun k => negb (existsb (Nat.eqb k) (map Z.to_nat nC))) (seq s m)
                 = filter (fun j => negb (in_nC nC j)) (seq s m)).
  { intros s. apply filter_ext_in. intros k _. f_equal. unfold in_nC.
    apply eq_true_iff_eq. rewrite !existsb_exists. split.
    - intros (q & Hq & He). apply Nat.eqb_eq in He; subst q. apply in_map_iff in Hq as (z & <- & Hz).
      exists z. split; [exact Hz|]. apply Z.eqb_eq. specialize (Hr z Hz). lia.
    - intros (z & Hz & He). apply Z.eqb_eq in He. exists k. split; [|apply Nat.eqb_refl].
      apply in_map_iff. exists z. split; [lia|exact Hz]. }
  f_equal. f_equal.
  - rewrite (repeat_seq 0%nat 0%nat), drop_cols_seq, map_length, Hk. reflexivity.
  - rewrite map_map. apply map_ext. intros g. rewrite drop_cols_seq, Hk. reflexivity.
Qed.

Lemma gpy_H f B xs d full : (1 <= b_m B)%nat -> valid_nC (b_nC B) (b_m B) -> small_ints d ->
  py_H A E f B xs d full =
    Some (gmat B f (if full then seq 0 (b_m B) else keptc (b_nC B) (b_m B)) xs d).
Proof.
  intros Hm Hv HN. unfold py_H, py_H_with, py_hint.
  rewrite (mapM_some_map _ (fun z => map (fun k => gcol f k d z) (seq 0 (b_m B)))).
  2:{ intros z _. apply gpy_row; assumption. }
  cbn [bind]. unfold mat_scale. cbn [mr mc md]. rewrite map_length, !map_map.
  rewrite (map_ext _ (fun x => map (fun k => gcol f k d (zmap B x) * opow A (b_c B) d) (seq 0 (b_m B))))
    by (intros x; apply map_map).
  destruct full; cbn [negb andb].
  - unfold gmat. rewrite seq_length. reflexivity.
  - destruct (Nat.ltb_spec 0 (length (b_nC B))) as [Hn|Hn].
    + rewrite <- (map_map (fun x k => gcol f k d (zmap B x) * opow A (b_c B) d)
        (fun g => map g (seq 0 (b_m B)))).
      rewrite gdelete by apply Hv. rewrite map_map. reflexivity.
    + destruct (b_nC B) as [|i l] eqn:En; [|cbn in Hn; lia].
      unfold gmat. rewrite keptc_nil, seq_length. reflexivity.
Qed.

Lemma gmap_points B (x : buf T) xs n : gpts x xs n ->
  exists z, cpp_map_points A B x n = Some z /\ gpts z (fun j => zmap B (xs j)) n.
Proof.
  intros Hx. unfold cpp_map_points.
  destruct (for_row n 0 n 0 (fun j => zmap B (xs j))
     (fun k z => xk <- brd x k ;; bwr z k ((xk - b_x0 B) * b_c B + b_z0 B)) (bnew n)) as (z & E1 & Hl & Hh);
    [lia|lia|reflexivity| | |].
  - intros k Hk; lia.
  - intros k b' Hk Hl' _. gprd Hx. rewrite Nat.add_0_r. reflexivity.
  - exists z. rewrite Nat.add_0_r in Hh. split; [exact E1|split; assumption].
Qed.

Lemma gemit_full nC m n mOut s dark F V : cols dark n m m V -> blen F = (m * n)%nat ->
  exists b, cpp_emit A nC m n mOut s true dark F = Some b /\ cols b n m m (fun j k => V j k * s).
Proof.
  intros Hd Hl. unfold cpp_emit.
  destruct (for_cols m n 0 m 0 (fun j k => V j k * s)
     (fun j k F => v <- brd dark (m * k + j)%nat ;; bwr F (m * k + j)%nat (v * s)) F)
    as (b & E1 & H); [lia|lia|apply cols_0, Hl| |].
  - intros k j b' Hk Hj Hb'. crd Hd. rewrite Nat.add_0_r. reflexivity.
  - exists b. rewrite Nat.add_0_r in H. split; assumption.
Qed.

Lemma gemit_part nC m n s dark F V :
  cols dark n m m V -> blen F = (length (keptc nC m) * n)%nat ->
  exists b, cpp_emit A nC m n (length (keptc nC m)) s false dark F = Some b /\
    cols b n (length (keptc nC m)) (length (keptc nC m)) (fun j i => V j (nth i (keptc nC m) 0%nat) * s).
Proof.
  intros Hd Hl. unfold cpp_emit. set (mo := length (keptc nC m)) in *.
  set (W := fun j i => V j (nth i (keptc nC m) 0%nat) * s).
  destruct (for_inv (fun j (st : nat * buf T) => fst st = length (keptc nC j) /\
       cols (snd st) n mo (length (keptc nC j)) W)
     (fun j (st : nat * buf T) => let (i, F) := st in
           if in_nC nC j then Some (i, F)
           else F <- for_ 0 n (fun k F => v <- brd dark (m * k + j)%nat ;;
                       bwr F (mo * k + i)%nat (v * s)) F ;;
                Some (S i, F)) 0 m (0%nat, F)) as ([i b] & E1 & Hi & Hb).
  - lia.
  - split; [reflexivity|]. apply cols_0, Hl.
  - intros j [i b] Hj [Hi Hb]. cbn [fst snd] in Hi, Hb. subst i.
    destruct (in_nC nC j) eqn:Ein.
    + eexists; split; [reflexivity|]. rewrite keptc_S, Ein, app_nil_r. split; [reflexivity|exact Hb].
    + assert (Hlt : (length (keptc nC j) < mo)%nat).
      { pose proof (keptc_length_le nC m (S j) ltac:(lia)) as H.
        rewrite keptc_S, Ein, app_length in H. cbn in H. unfold mo. lia. }
      destruct (for_cols1 mo n (length (keptc nC j)) W
         (fun k F => v <- brd dark (m * k + j)%nat ;;
                       bwr F (mo * k + length (keptc nC j))%nat (v * s)) b) as (b' & E1 & Hb');
        [exact Hlt|exact Hb| |].
      * intros k b' Hk _. crd Hd. unfold W. rewrite keptc_nth by (lia || exact Ein). reflexivity.
      * rewrite E1; cbn [bind]. eexists; split; [reflexivity|].
        rewrite keptc_S, Ein, app_length. cbn [length fst snd].
        replace (length (keptc nC j) + 1)%nat with (S (length (keptc nC j))) by lia.
        split; [reflexivity|exact Hb'].
  - rewrite E1; cbn [bind fst snd] in *. exists b. split; [reflexivity|exact Hb].
Qed.

Lemma gpts_bof (xs : list T) : gpts (bof xs) (fun j => nth j xs 0) (length xs).
Proof.
  split; [reflexivity|]. intros k Hk. cbn. apply nth_error_nth'. exact Hk.
Qed.

Lemma gcpp_H f B xs d full : (1 <= b_m B)%nat -> valid_nC (b_nC B) (b_m B) ->
  cpp_H_mat A E f B xs d full =
    Some (gmat B f (if full then seq 0 (b_m B) else keptc (b_nC B) (b_m B)) xs d).
Proof.
  intros Hm Hv. unfold cpp_H_mat, cpp_H, cpp_H_with.
  pose proof (keptc_length _ _ Hv) as Hk.
  assert (Hle : (length (b_nC B) <= b_m B)%nat).
  { destruct Hv as [Hnd Hr]. rewrite <- (seq_length (b_m B) 0), <- (map_length Z.of_nat).
    apply NoDup_incl_length; [exact Hnd|]. intros z Hz. specialize (Hr z Hz).
    apply in_map_iff. exists (Z.to_nat z). split; [lia|]. apply in_seq. lia. }
  assert (Hc : (negb full && (b_m B <? length (b_nC B))%nat)%bool = false).
  { destruct full; [reflexivity|]. cbn [negb andb]. apply Nat.ltb_ge. exact Hle. }
  rewrite Hc.
  destruct (gmap_points B (bof xs) _ _ (gpts_bof xs)) as (z & Ez & Hz). rewrite Ez; cbn [bind].
  destruct (gcpp_hint f (b_m B) d z _ (length xs) (bnew (length xs * b_m B)%nat) Hm Hz) as (dk & Ed & Hd);
    [cbn; lia|].
  rewrite Ed; cbn [bind]. destruct full.
  - edestruct (gemit_full (b_nC B) (b_m B) (length xs) (b_m B) (opow A (b_c B) d) dk
       (bnew (b_m B * length xs)%nat) _ Hd) as (F & EF & HF); [reflexivity|].
    rewrite EF; cbn [bind].
    rewrite (buf_matrix_bmat F (length xs) (b_m B) _ (cols_bmat _ _ _ _ HF)). cbn [bind].
    unfold gmat. rewrite seq_length. do 2 f_equal.
    apply (map_seq_nth (fun x => map (fun k => gcol f k d (zmap B x) * opow A (b_c B) d) (seq 0 (b_m B))) xs 0).
  - rewrite <- Hk.
    edestruct (gemit_part (b_nC B) (b_m B) (length xs) (opow A (b_c B) d) dk
       (bnew (length (keptc (b_nC B) (b_m B)) * length xs)%nat) _ Hd) as (F & EF & HF); [reflexivity|].
    rewrite EF; cbn [bind].
    rewrite (buf_matrix_bmat F (length xs) _ _ (cols_bmat _ _ _ _ HF)). cbn [bind].
    unfold gmat. do 2 f_equal.
    rewrite <- (map_seq_nth (fun x => map (fun k => gcol f k d (zmap B x) * opow A (b_c B) d)
        (keptc (b_nC B) (b_m B))) xs 0).
    apply map_ext. intros j.
    apply (map_seq_nth (fun k => gcol f k d (zmap B (nth j xs 0)) * opow A (b_c B) d)
          (keptc (b_nC B) (b_m B)) 0%nat).
Qed.

Lemma gagree f B xs d full : (1 <= b_m B)%nat -> valid_nC (b_nC B) (b_m B) -> small_ints d ->
  exists M, py_H A E f B xs d full = Some M /\ cpp_H_mat A E f B xs d full = Some M.
Proof.
  intros Hm Hv HN. eexists. split; [apply gpy_H; assumption|apply gcpp_H; assumption].
Qed.
End Any.
