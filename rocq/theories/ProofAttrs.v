(** Objects with assigned attributes: reduction to the methods of an unmodified object, and what
    happens outside its range. *)
From Coq Require Import Reals Arith Lia Lra List Bool ZArith.
From Coquelicot Require Import Coquelicot.
From Verif Require Import Base ProofBase Numbers ModelBFPy ModelBFCpp ProofBFPy ProofBFCpp
  SpecBasis ProofH ModelELM SpecELM ProofELM ModelRegistry ModelAttrs.
Import ListNotations.
Open Scope nat_scope.

Lemma iter_post {S} (P : nat -> S -> Prop) (body : nat -> S -> option S) n : forall lo s s',
  P lo s -> iter_ n lo body s = Some s' ->
  (forall k s s', lo <= k < lo + n -> P k s -> body k s = Some s' -> P (Datatypes.S k) s') -> P (lo + n) s'.
Proof.
  induction n as [|n IH]; intros lo s s' H0 E Hstep; cbn in E.
  - injection E as <-. rewrite Nat.add_0_r. exact H0.
  - destruct (body lo s) as [s1|] eqn:E1; cbn in E; [|discriminate].
    replace (lo + Datatypes.S n) with (Datatypes.S lo + n) by lia. apply (IH _ s1); [|exact E|].
    + apply (Hstep lo s); [lia|exact H0|exact E1].
    + intros k t t' Hk. apply Hstep. lia.
Qed.
Lemma for_after {S} (P : nat -> S -> Prop) (body : nat -> S -> option S) lo hi s s' : lo <= hi ->
  P lo s -> for_ lo hi body s = Some s' ->
  (forall k s s', lo <= k < hi -> P k s -> body k s = Some s' -> P (Datatypes.S k) s') -> P hi s'.
Proof.
  intros Hle H0 E Hstep. unfold for_ in E. replace hi with (lo + (hi - lo)) by lia.
  apply (iter_post P body _ lo s); [exact H0|exact E|]. intros k t t' Hk. apply Hstep. lia.
Qed.
Lemma for_none_at {S} lo hi (body : nat -> S -> option S) s k : lo <= k < hi ->
  (forall s, body k s = None) -> for_ lo hi body s = None.
Proof.
  intros Hk Hb. destruct (for_ lo hi body s) as [s'|] eqn:E; [|reflexivity]. exfalso.
  enough (H : k < hi -> False) by (apply H; lia).
  apply (for_after (fun i _ => k < i -> False) body lo hi s s'); [lia|intros; lia|exact E|].
  intros i t t' Hi IH Et Hlt. destruct (Nat.eq_dec i k) as [->|Hne]; [congruence|]. apply IH. lia.
Qed.
Lemma for_extb {S} lo hi (b1 b2 : nat -> S -> option S) s :
  (forall k s, lo <= k < hi -> b1 k s = b2 k s) -> for_ lo hi b1 s = for_ lo hi b2 s.
Proof.
  unfold for_. intros H. assert (G : forall n lo' s, lo <= lo' -> lo' + n <= hi \/ n = 0 ->
    iter_ n lo' b1 s = iter_ n lo' b2 s).
  { induction n as [|n IH]; intros lo' t Hl Hn; cbn; [reflexivity|].
    rewrite H by lia. destruct (b2 lo' t) as [t'|]; cbn; [|reflexivity]. apply IH; lia. }
  apply G; lia.
Qed.

(** ** The search loop *)
Lemma listed_firstn nC j : forall n k, k + n <= length nC ->
  obj_listed nC n k j = Some (in_nC (firstn n (skipn k nC)) j).
Proof.
  induction n as [|n IH]; intros k Hk; cbn [obj_listed firstn]; [reflexivity|].
  destruct (nth_error nC k) as [v|] eqn:Ev; [|apply nth_error_None in Ev; lia]. cbn [bind].
  assert (Hs : skipn k nC = v :: skipn (S k) nC).
  { clear -Ev. revert k Ev. induction nC as [|a l IH]; intros [|k] E; cbn in *; try discriminate.
    - injection E as ->. reflexivity.
    - apply IH, E. }
  rewrite Hs. cbn [firstn]. unfold in_nC at 1. cbn [existsb].
  destruct (Z.eqb_spec (Z.of_nat j) v); [reflexivity|]. cbn [orb]. rewrite IH by lia. reflexivity.
Qed.
Lemma listed_none nC j : ~ In (Z.of_nat j) nC -> forall n k, k <= length nC -> length nC < k + n ->
  obj_listed nC n k j = None.
Proof.
  intros Hj. induction n as [|n IH]; intros k Hk Hn; cbn [obj_listed]; [lia|].
  destruct (nth_error nC k) as [v|] eqn:Ev; cbn [bind]; [|reflexivity].
  destruct (Z.eqb_spec (Z.of_nat j) v) as [e|_].
  - exfalso. apply Hj. rewrite e. apply (nth_error_In _ _ Ev).
  - pose proof (proj1 (nth_error_Some nC k) ltac:(congruence)). apply IH; lia.
Qed.

(** ** Within range *)
Definition objB {T} (o : cobj T) : basis (T:=T) :=
  Basis (Z.to_nat (q_m o)) (firstn (Z.to_nat (q_numC o)) (q_nC o)) (q_x0 o) (q_c o) (q_z0 o).
Definition fits {T} (o : cobj T) : Prop := (0 <= q_m o)%Z /\ (0 <= q_numC o <= Z.of_nat (length (q_nC o)))%Z.

Lemma obj_emit_full {T} (A : Ops T) nC nC' numC m n mOut s dark F :
  obj_emit A nC numC m n mOut s true dark F = cpp_emit A nC' m n mOut s true dark F.
Proof. reflexivity. Qed.
Lemma obj_emit_eq {T} (A : Ops T) nC numC m n mOut s full dark F :
  (0 <= numC <= Z.of_nat (length nC))%Z ->
  obj_emit A nC numC m n mOut s full dark F = cpp_emit A (firstn (Z.to_nat numC) nC) m n mOut s full dark F.
Proof.
  intros Hn. destruct full; [reflexivity|]. unfold obj_emit, cpp_emit. f_equal. apply for_extb.
  intros j [i b] Hj. rewrite (listed_firstn nC j _ 0) by lia. cbn [skipn bind]. reflexivity.
Qed.
Lemma obj_H_eq {T} (A : Ops T) hint (o : cobj T) x n d full : fits o ->
  obj_H_with A hint o x n d full = cpp_H_with A (hint (Z.to_nat (q_m o))) (objB o) x n d full.
Proof.
  intros [Hm Hn]. unfold obj_H_with, cpp_H_with, objB. cbn [b_m b_nC b_c].
  destruct (Z.ltb_spec (q_m o) 0); [lia|].
  assert (Hl : length (firstn (Z.to_nat (q_numC o)) (q_nC o)) = Z.to_nat (q_numC o))
    by (apply firstn_length_le; lia). rewrite Hl.
  destruct full; cbn [negb andb].
  - destruct (Z.ltb_spec (q_m o) 0); [lia|]. reflexivity.
  - destruct (Z.ltb_spec (q_m o - q_numC o) 0), (Nat.ltb_spec (Z.to_nat (q_m o)) (Z.to_nat (q_numC o)));
      try lia; [reflexivity|].
    replace (Z.to_nat (q_m o - q_numC o)) with (Z.to_nat (q_m o) - Z.to_nat (q_numC o)) by lia.
    unfold obj_map_points, cpp_map_points. cbn [b_x0 b_c b_z0].
    destruct (for_ 0 n _ _) as [z|]; cbn [bind]; [|reflexivity].
    destruct (hint _ d z n _) as [dk|]; cbn [bind]; [|reflexivity].
    rewrite obj_emit_eq by exact Hn. reflexivity.
Qed.
Lemma obj_H_full_eq {T} (A : Ops T) hint (o : cobj T) x n d : (0 <= q_m o)%Z ->
  obj_H_with A hint o x n d true = cpp_H_with A (hint (Z.to_nat (q_m o))) (objB o) x n d true.
Proof.
  intros Hm. unfold obj_H_with, cpp_H_with, objB. cbn [b_m b_nC b_c negb andb].
  destruct (Z.ltb_spec (q_m o) 0); [lia|]. destruct (Z.ltb_spec (q_m o) 0); [lia|]. reflexivity.
Qed.

Section Real.
Open Scope R_scope.
Lemma obj_full hint G (o : cobj R) xs d : (0 <= q_m o)%Z ->
  cpp_hint_spec (Z.to_nat (q_m o)) (hint (Z.to_nat (q_m o))) G ->
  obj_H_mat_with ROps hint o xs d true = Some (full_mat (objB o) G xs d).
Proof.
  intros Hm Hh. unfold obj_H_mat_with. rewrite obj_H_full_eq by exact Hm.
  exact (cpp_H_full (hint (Z.to_nat (q_m o))) G (objB o) xs d Hh).
Qed.
Lemma obj_part hint G (o : cobj R) xs d : fits o ->
  cpp_hint_spec (Z.to_nat (q_m o)) (hint (Z.to_nat (q_m o))) G ->
  valid_nC (firstn (Z.to_nat (q_numC o)) (q_nC o)) (Z.to_nat (q_m o)) ->
  obj_H_mat_with ROps hint o xs d false = Some (part_mat (objB o) G xs d).
Proof.
  intros Hf Hh Hv. unfold obj_H_mat_with. rewrite obj_H_eq by exact Hf.
  exact (cpp_H_part (hint (Z.to_nat (q_m o))) G (objB o) xs d Hh Hv).
Qed.
End Real.

(** ** Out of range *)
Lemma unlisted_exists (nC : list Z) m : length nC < m -> exists j, j < m /\ ~ In (Z.of_nat j) nC.
Proof.
  intros Hlt. destruct (existsb (fun j => negb (in_nC nC j)) (seq 0 m)) eqn:E.
  - apply existsb_exists in E as (j & Hj & Hn). apply in_seq in Hj. exists j. split; [lia|].
    rewrite <- in_nC_spec. destruct (in_nC nC j); [discriminate|congruence].
  - exfalso. assert (H : incl (map Z.of_nat (seq 0 m)) nC).
    { intros z Hz. apply in_map_iff in Hz as (j & <- & Hj).
      destruct (in_nC nC j) eqn:Ej; [apply in_nC_spec, Ej|]. exfalso.
      assert (X : existsb (fun j => negb (in_nC nC j)) (seq 0 m) = true)
        by (apply existsb_exists; exists j; rewrite Ej; auto). congruence. }
    apply NoDup_incl_length in H; [rewrite map_length, seq_length in H; lia|].
    apply FinFun.Injective_map_NoDup; [intros a b; apply Nat2Z.inj|apply seq_NoDup].
Qed.
Lemma obj_beyond {T} (A : Ops T) hint (o : cobj T) xs d : (Z.of_nat (length (q_nC o)) < q_numC o)%Z ->
  obj_H_mat_with A hint o xs d false = None.
Proof.
  intros Hn. unfold obj_H_mat_with, obj_H_with.
  destruct (Z.ltb_spec (q_m o) 0); [reflexivity|].
  destruct (Z.ltb_spec (q_m o - q_numC o) 0); [reflexivity|].
  destruct (obj_map_points _ _ _ _) as [z|]; cbn [bind]; [|reflexivity].
  destruct (hint _ d z _ _) as [dk|]; cbn [bind]; [|reflexivity].
  destruct (unlisted_exists (q_nC o) (Z.to_nat (q_m o))) as (j & Hj & Hnot); [lia|].
  unfold obj_emit. rewrite (for_none_at _ _ _ _ j); [reflexivity|lia|].
  intros [i b]. rewrite listed_none by (exact Hnot || lia). reflexivity.
Qed.

(** cells of column [c] of an output with [mo] columns are not written when only smaller columns are *)
Lemma bwr_some {T} (b b' : buf T) i v : bwr b i v = Some b' ->
  i < blen b /\ blen b' = blen b /\ (forall c, c <> i -> bcell b' c = bcell b c).
Proof.
  unfold bwr. destruct (Nat.ltb_spec i (blen b)); [|discriminate]. intros H'. injection H' as <-.
  split; [assumption|]. split; [reflexivity|]. intros c Hc. cbn. destruct (Nat.eqb_spec c i); congruence.
Qed.

Lemma emit_part_post {T} (A : Ops T) nC numC m n mo s dark (F F' : buf T) (p : nat -> bool) :
  (forall j, j < m -> obj_listed nC (Z.to_nat numC) 0 j = Some (p j)) ->
  obj_emit A nC numC m n mo s false dark F = Some F' ->
  let K := length (filter (fun j => negb (p j)) (seq 0 m)) in
  blen F' = blen F /\
  (1 <= n -> 1 <= K -> mo * (n - 1) + (K - 1) < blen F) /\
  (K < mo -> bcell F' K = bcell F K).
Proof.
  intros Hp E K. unfold obj_emit in E.
  destruct (for_ 0 m _ _) as [[i b]|] eqn:El; cbn [bind] in E; [|discriminate]. injection E as <-.
  pose (PQ := fun j (st : nat * buf T) => fst st = length (filter (fun j => negb (p j)) (seq 0 j)) /\
     blen (snd st) = blen F /\ (1 <= n -> 1 <= fst st -> mo * (n - 1) + (fst st - 1) < blen F) /\
     (fst st <= K -> K < mo -> bcell (snd st) K = bcell F K)). assert (Q : PQ m (i, b)).
  { refine (for_after PQ _ 0 m _ _ (Nat.le_0_l m) _ El _); unfold PQ; clear PQ.
    - cbn. repeat split; try lia.
    - intros j [i1 b1] [i2 b2] Hj (Hi & Hl & Hw & Hc) Eb. cbn [fst snd] in *.
      rewrite (Hp j) in Eb by lia. cbn [bind] in Eb.
      assert (Hseq : seq 0 (S j) = seq 0 j ++ [j]) by (rewrite seq_S; reflexivity).
      destruct (p j) eqn:Ep.
      + injection Eb as <- <-. rewrite Hseq, filter_app, app_length. cbn. rewrite Ep. cbn.
        rewrite Nat.add_0_r. repeat split; assumption.
      + destruct (for_ 0 n _ b1) as [b3|] eqn:Ef; cbn [bind] in Eb; [|discriminate]. injection Eb as <- <-.
        rewrite Hseq, filter_app, app_length. cbn. rewrite Ep. cbn.
        pose (PQ2 := fun k (b' : buf T) => blen b' = blen F /\
            (1 <= k -> mo * (k - 1) + i1 < blen F) /\
            (i1 < K -> K < mo -> bcell b' K = bcell b1 K)). assert (Q2 : PQ2 n b3).
        { refine (for_after PQ2 _ 0 n _ _ (Nat.le_0_l n) _ Ef _); unfold PQ2; clear PQ2.
          - repeat split; try lia; auto.
          - intros k b4 b5 Hk (H1 & H2 & H3) Ek. cbn beta in *.
            destruct (brd dark _) as [v|]; cbn [bind] in Ek; [|discriminate].
            apply bwr_some in Ek as (G1 & G2 & G3). repeat split.
            + congruence.
            + intros _. replace (S k - 1) with k by lia. lia.
            + intros HiK Hmo. rewrite G3; [auto|]. intros He.
              assert (He' : mo * 0 + K = mo * k + i1) by lia.
              apply idx_inj in He'; lia. }
        destruct Q2 as (H1 & H2 & H3). repeat split.
        * lia.
        * exact H1.
        * intros Hn _. rewrite Nat.sub_0_r. apply H2, Hn.
        * intros HiK Hmo. rewrite H3 by lia. apply Hc; lia. }
  destruct Q as (Hi & Hl & Hw & Hc). cbn [fst snd] in *. fold K in Hi. subst i.
  repeat split; [exact Hl|intros; apply Hw; assumption|intros; apply Hc; [lia|assumption]].
Qed.

Lemma emit_full_post {T} (A : Ops T) nC numC m n mo s dark (F F' : buf T) : 1 <= n ->
  obj_emit A nC numC m n mo s true dark F = Some F' ->
  blen F' = blen F /\ (1 <= m -> m * (n - 1) + (m - 1) < blen F) /\
  (forall c, m * n <= c -> bcell F' c = bcell F c).
Proof.
  intros Hn E. unfold obj_emit in E.
  pose (PQ := fun j (b : buf T) => blen b = blen F /\ (1 <= j -> m * (n - 1) + (j - 1) < blen F) /\
     (forall c, m * n <= c -> bcell b c = bcell F c)). assert (Q : PQ m F').
  { refine (for_after PQ _ 0 m _ _ (Nat.le_0_l m) _ E _); unfold PQ; clear PQ.
    - repeat split; lia.
    - intros j b1 b3 Hj (Hl & _ & Hc) Ef.
      pose (PQ2 := fun k (b' : buf T) => blen b' = blen F /\
            (1 <= k -> m * (k - 1) + j < blen F) /\
            (forall c, m * n <= c -> bcell b' c = bcell b1 c)). assert (Q2 : PQ2 n b3).
      { refine (for_after PQ2 _ 0 n _ _ (Nat.le_0_l n) _ Ef _); unfold PQ2; clear PQ2.
        - repeat split; try lia; auto.
        - intros k b4 b5 Hk (H1 & H2 & H3) Ek. cbn beta in *.
          destruct (brd dark _) as [v|]; cbn [bind] in Ek; [|discriminate].
          apply bwr_some in Ek as (G1 & G2 & G3). repeat split.
          + congruence.
          + intros _. replace (S k - 1) with k by lia. lia.
          + intros c Hcc. rewrite G3; [auto|]. intros ->.
            pose proof (idx_lt m n k j ltac:(lia) ltac:(lia)). lia. }
      destruct Q2 as (H1 & H2 & H3). cbn beta. repeat split.
      + exact H1.
      + intros _. replace (S j - 1) with j by lia. apply H2, Hn.
      + intros c Hcc. rewrite H3 by exact Hcc. apply Hc, Hcc. }
  exact Q.
Qed.

Lemma obj_negative {T} (A : Ops T) hint (o : cobj T) xs d : (q_numC o < 0)%Z -> xs <> [] ->
  obj_H_mat_with A hint o xs d false = None.
Proof.
  intros Hn Hx. unfold obj_H_mat_with, obj_H_with.
  destruct (Z.ltb_spec (q_m o) 0); [reflexivity|].
  destruct (Z.ltb_spec (q_m o - q_numC o) 0); [reflexivity|].
  destruct (obj_map_points _ _ _ _) as [z|]; cbn [bind]; [|reflexivity].
  destruct (hint _ d z _ _) as [dk|]; cbn [bind]; [|reflexivity].
  destruct (obj_emit _ _ _ _ _ _ _ _ _ _) as [F|] eqn:E; cbn [bind]; [|reflexivity].
  apply (emit_part_post _ _ _ _ _ _ _ _ _ _ (fun _ => false)) in E as (Hl & _ & Hc).
  2:{ intros j _. replace (Z.to_nat (q_numC o)) with 0 by lia. reflexivity. }
  set (K := length (filter _ _)) in Hc. assert (HK : K = Z.to_nat (q_m o)).
  { unfold K. clear. generalize 0. induction (Z.to_nat (q_m o)) as [|k IH]; intros a; cbn; [reflexivity|]. f_equal. apply IH. }
  rewrite (buf_matrix_none F _ _ 0 K); [reflexivity| |lia|].
  - destruct xs; cbn; [congruence|lia].
  - rewrite Nat.mul_0_r, Nat.add_0_l. unfold brd. destruct (K <? blen F); [|reflexivity]. apply Hc. lia.
Qed.

(** ** Calls compiled earlier *)
Lemma obj_xla_eq {T} (A : Ops T) hint (o : cobj T) x d full n mo out :
  (0 <= q_m o)%Z -> (full = false -> fits o) ->
  obj_xla_with A hint o x d full n mo out =
  cpp_xla_with A (hint (Z.to_nat (q_m o))) (objB o) x d full n mo out.
Proof.
  intros Hm Hf. unfold obj_xla_with, cpp_xla_with, objB, obj_map_points, cpp_map_points. cbn [b_m b_nC b_c b_x0 b_z0].
  destruct (Z.ltb_spec (q_m o) 0); [lia|].
  destruct (for_ 0 n _ _) as [z|]; cbn [bind]; [|reflexivity].
  destruct (hint _ d z n _) as [dk|]; cbn [bind]; [|reflexivity].
  destruct full; [reflexivity|]. apply obj_emit_eq. apply (Hf eq_refl).
Qed.

Lemma compiled_stale {T} (A : Ops T) hint (o : cobj T) cols xs d full : xs <> [] -> (0 <= q_m o)%Z ->
  (full = false -> fits o /\ valid_nC (firstn (Z.to_nat (q_numC o)) (q_nC o)) (Z.to_nat (q_m o))) ->
  Z.of_nat cols <> traced_cols o full -> compiled_call_with A hint o cols xs d full = None.
Proof.
  intros Hx Hm Hf Hne. unfold compiled_call_with, obj_xla_with.
  destruct (Z.ltb_spec (q_m o) 0); [reflexivity|].
  destruct (obj_map_points _ _ _ _) as [z|]; cbn [bind]; [|reflexivity].
  destruct (hint _ d z _ _) as [dk|]; cbn [bind]; [|reflexivity].
  destruct (obj_emit _ _ _ _ _ _ _ _ _ _) as [F|] eqn:E; cbn [bind]; [|reflexivity].
  assert (Hn : 1 <= length xs) by (destruct xs; cbn; [congruence|lia]).
  set (n := length xs) in *. set (m := Z.to_nat (q_m o)) in *.
  destruct full; unfold traced_cols in Hne.
  - apply emit_full_post in E as (Hl & Hw & Hc); [|exact Hn]. cbn [blen bnew] in *.
    assert (Hlt : m < cols).
    { destruct (Nat.eq_dec m 0); [lia|]. specialize (Hw ltac:(lia)).
      destruct (Nat.lt_ge_cases m cols); [assumption|]. exfalso. assert (cols <= m - 1) by lia. nia. }
    rewrite (buf_matrix_none F n cols (n - 1) (cols - 1)); [reflexivity|lia|lia|].
    unfold brd. destruct (_ <? blen F); [|reflexivity]. rewrite Hc; [reflexivity|]. nia.
  - destruct (Hf eq_refl) as [Hfit Hv]. destruct Hfit as [_ Hnum].
    apply (emit_part_post _ _ _ _ _ _ _ _ _ _ (in_nC (firstn (Z.to_nat (q_numC o)) (q_nC o)))) in E as (Hl & Hw & Hc).
    2:{ intros j _. rewrite (listed_firstn _ j _ 0) by lia. reflexivity. }
    pose proof (keptc_length _ _ Hv) as HK. unfold keptc in HK. fold m in HK. rewrite HK in Hw, Hc.
    rewrite firstn_length_le in Hw, Hc by lia. cbn [blen bnew] in *.
    assert (Hle : Z.to_nat (q_numC o) <= m).
    { destruct Hv as [Hnd Hr]. rewrite <- (firstn_length_le (q_nC o) (n := Z.to_nat (q_numC o))) by lia.
      rewrite <- (seq_length m 0), <- (map_length Z.of_nat). apply NoDup_incl_length; [exact Hnd|].
      intros y Hy. specialize (Hr y Hy). apply in_map_iff. exists (Z.to_nat y). split; [lia|]. apply in_seq. fold m in Hr. lia. }
    set (K := m - Z.to_nat (q_numC o)) in *. assert (HneK : cols <> K) by (unfold K; lia).
    assert (Hlt : K < cols).
    { destruct (Nat.eq_dec K 0); [lia|]. specialize (Hw Hn ltac:(lia)).
      destruct (Nat.lt_ge_cases K cols); [assumption|]. exfalso. nia. }
    rewrite (buf_matrix_none F n cols 0 K); [reflexivity|lia|exact Hlt|].
    rewrite Nat.mul_0_r, Nat.add_0_l. unfold brd. destruct (K <? blen F); [|reflexivity].
    rewrite Hc by exact Hlt. reflexivity.
Qed.

Lemma compiled_fresh hint G (o : cobj R) cols xs d full : (0 <= q_m o)%Z ->
  (full = false -> fits o /\ valid_nC (firstn (Z.to_nat (q_numC o)) (q_nC o)) (Z.to_nat (q_m o))) ->
  cpp_hint_spec (Z.to_nat (q_m o)) (hint (Z.to_nat (q_m o))) G ->
  Z.of_nat cols = traced_cols o full ->
  compiled_call_with ROps hint o cols xs d full = obj_H_mat_with ROps hint o xs d full.
Proof.
  intros Hm Hf Hh Hc. unfold compiled_call_with.
  rewrite obj_xla_eq by (exact Hm || (intros e; apply (Hf e))).
  assert (HM : exists M, obj_H_mat_with ROps hint o xs d full = Some M /\
     cpp_H_mat_with (hint (Z.to_nat (q_m o))) (objB o) xs d full = Some M /\ mr M = length xs /\ mc M = cols).
  { unfold traced_cols in Hc. destruct full.
    - eexists. split; [apply (obj_full hint G); assumption|]. split; [apply (cpp_H_full _ G); exact Hh|].
      split; [reflexivity|]. cbn. lia.
    - destruct (Hf eq_refl) as [H1 H2]. eexists. split; [apply (obj_part hint G); assumption|].
      split; [apply (cpp_H_part _ G); assumption|]. split; [reflexivity|]. cbn [mc part_mat b_m b_nC objB].
      rewrite (keptc_length _ _ H2). destruct H1 as [_ H1].
      rewrite firstn_length_le by lia. lia. }
  destruct HM as (M & E1 & E2 & Hr & Hcc). rewrite E1.
  destruct full.
  - assert (E2' := E2).
    rewrite (cpp_H_full _ G) in E2' by exact Hh. apply some_inj in E2'. subst M.
    (* the list of removed columns plays no part: replace it by the empty one *)
    set (B0 := Basis (Z.to_nat (q_m o)) [] (q_x0 o) (q_c o) (q_z0 o)).
    destruct (xla_generic (hint (Z.to_nat (q_m o))) G B0 xs d true (bnew (length xs * cols))
       (full_mat B0 G xs d)) as (b & Eb & Em).
    + exact Hh.
    + split; [constructor|intros i []].
    + apply cpp_H_full. exact Hh.
    + cbn in *. rewrite Hcc. reflexivity.
    + cbn [mr mc full_mat b_m objB] in *. subst cols. cbn [b_m B0] in Eb, Em.
      change (cpp_xla_with ROps (hint (Z.to_nat (q_m o))) (objB o) (bof xs) d true (length xs) (Z.to_nat (q_m o))
         (bnew (length xs * Z.to_nat (q_m o)))) with
        (cpp_xla_with ROps (hint (Z.to_nat (q_m o))) B0 (bof xs) d true (length xs) (Z.to_nat (q_m o))
         (bnew (length xs * Z.to_nat (q_m o)))).
      rewrite Eb. cbn [bind]. rewrite Em. reflexivity.
  - destruct (Hf eq_refl) as [H1 H2].
    destruct (xla_generic (hint (Z.to_nat (q_m o))) G (objB o) xs d false (bnew (length xs * cols)) M) as (b & Eb & Em).
    + exact Hh.
    + exact H2.
    + exact E2.
    + rewrite Hr, Hcc. reflexivity.
    + rewrite Hr, Hcc in Eb, Em. rewrite Eb. cbn [bind]. rewrite Em. cbn [bind].
      destruct M as [r c dd]. cbn in *. subst. reflexivity.
Qed.

(** ** An object with assigned attributes is as good as new *)
Lemma sets_nC {T} (l : list (assign T)) : forall o, q_nC (obj_sets o l) = q_nC o.
Proof.
  induction l as [|a l IH]; intros o; [reflexivity|]. unfold obj_sets in *. cbn [fold_left]. rewrite IH.
  destruct a; reflexivity.
Qed.

Section Real2.
Open Scope R_scope.
Lemma map_points_ext (B B' : basis (T:=R)) x n :
  (forall t, (t - b_x0 B) * b_c B + b_z0 B = (t - b_x0 B') * b_c B' + b_z0 B') ->
  cpp_map_points ROps B x n = cpp_map_points ROps B' x n.
Proof.
  intros H. unfold cpp_map_points. apply for_extb. intros k z _.
  destruct (brd x k) as [t|]; cbn [bind]; [|reflexivity]. specialize (H t). cbn [ROps oadd osub omul].
  rewrite H. reflexivity.
Qed.
Lemma cpp_H_with_ext hint hint' (B B' : basis (T:=R)) x n d full :
  b_m B = b_m B' -> b_nC B = b_nC B' ->
  (forall t, (t - b_x0 B) * b_c B + b_z0 B = (t - b_x0 B') * b_c B' + b_z0 B') ->
  (forall z dark, hint d z n dark = hint' d z n dark) ->
  cpp_H_with ROps hint B x n d full = cpp_H_with ROps hint' B' x n d full.
Proof.
  intros Hm HnC Hmap Hh. assert (Hc : b_c B = b_c B').
  { pose proof (Hmap 0) as H0. pose proof (Hmap 1) as H1. lra. }
  unfold cpp_H_with. rewrite Hm, HnC, Hc, (map_points_ext B B' x n Hmap).
  destruct (negb full && _)%bool; [reflexivity|].
  destruct (cpp_map_points ROps B' x n) as [z|]; cbn [bind]; [|reflexivity]. rewrite Hh. reflexivity.
Qed.
Lemma obj_as_new hint (o : cobj R) hint' (B : basis (T:=R)) xs d full : fits o ->
  b_m B = Z.to_nat (q_m o) -> b_nC B = firstn (Z.to_nat (q_numC o)) (q_nC o) ->
  (forall t, (t - q_x0 o) * q_c o + q_z0 o = (t - b_x0 B) * b_c B + b_z0 B) ->
  (forall z dark, hint (Z.to_nat (q_m o)) d z (length xs) dark = hint' d z (length xs) dark) ->
  obj_H_mat_with ROps hint o xs d full = cpp_H_mat_with hint' B xs d full.
Proof.
  intros Hf Hm HnC Hmap Hh. unfold obj_H_mat_with, cpp_H_mat_with. rewrite obj_H_eq by exact Hf.
  rewrite (cpp_H_with_ext _ hint' (objB o) B); [reflexivity|symmetry; exact Hm|symmetry; exact HnC|exact Hmap|exact Hh].
Qed.
End Real2.

(** ** ELM objects: only the first [m] weights and biases are read *)
Lemma brd_firstn {T} (w : list T) m k : k < m -> brd (bof w) k = brd (bof (firstn m w)) k.
Proof.
  intros Hk. unfold brd, bof. cbn [blen bcell]. rewrite firstn_length.
  destruct (Nat.ltb_spec k (length w)), (Nat.ltb_spec k (Nat.min m (length w))); try lia; [|reflexivity].
  clear -Hk. revert m k Hk. induction w as [|a w IH]; intros [|m] [|k] Hk; cbn; try reflexivity; try lia.
  apply IH. lia.
Qed.
Lemma elm_loop_ext {T} m n (body body' : nat -> nat -> buf T -> option T) dark :
  (forall j k b, k < m -> body j k b = body' j k b) -> elm_loop m n body dark = elm_loop m n body' dark.
Proof.
  intros H. unfold elm_loop. apply for_extb. intros j b _. apply for_extb. intros k b' Hk. rewrite H by lia. reflexivity.
Qed.
Lemma elm_hint_firstn {T} (A : Ops T) E f m w b d x n dark :
  cpp_elm_hint A E f m (bof w) (bof b) d x n dark =
  cpp_elm_hint A E f m (bof (firstn m w)) (bof (firstn m b)) d x n dark.
Proof.
  assert (L : forall body dk, elm_loop_wbx m n (bof w) (bof b) x body dk =
                           elm_loop_wbx m n (bof (firstn m w)) (bof (firstn m b)) x body dk).
  { intros body dk. unfold elm_loop_wbx. apply elm_loop_ext. intros j k _ Hk.
    rewrite (brd_firstn w m k Hk), (brd_firstn b m k Hk). reflexivity. }
  assert (S : forall case dk, cpp_elm_switch m n (bof w) case dk = cpp_elm_switch m n (bof (firstn m w)) case dk).
  { intros [g|] dk; [|reflexivity]. cbn [cpp_elm_switch]. apply elm_loop_ext. intros j k b' Hk.
    rewrite (brd_firstn w m k Hk). reflexivity. }
  destruct f; cbn [cpp_elm_hint].
  - unfold cpp_relu_hint. destruct (d =? 0); [apply L|]. destruct (d =? 1); [apply L|reflexivity].
  - unfold cpp_sigmoid_hint. rewrite L. destruct (elm_loop_wbx _ _ _ _ _ _ _); cbn [bind]; [apply S|reflexivity].
  - unfold cpp_tanh_hint. rewrite L. destruct (elm_loop_wbx _ _ _ _ _ _ _); cbn [bind]; [apply S|reflexivity].
  - unfold cpp_sin_hint. destruct (_ =? 0); [apply L|]. destruct (_ =? 1); [apply L|]. destruct (_ =? 2); apply L.
  - unfold cpp_swish_hint. destruct (d =? 0); [apply L|]. rewrite L.
    destruct (elm_loop_wbx _ _ _ _ _ _ _) as [zi|]; cbn [bind]; [|reflexivity].
    destruct (elm_loop _ _ _ _) as [sg|]; cbn [bind]; [|reflexivity].
    destruct (cpp_swish_case A d); [|reflexivity]. apply elm_loop_ext. intros j k b' Hk.
    rewrite (brd_firstn w m k Hk). reflexivity.
Qed.

(** the classes that read the weights: all but ReLU from the second derivative on *)
Definition reads_weights (f : elm) (d : nat) : Prop := f = ReLU -> d <= 1.
Lemma elm_hint_beyond {T} (A : Ops T) E f m w b d x n dark : reads_weights f d -> length w < m -> 1 <= n ->
  cpp_elm_hint A E f m (bof w) (bof b) d x n dark = None.
Proof.
  intros Hr Hm Hn.
  assert (Hw : brd (bof w) (length w) = None).
  { unfold brd, bof. cbn [blen]. rewrite Nat.ltb_irrefl. reflexivity. }
  assert (L : forall body dk, elm_loop_wbx m n (bof w) (bof b) x body dk = None).
  { intros body dk. unfold elm_loop_wbx, elm_loop. apply (for_none_at _ _ _ _ 0); [lia|]. intros b1.
    apply (for_none_at _ _ _ _ (length w)); [lia|]. intros b2. rewrite Hw. reflexivity. }
  destruct f; cbn [cpp_elm_hint].
  - unfold cpp_relu_hint. specialize (Hr eq_refl).
    destruct (Nat.eqb_spec d 0); [apply L|]. destruct (Nat.eqb_spec d 1); [apply L|lia].
  - unfold cpp_sigmoid_hint. rewrite L. reflexivity.
  - unfold cpp_tanh_hint. rewrite L. reflexivity.
  - unfold cpp_sin_hint. destruct (_ =? 0); [apply L|]. destruct (_ =? 1); [apply L|]. destruct (_ =? 2); apply L.
  - unfold cpp_swish_hint. destruct (d =? 0); [apply L|]. rewrite L. reflexivity.
Qed.
Lemma obj_elm_beyond {T} (A : Ops T) E f (o : cobj T) w b xs d full : reads_weights f d ->
  (Z.of_nat (length w) < q_m o)%Z -> xs <> [] -> obj_elm_H A E f w b o xs d full = None.
Proof.
  intros Hr Hm Hx. unfold obj_elm_H, obj_H_mat_with, obj_H_with.
  destruct (Z.ltb_spec (q_m o) 0); [reflexivity|]. destruct (_ <? 0)%Z; [reflexivity|].
  destruct (obj_map_points _ _ _ _) as [z|]; cbn [bind]; [|reflexivity].
  rewrite elm_hint_beyond; [reflexivity|exact Hr|lia|]. destruct xs; cbn; [congruence|lia].
Qed.
Lemma get_firstn {T} (o : cobj T) w : (0 <= q_m o <= Z.of_nat (length w))%Z ->
  obj_get o w = Some (firstn (Z.to_nat (q_m o)) w).
Proof.
  intros H. unfold obj_get. destruct (Z.ltb_spec (q_m o) 0); [lia|].
  assert (Hm : Z.to_nat (q_m o) <= length w) by lia. revert Hm. generalize (Z.to_nat (q_m o)). clear. intros m Hm.
  rewrite (mapM_ext _ (brd (bof (firstn m w)))).
  2:{ intros k Hk. apply in_seq in Hk. apply brd_firstn. lia. }
  pose proof (bto_list_holds (bof (firstn m w))) as H. unfold bto_list in H. cbn [blen bof] in H.
  rewrite firstn_length_le in H by exact Hm.
  destruct (firstn m w) as [|a l] eqn:El.
  - destruct m; [reflexivity|]. apply (f_equal (@length T)) in El. rewrite firstn_length_le in El by exact Hm. discriminate.
  - rewrite (H (fun k => nth k (a :: l) a)).
    + f_equal. assert (Lm : length (a :: l) = m) by (rewrite <- El; apply firstn_length_le, Hm).
      rewrite <- Lm. apply map_nth_seq.
    + intros k Hk. cbn [bcell bof]. apply nth_error_nth'. rewrite <- El, firstn_length_le by exact Hm. exact Hk.
Qed.
Lemma get_beyond {T} (o : cobj T) w : (Z.of_nat (length w) < q_m o)%Z -> obj_get o w = None.
Proof.
  intros H. unfold obj_get. destruct (Z.ltb_spec (q_m o) 0); [reflexivity|].
  apply (mapM_none _ _ (length w)); [apply in_seq; lia|]. unfold brd, bof. cbn [blen]. rewrite Nat.ltb_irrefl. reflexivity.
Qed.
Lemma put_beyond {T} (o : cobj T) w v : (Z.of_nat (length w) < q_m o)%Z -> Z.of_nat (length v) = q_m o ->
  obj_put o w v = None.
Proof.
  intros H Hv. unfold obj_put. rewrite <- Hv, Z.eqb_refl. cbn [negb].
  destruct (for_ _ _ _ _) as [b|] eqn:E; cbn [bind]; [|reflexivity]. exfalso.
  pose (P := fun k (b' : buf T) => blen b' = length w /\ k <= length w).
  assert (Q : P (Z.to_nat (q_m o)) b).
  { rewrite <- Hv. refine (for_after P _ 0 _ _ _ (Nat.le_0_l _) _ E _); unfold P; clear P.
    - cbn. lia.
    - intros k b1 b2 Hk [H1 _] Ek. destruct (brd (bof v) k) as [y|]; cbn [bind] in Ek; [|discriminate].
      apply bwr_some in Ek as (G1 & G2 & _). lia. }
  destruct Q. lia.
Qed.
Lemma put_ok {T} (o : cobj T) w v : (q_m o <= Z.of_nat (length w))%Z -> Z.of_nat (length v) = q_m o ->
  exists b, obj_put o w v = Some (Stored b) /\ blen b = length w /\
    forall k, k < length w -> bcell b k = if k <? length v then nth_error v k else nth_error w k.
Proof.
  intros H Hv. unfold obj_put. rewrite <- Hv, Z.eqb_refl. cbn [negb].
  destruct (for_inv (fun k (b' : buf T) => blen b' = length w /\
     forall i, i < length w -> bcell b' i = if i <? k then nth_error v i else nth_error w i)
     (fun k b => vk <- brd (bof v) k ;; bwr b k vk) 0 (Z.to_nat (Z.of_nat (length v))) (bof w)) as (b & E & Hl & Hc).
  - lia.
  - split; [reflexivity|]. intros i Hi. destruct (Nat.ltb_spec i 0); [lia|]. reflexivity.
  - intros k b Hk [Hl Hc]. rewrite brd_in by (cbn; lia). cbn [bof bcell].
    destruct (nth_error v k) as [y|] eqn:Ey; [|apply nth_error_None in Ey; lia]. cbn [bind].
    rewrite bwr_in by lia. eexists; split; [reflexivity|]. split; [exact Hl|]. intros i Hi. cbn [bcell].
    destruct (Nat.eqb_spec i k) as [->|Hne].
    + destruct (Nat.ltb_spec k (Datatypes.S k)); [|lia]. rewrite Ey. reflexivity.
    + rewrite Hc by exact Hi. destruct (Nat.ltb_spec i k), (Nat.ltb_spec i (Datatypes.S k)); try lia; reflexivity.
  - rewrite E. cbn [bind]. exists b. split; [reflexivity|]. split; [exact Hl|]. rewrite Nat2Z.id in Hc. exact Hc.
Qed.
