(** n-dimensional ELM objects with assigned attributes and weights. *)
From Coq Require Import List Arith ZArith Bool Reals Lra Lia.
From Coquelicot Require Import Coquelicot.
From Verif Require Import Base Numbers ModelBFPy ModelBFCpp SpecBasis ProofBase ProofTab ProofBFCpp ProofH
  ModelELM SpecELM ProofELM ModelND SpecND ProofND ProofND2 ModelNELM SpecNELM ProofNELM ProofNELM2
  ModelAttrs ProofAttrs ModelNAttrs SpecNAttrs ProofNAttrs ModelNEAttrs SpecNEAttrs.
Import ListNotations.
Open Scope nat_scope.

(** ** Only the leading cells are read *)
Section Cong.
Context (dim m : nat) (w w' b b' : buf R) (c c' : list R) (d : list nat).
Context (Hw : forall i, i < dim * m -> brd w i = brd w' i) (Hb : forall k, k < m -> brd b k = brd b' k).
Context (Hc : forall i, i < length d -> nth_error c i = nth_error c' i) (Hd : length d <= dim).

Lemma cong_idx i k : i < dim -> k < m -> i * m + k < dim * m. Proof. intros. nia. Qed.
Lemma cong_dot n x j k : k < m -> cpp_ne_dot ROps dim m n w x j k = cpp_ne_dot ROps dim m n w' x j k.
Proof. intros Hk. apply for_extb. intros i s Hi. rewrite Hw by (apply cong_idx; lia). reflexivity. Qed.
Lemma cong_wpow k : k < m -> cpp_ne_wpow ROps m w d k = cpp_ne_wpow ROps m w' d k.
Proof. intros Hk. apply for_extb. intros i s Hi. rewrite Hw by (apply cong_idx; lia). reflexivity. Qed.
Lemma cong_ord : cpp_ne_ord ROps c d = cpp_ne_ord ROps c' d.
Proof. apply for_extb. intros i s Hi. rewrite Hc by lia. reflexivity. Qed.
Lemma cong_scan : cpp_nrelu_scan c d = cpp_nrelu_scan c' d.
Proof. apply for_extb. intros i s Hi. rewrite Hc by lia. reflexivity. Qed.
Lemma scan_h s h q : cpp_nrelu_scan c d = Some s -> fst s = Some (h, q) -> h < length d.
Proof.
  intros E. unfold cpp_nrelu_scan in E. revert h q.
  refine (for_after (fun i (s : option (nat * R) * bool) => forall h q, fst s = Some (h, q) -> h < i) _ 0 (length d) _ s
    (Nat.le_0_l _) _ E _); [discriminate|].
  intros k [s1 f1] s2 Hk IH Es h' q' Eh. cbn [fst snd] in *. destruct f1.
  - injection Es as <-. specialize (IH _ _ Eh). lia.
  - destruct (nth_error d k) as [di|]; cbn [bind] in Es; [|discriminate].
    destruct (_ || _)%bool; [injection Es as <-; specialize (IH _ _ Eh); lia|].
    destruct (di =? 1).
    + destruct (nth_error c k); cbn [bind] in Es; [|discriminate]. injection Es as <-. cbn in Eh. injection Eh as <- _. lia.
    + injection Es as <-. specialize (IH _ _ Eh). lia.
Qed.
Lemma cong_switch n q case F : cpp_ne_switch ROps m n w d q case F = cpp_ne_switch ROps m n w' d q case F.
Proof.
  destruct case as [g|]; [|reflexivity]. cbn [cpp_ne_switch]. apply elm_loop_ext. intros j k s Hk.
  rewrite cong_wpow by exact Hk. reflexivity.
Qed.
Lemma hint_cong f x n F : cpp_nelm_hint ROps RFun f dim m c w b d x n F = cpp_nelm_hint ROps RFun f dim m c' w' b' d x n F.
Proof.
  destruct f; cbn [cpp_nelm_hint].
  - unfold cpp_nrelu_hint. rewrite <- cong_scan. destruct (cpp_nrelu_scan c d) as [s|] eqn:Es; cbn [bind]; [|reflexivity].
    match goal with |- bind ?l _ = bind ?r _ => assert (E : l = r) end.
    { destruct (snd s); [reflexivity|]. apply elm_loop_ext. intros j k _ Hk. rewrite cong_dot, Hb by exact Hk. reflexivity. }
    rewrite E; clear E. destruct (if snd s then _ else _) as [F1|]; cbn [bind]; [|reflexivity].
    destruct (fst s) as [[h q]|] eqn:Eh; [|reflexivity]. apply elm_loop_ext. intros j k F' Hk.
    pose proof (scan_h s h q Es Eh). rewrite Hw by (apply cong_idx; lia). reflexivity.
  - unfold cpp_nsigmoid_hint. rewrite <- cong_ord.
    match goal with |- bind ?l _ = bind ?r _ => assert (E : l = r) end.
    { apply elm_loop_ext. intros j k _ Hk. rewrite cong_dot, Hb by exact Hk. reflexivity. }
    rewrite E; clear E. destruct (elm_loop _ _ _ _); cbn [bind]; [|reflexivity].
    destruct (cpp_ne_ord _ _ _) as [o|]; cbn [bind]; [|reflexivity]. apply cong_switch.
  - unfold cpp_ntanh_hint. rewrite <- cong_ord.
    match goal with |- bind ?l _ = bind ?r _ => assert (E : l = r) end.
    { apply elm_loop_ext. intros j k _ Hk. rewrite cong_dot, Hb by exact Hk. reflexivity. }
    rewrite E; clear E. destruct (elm_loop _ _ _ _); cbn [bind]; [|reflexivity].
    destruct (cpp_ne_ord _ _ _) as [o|]; cbn [bind]; [|reflexivity]. apply cong_switch.
  - unfold cpp_nsin_hint. rewrite <- cong_ord. destruct (cpp_ne_ord _ _ _) as [[s q]|]; cbn [bind]; [|reflexivity].
    cbv zeta. destruct (_ =? 0); [|destruct (_ =? 1); [|destruct (_ =? 2)]];
      apply elm_loop_ext; intros j k F' Hk; rewrite cong_wpow, cong_dot, Hb by exact Hk; reflexivity.
  - unfold cpp_nswish_hint. rewrite <- cong_ord. destruct (cpp_ne_ord _ _ _) as [[s q]|]; cbn [bind]; [|reflexivity].
    destruct (s =? 0).
    + apply elm_loop_ext. intros j k _ Hk. rewrite cong_dot, Hb by exact Hk. reflexivity.
    + match goal with |- bind ?l _ = bind ?r _ => assert (E : l = r) end.
      { apply elm_loop_ext. intros j k _ Hk. rewrite cong_dot, Hb by exact Hk. reflexivity. }
      rewrite E; clear E. destruct (elm_loop _ _ _ _) as [zi|]; cbn [bind]; [|reflexivity].
      destruct (elm_loop _ _ _ _) as [sg|]; cbn [bind]; [|reflexivity].
      destruct (cpp_nswish_case _ _); [|reflexivity]. apply elm_loop_ext. intros j k F' Hk.
      rewrite cong_wpow by exact Hk. reflexivity.
Qed.
End Cong.

(** ** What a run writes, whatever the size of the result *)
Definition wrote (m n : nat) (F F' : buf R) : Prop :=
  blen F' = blen F /\ (1 <= m -> m * (n - 1) + (m - 1) < blen F) /\ (forall c, m * n <= c -> bcell F' c = bcell F c).

Lemma elm_loop_post m n body (F F' : buf R) : 1 <= n -> elm_loop m n body F = Some F' -> wrote m n F F'.
Proof.
  intros Hn E. unfold elm_loop in E.
  pose (P := fun j (b : buf R) => blen b = blen F /\ (1 <= j -> 1 <= m -> m * (j - 1) + (m - 1) < blen F) /\
     (forall c, m * n <= c -> bcell b c = bcell F c)).
  assert (Q : P n F').
  { refine (for_after P _ 0 n _ _ (Nat.le_0_l n) _ E _); unfold P; clear P.
    - repeat split; lia.
    - intros j b1 b3 Hj (Hl & _ & Hc) Ef.
      pose (P2 := fun k (b' : buf R) => blen b' = blen F /\ (1 <= k -> m * j + (k - 1) < blen F) /\
            (forall c, m * n <= c -> bcell b' c = bcell b1 c)). assert (Q2 : P2 m b3).
      { refine (for_after P2 _ 0 m _ _ (Nat.le_0_l m) _ Ef _); unfold P2; clear P2.
        - repeat split; try lia; auto.
        - intros k b4 b5 Hk (H1 & H2 & H3) Ek. cbn beta in *.
          destruct (body j k b4) as [v|]; cbn [bind] in Ek; [|discriminate].
          apply bwr_some in Ek as (G1 & G2 & G3). repeat split.
          + congruence.
          + intros _. replace (S k - 1) with k by lia. lia.
          + intros c Hcc. rewrite G3; [auto|]. intros ->. nia. }
      destruct Q2 as (H1 & H2 & H3). repeat split.
      + exact H1.
      + intros _ Hm. replace (S j - 1) with j by lia. apply H2, Hm.
      + intros c Hcc. rewrite H3 by exact Hcc. apply Hc, Hcc. }
  destruct Q as (H1 & H2 & H3). repeat split; [exact H1|intros Hm; apply H2; assumption|exact H3].
Qed.
Lemma wrote_trans m n F G H : wrote m n F G -> (blen H = blen G /\ forall c, m * n <= c -> bcell H c = bcell G c) -> wrote m n F H.
Proof. intros (A1 & A2 & A3) (B1 & B2). repeat split; [congruence|exact A2|intros c Hc; rewrite B2 by exact Hc; apply A3, Hc]. Qed.
Lemma wrote_weak m n F G : wrote m n F G -> blen G = blen F /\ forall c, m * n <= c -> bcell G c = bcell F c.
Proof. intros (A1 & _ & A3). split; assumption. Qed.
Lemma switch_post m n w d q case F F' : 1 <= n -> cpp_ne_switch ROps m n w d q case F = Some F' ->
  blen F' = blen F /\ forall c, m * n <= c -> bcell F' c = bcell F c.
Proof.
  intros Hn. destruct case as [g|]; cbn [cpp_ne_switch]; [|intros E; injection E as <-; split; reflexivity].
  intros E. apply (wrote_weak m n), (elm_loop_post _ _ _ _ _ Hn E).
Qed.
Lemma ord_sum c d s q : cpp_ne_ord ROps c d = Some (s, q) -> s = list_sum d.
Proof.
  intros E. unfold cpp_ne_ord in E.
  assert (Q : fst (s, q) = list_sum (firstn (length d) d)); [|cbn [fst] in Q; rewrite firstn_all in Q; exact Q].
  refine (for_after (fun i (s : nat * R) => fst s = list_sum (firstn i d)) _ 0 (length d) _ (s, q) (Nat.le_0_l _) _ E _).
  - reflexivity.
  - intros k [s1 q1] [s2 q2] Hk IH Es. cbn [fst snd] in *.
    destruct (nth_error d k) as [di|] eqn:Ed; cbn [bind] in Es; [|discriminate].
    destruct (nth_error c k); cbn [bind] in Es; [|discriminate]. injection Es as <- _.
    change (S k) with (1 + k). rewrite sum_firstn_S by lia. rewrite (nth_error_nth d k 0 Ed). lia.
Qed.
Lemma hint_post f dim m c w b d x n F F' : 1 <= n -> ntab d f ->
  cpp_nelm_hint ROps RFun f dim m c w b d x n F = Some F' -> wrote m n F F'.
Proof.
  intros Hn Ht. destruct f; cbn [cpp_nelm_hint ntab] in *.
  - unfold cpp_nrelu_hint. destruct (cpp_nrelu_scan c d) as [s|]; cbn [bind]; [|discriminate].
    destruct (if snd s then _ else _) as [F1|] eqn:E1; cbn [bind]; [|discriminate].
    assert (P : wrote m n F F1) by (destruct (snd s); apply (elm_loop_post _ _ _ _ _ Hn E1)).
    destruct (fst s) as [[h q]|]; [|intros E; injection E as <-; exact P].
    intros E. apply (wrote_trans _ _ _ _ _ P), (wrote_weak m n), (elm_loop_post _ _ _ _ _ Hn E).
  - unfold cpp_nsigmoid_hint. destruct (elm_loop _ _ _ _) as [F1|] eqn:E1; cbn [bind]; [|discriminate].
    destruct (cpp_ne_ord _ _ _) as [o|]; cbn [bind]; [|discriminate]. intros E.
    apply (wrote_trans _ _ _ _ _ (elm_loop_post _ _ _ _ _ Hn E1)), (switch_post _ _ _ _ _ _ _ _ Hn E).
  - unfold cpp_ntanh_hint. destruct (elm_loop _ _ _ _) as [F1|] eqn:E1; cbn [bind]; [|discriminate].
    destruct (cpp_ne_ord _ _ _) as [o|]; cbn [bind]; [|discriminate]. intros E.
    apply (wrote_trans _ _ _ _ _ (elm_loop_post _ _ _ _ _ Hn E1)), (switch_post _ _ _ _ _ _ _ _ Hn E).
  - unfold cpp_nsin_hint. destruct (cpp_ne_ord _ _ _) as [[s q]|]; cbn [bind]; [|discriminate]. cbv zeta.
    destruct (_ =? 0); [|destruct (_ =? 1); [|destruct (_ =? 2)]]; apply elm_loop_post; exact Hn.
  - unfold cpp_nswish_hint. destruct (cpp_ne_ord _ _ _) as [[s q]|] eqn:Eo; cbn [bind]; [|discriminate].
    destruct (Nat.eqb_spec s 0) as [->|Hs]; [apply elm_loop_post, Hn|].
    destruct (elm_loop _ _ _ _) as [zi|]; cbn [bind]; [|discriminate].
    destruct (elm_loop _ _ _ _) as [sg|]; cbn [bind]; [|discriminate].
    apply ord_sum in Eo. assert (X : exists g, cpp_nswish_case ROps s = Some g).
    { subst s. destruct (list_sum d) as [|s]; [lia|]. do 8 (destruct s as [|s]; [eexists; reflexivity|]). lia. }
    destruct X as (g & Eg). rewrite Eg. apply elm_loop_post, Hn.
Qed.

(** ** Reads outside the arrays of weights *)
Lemma bind_none {X Y} (a : option X) (k : X -> option Y) : (forall x, k x = None) -> bind a k = None.
Proof. intros H. destruct a; cbn [bind]; [apply H|reflexivity]. Qed.
Lemma elm_loop_none m n body (F : buf R) k : 1 <= n -> k < m -> (forall j F, body j k F = None) -> elm_loop m n body F = None.
Proof.
  intros Hn Hk Hb. unfold elm_loop. apply (for_none_at _ _ _ _ 0); [lia|]. intros s.
  apply (for_none_at _ _ _ _ k); [lia|]. intros s'. rewrite Hb. reflexivity.
Qed.
(** all but ReLU of total order two or more read the weights *)
Definition nreads (f : elm) (d : list nat) : Prop := f = ReLU -> list_sum d <= 1.

Lemma scan_flag c d s : cpp_nrelu_scan (T := R) c d = Some s -> snd s = true -> 2 <= list_sum d.
Proof.
  intros E Hs. unfold cpp_nrelu_scan in E.
  assert (Q : (if snd s then 2 else match fst s with Some _ => 1 | None => 0 end) <= list_sum (firstn (length d) d)).
  { refine (for_after (fun i (s : option (nat * R) * bool) =>
      (if snd s then 2 else match fst s with Some _ => 1 | None => 0 end) <= list_sum (firstn i d)) _ 0 (length d) _ s (Nat.le_0_l _) _ E _).
    - cbn. lia.
    - intros k [s1 f1] s2 Hk IH Es. cbn [fst snd] in *. change (S k) with (1 + k). rewrite sum_firstn_S by lia.
      destruct f1; [injection Es as <-; cbn [fst snd]; lia|].
      destruct (nth_error d k) as [di|] eqn:Ed; cbn [bind] in Es; [|discriminate]. rewrite (nth_error_nth d k 0 Ed).
      destruct (Nat.ltb_spec 1 di); cbn [orb] in Es; [injection Es as <-; cbn [fst snd]; lia|].
      destruct (Nat.eqb_spec di 1); cbn [andb] in Es.
      + destruct s1; [injection Es as <-; cbn [fst snd]; lia|].
        destruct (nth_error c k); cbn [bind] in Es; [|discriminate]. injection Es as <-. cbn [fst snd]. lia.
      + injection Es as <-. cbn [fst snd]. lia. }
  rewrite Hs, firstn_all in Q. exact Q.
Qed.
Lemma hint_none f dim m c w b d x n F k : 1 <= n -> k < m -> nreads f d ->
  (forall j, bind (cpp_ne_dot ROps dim m n w x j k) (fun _ => brd b k) = None) ->
  cpp_nelm_hint ROps RFun f dim m c w b d x n F = None.
Proof.
  intros Hn Hk Hr Hb.
  assert (HB : forall j (v : R -> R -> option R), (dark <- cpp_ne_dot ROps dim m n w x j k ;; bk <- brd b k ;; v dark bk) = None).
  { intros j v. specialize (Hb j). destruct (cpp_ne_dot _ _ _ _ _ _ _ _); cbn [bind] in *; [|reflexivity]. rewrite Hb. reflexivity. }
  destruct f; cbn [cpp_nelm_hint].
  - unfold cpp_nrelu_hint. destruct (cpp_nrelu_scan c d) as [s|] eqn:Es; cbn [bind]; [|reflexivity].
    destruct (snd s) eqn:E2; [apply scan_flag in Es; [specialize (Hr eq_refl); lia|exact E2]|].
    rewrite (elm_loop_none _ _ _ _ k Hn Hk); [reflexivity|]. intros j F'. apply (HB j (fun dark bk => Some _)).
  - unfold cpp_nsigmoid_hint. rewrite (elm_loop_none _ _ _ _ k Hn Hk); [reflexivity|]. intros j F'. apply (HB j (fun dark bk => Some _)).
  - unfold cpp_ntanh_hint. rewrite (elm_loop_none _ _ _ _ k Hn Hk); [reflexivity|]. intros j F'. apply (HB j (fun dark bk => Some _)).
  - unfold cpp_nsin_hint. apply bind_none. intros [s q]. cbv zeta.
    destruct (_ =? 0); [|destruct (_ =? 1); [|destruct (_ =? 2)]]; apply (elm_loop_none _ _ _ _ k Hn Hk); intros j F';
      apply bind_none; intros v; apply (HB j (fun dark bk => Some _)).
  - unfold cpp_nswish_hint. apply bind_none. intros [s q]. destruct (s =? 0).
    + apply (elm_loop_none _ _ _ _ k Hn Hk). intros j F'. apply (HB j (fun dark bk => Some _)).
    + rewrite (elm_loop_none _ _ _ _ k Hn Hk); [reflexivity|]. intros j F'. apply (HB j (fun dark bk => Some _)).
Qed.

(** ** The object *)
Lemma eobj_emit_eq nC numC m n mo (dark F : buf R) :
  eobj_emit nC numC m n mo dark F = obj_emit ROps nC (Z.of_nat (Z.to_nat numC)) m n mo 1%R false dark F.
Proof.
  unfold eobj_emit, obj_emit. rewrite Nat2Z.id. f_equal. apply for_extb. intros j [i b] Hj.
  destruct (obj_listed _ _ _ _) as [[|]|]; cbn [bind]; try reflexivity.
  f_equal. apply for_extb. intros k s Hk. destruct (brd dark _) as [v|]; cbn [bind]; [|reflexivity].
  cbn [ROps omul]. rewrite Rmult_1_r. reflexivity.
Qed.

Section Object.
Context (o : eobj R) (f : elm) (dim m : nat) (w v a b : list R) (nC : list Z) (d : list nat) (n : nat) (x : mat R).
Context (Hargs : ne_args dim m w v a b) (HnC : valid_nC nC m) (Hdes : ne_describes o dim a b nC m w v).
Context (Ht : ntab d f) (Hd : length d <= dim) (Hx : shaped x dim n).

Lemma map_01 k t : ((t - nth k a 0) / (nth k b 0 - nth k a 0) = (t - nth k a 0) * nci a b k + 0)%R.
Proof. unfold nci, Rdiv. ring. Qed.
Lemma obj_c k : k < dim -> nth_error (p_c (e_o o)) k = Some (nci a b k).
Proof.
  intros Hk. destruct Hdes as (_ & _ & _ & _ & _ & _ & Hm). destruct (Hm k Hk) as (x0k & ck & _ & E2 & H).
  rewrite E2. f_equal. apply (slope x0k ck (p_z0 (e_o o)) (nth k a 0%R) (nci a b k) 0%R). intros t. rewrite H. apply map_01.
Qed.
Lemma obj_z num : exists z, cpp_nd_z ROps (nobjB (e_o o) num) (bof (concat (md x))) n = Some z /\
  zbuf dim z n (fun i j => (xat x j i - nth i a 0) * nci a b i + 0)%R.
Proof.
  unfold cpp_nd_z. cbn [nobjB nb_dim nb_x0 nb_c nb_z0]. pose proof Hdes as (Hdim & _ & _ & _ & _ & _ & Hm).
  rewrite Hdim, Nat2Z.id.
  destruct (for_rows dim n (fun i j => (xat x j i - nth i a 0) * nci a b i + 0)%R
    (fun j k z => xv <- brd (bof (concat (md x))) (j * n + k)%nat ;; x0j <- nth_error (p_x0 (e_o o)) j ;;
       cj <- nth_error (p_c (e_o o)) j ;;
       bwr z (j * n + k)%nat (oadd ROps (omul ROps (osub ROps xv x0j) cj) (p_z0 (e_o o)))) (bnew (n * dim))) as (z & E & Hz).
  - reflexivity.
  - intros j k z Hj Hk _. replace (brd (bof (concat (md x))) (j * n + k)) with (Some (xat x k j)) by (symmetry; apply (shaped_flat x dim n); assumption). cbn [bind]. destruct (Hm j Hj) as (x0k & ck & E1 & E2 & H).
    rewrite E1, E2. cbn [bind]. rewrite (Nat.mul_comm j n). cbn [ROps oadd omul osub]. rewrite H, map_01. reflexivity.
  - exists z. split; [exact E|]. intros i j Hi Hj. rewrite (Nat.mul_comm i n).
    apply (cols_rd z dim n n (fun i j => (xat x j i - nth i a 0) * nci a b i + 0)%R); try assumption. lia.
Qed.
Lemma obj_hint z F :
  cpp_nelm_hint ROps RFun f (Z.to_nat (p_dim (e_o o))) (Z.to_nat (p_m (e_o o))) (p_c (e_o o)) (bof (e_w o)) (bof (e_b o)) d z n F =
  cpp_nelm_hint ROps RFun f dim m (map (nci a b) (seq 0 dim)) (bof w) (bof v) d z n F.
Proof.
  pose proof Hdes as (Hdim & Hm & Hw & Hv & _). rewrite Hdim, Hm, !Nat2Z.id. apply hint_cong.
  - intros i Hi. rewrite <- Hw. apply brd_firstn, Hi.
  - intros k Hk. rewrite <- Hv. apply brd_firstn, Hk.
  - intros i Hi. rewrite obj_c by lia. symmetry. rewrite nth_error_map_seq. destruct (Nat.ltb_spec i dim); [reflexivity|lia].
  - exact Hd.
Qed.
Lemma kk_count full : length (kk nC m full) = ne_count nC m full.
Proof. destruct full; cbn [kk ne_count]; [apply seq_length|apply keptc_length, HnC]. Qed.

Lemma all_or_part full : if ((p_numC (e_o o) =? 0)%Z || full)%bool then kk nC m full = seq 0 m else full = false.
Proof.
  destruct full; [rewrite orb_true_r; reflexivity|]. rewrite orb_false_r.
  destruct (Z.eqb_spec (p_numC (e_o o)) 0) as [E|_]; [|reflexivity].
  destruct Hdes as (_ & _ & _ & _ & Hn & _). rewrite E in Hn. destruct nC; [apply keptc_nil|discriminate].
Qed.
Lemma nC_len : length nC <= length (e_nC o).
Proof. destruct Hdes as (_ & _ & _ & _ & _ & H & _). rewrite <- H, firstn_length. lia. Qed.
Lemma obj_part_eq dark F mo : eobj_emit (e_nC o) (p_numC (e_o o)) m n mo dark F = cpp_emit ROps nC m n mo 1%R false dark F.
Proof.
  rewrite eobj_emit_eq. pose proof nC_len. pose proof Hdes as (_ & _ & _ & _ & Hn & Hf & _). rewrite Hn.
  rewrite obj_emit_eq by lia. rewrite Nat2Z.id, Hf. reflexivity.
Qed.

Lemma nobj_eq num : nobj_nb (e_o o) num = Some (nobjB (e_o o) num).
Proof. destruct Hdes as (Hdim & Hm & _). apply (nobj_nb_ok _ dim m); assumption. Qed.

Lemma eobj_run_ok full : ecompiled_call ROps RFun f o (ne_count nC m full) x d full =
  Some (ne_mat f dim m w v a b (kk nC m full) d n x).
Proof.
  unfold ecompiled_call, eobj_nHint. rewrite nobj_eq. cbn [bind].
  pose proof Hx as (_ & Hn & _). rewrite Hn. rewrite <- kk_count.
  destruct (obj_z (length (kk nC m full))) as (z & Ez & Hz). rewrite Ez. cbn [bind]. cbv zeta.
  cbn [nobjB nb_dim nb_m nb_c].
  destruct Hargs as (_ & Hw & Hv & _).
  assert (Hint : forall F, blen F = (m * n)%nat -> nhint_res dim m w v (nci a b) (map (nci a b) (seq 0 dim)) d f z n F
     (fun i j => (xat x j i - nth i a 0) * nci a b i + 0)%R).
  { intros F0 HF0. apply nhint_ok; try assumption. reflexivity. }
  assert (G : exists F', (if ((p_numC (e_o o) =? 0)%Z || full)%bool then
     cpp_nelm_hint ROps RFun f (Z.to_nat (p_dim (e_o o))) (Z.to_nat (p_m (e_o o))) (p_c (e_o o)) (bof (e_w o)) (bof (e_b o)) d z n (bnew (length (kk nC m full) * n))
     else dark <- cpp_nelm_hint ROps RFun f (Z.to_nat (p_dim (e_o o))) (Z.to_nat (p_m (e_o o))) (p_c (e_o o)) (bof (e_w o)) (bof (e_b o)) d z n (bnew (Z.to_nat (p_m (e_o o)) * n)) ;;
       eobj_emit (e_nC o) (p_numC (e_o o)) (Z.to_nat (p_m (e_o o))) n (length (kk nC m full)) dark (bnew (length (kk nC m full) * n))) = Some F' /\
     cols F' n (length (kk nC m full)) (length (kk nC m full)) (fun j q =>
      nent f dim m w v (nci a b) d (nth q (kk nC m full) 0%nat) (fun i => (xat x j i - nth i a 0) * nci a b i + 0)%R)).
  { pose proof (all_or_part full) as Hall. destruct ((p_numC (e_o o) =? 0)%Z || full)%bool.
    - rewrite Hall. rewrite seq_length. rewrite obj_hint.
      destruct (Hint (bnew (m * n)) eq_refl) as (F' & E & H). exists F'. split; [exact E|].
      apply (cols_ext _ _ _ _ _ _ H). intros j k Hj Hk. rewrite seq_nth by exact Hk. reflexivity.
    - subst full. cbn [kk]. rewrite obj_hint. pose proof Hdes as (_ & Hm & _). rewrite Hm, Nat2Z.id.
      destruct (Hint (bnew (m * n)) eq_refl) as (dk & E & H). rewrite E. cbn [bind]. rewrite obj_part_eq.
      destruct (cpp_emit_part nC m n 1%R dk (bnew (length (keptc nC m) * n)) _ HnC H eq_refl) as (F' & E' & H'). exists F'. split; [exact E'|].
      apply (cols_ext _ _ _ _ _ _ H'). intros j q Hj Hq. apply Rmult_1_r. }
  destruct G as (F' & E & H). rewrite E. cbn [bind]. rewrite (buf_matrix_bmat F' n _ _ (cols_bmat _ _ _ _ H)). cbn [bind].
  unfold ne_mat. do 2 f_equal. apply map_ext. intros j.
  apply (map_seq_nth (fun k => nent f dim m w v (nci a b) d k (zat a b x j)) (kk nC m full) 0%nat).
Qed.
Lemma eobj_run_none full cols : 1 <= n -> cols <> ne_count nC m full -> ecompiled_call ROps RFun f o cols x d full = None.
Proof.
  intros Hn1 Hne. unfold ecompiled_call, eobj_nHint. rewrite nobj_eq. cbn [bind].
  pose proof Hx as (_ & Hn & _). rewrite Hn. destruct (cpp_nd_z _ _ _ _) as [z|]; cbn [bind]; [|reflexivity]. cbv zeta.
  cbn [nobjB nb_dim nb_m nb_c]. pose proof (all_or_part full) as Hall. pose proof (kk_count full) as Hk.
  destruct ((p_numC (e_o o) =? 0)%Z || full)%bool.
  - rewrite Hall, seq_length in Hk. rewrite <- Hk in Hne. rewrite obj_hint.
    destruct (cpp_nelm_hint _ _ _ _ _ _ _ _ _ _ _ _) as [F|] eqn:E; cbn [bind]; [|reflexivity].
    apply hint_post in E as (Hl & Hw & Hc); [|exact Hn1|exact Ht]. cbn [blen bnew] in *.
    assert (Hlt : m < cols).
    { destruct (Nat.eq_dec m 0); [lia|]. specialize (Hw ltac:(lia)).
      destruct (Nat.lt_ge_cases m cols); [assumption|]. exfalso. assert (cols <= m - 1) by lia. nia. }
    rewrite (buf_matrix_none F n cols (n - 1) (cols - 1)); [reflexivity|lia|lia|].
    unfold brd. destruct (_ <? blen F); [|reflexivity]. rewrite Hc; [reflexivity|]. nia.
  - subst full. destruct (cpp_nelm_hint _ _ _ _ _ _ _ _ _ _ _ _) as [dk|]; cbn [bind]; [|reflexivity].
    pose proof Hdes as (_ & Hm & _ & _ & Hnum & Hf & _). rewrite Hm, Nat2Z.id.
    destruct (eobj_emit _ _ _ _ _ _ _) as [F|] eqn:E; cbn [bind]; [|reflexivity]. rewrite eobj_emit_eq in E.
    pose proof nC_len as Hlen.
    apply (emit_part_post _ _ _ _ _ _ _ _ _ _ (in_nC nC)) in E as (Hl & Hw & Hc).
    2:{ intros j _. rewrite Nat2Z.id, Hnum, (listed_firstn _ j _ 0) by lia. cbn [skipn]. rewrite Hf. reflexivity. }
    change (length (filter _ _)) with (length (keptc nC m)) in Hw, Hc. cbn [kk] in Hk. rewrite Hk in Hw, Hc. cbn [blen bnew] in *.
    set (K := ne_count nC m false) in *.
    assert (Hlt : K < cols).
    { destruct (Nat.eq_dec K 0); [lia|]. specialize (Hw Hn1 ltac:(lia)).
      destruct (Nat.lt_ge_cases K cols); [assumption|]. exfalso. nia. }
    rewrite (buf_matrix_none F n cols 0 K); [reflexivity|lia|exact Hlt|].
    rewrite Nat.mul_0_r, Nat.add_0_l. unfold brd. destruct (K <? blen F); [|reflexivity].
    rewrite Hc by exact Hlt. reflexivity.
Qed.
End Object.

(** ** The weights *)
Lemma put_cells_ok (v w : list R) n : n <= length v -> n <= length w -> put_cells v n w = Some (firstn n v ++ skipn n w).
Proof.
  intros Hv Hw. unfold put_cells.
  destruct (for_inv (fun k b => blen b = length w /\ forall i, i < length w ->
      bcell b i = if i <? k then nth_error v i else nth_error w i)
    (fun k b => vk <- brd (bof v) k ;; bwr b k vk) 0 n (bof w)) as (b & E & Hl & Hc).
  - lia.
  - repeat split.
  - intros k b1 Hk (Hl & Hc).
    assert (Ek : brd (bof v) k = Some (nth k v 0%R)).
    { unfold brd, bof. cbn [blen bcell]. destruct (Nat.ltb_spec k (length v)); [apply nth_error_nth'; lia|lia]. }
    rewrite Ek. cbn [bind]. unfold bwr. destruct (Nat.ltb_spec k (blen b1)); [|lia]. eexists. split; [reflexivity|].
    split; [exact Hl|]. intros i Hi. cbn [bcell]. destruct (Nat.eqb_spec i k) as [->|Hne].
    + destruct (Nat.ltb_spec k (S k)); [|lia]. symmetry. apply nth_error_nth'. lia.
    + rewrite Hc by exact Hi. destruct (Nat.ltb_spec i k), (Nat.ltb_spec i (S k)); try lia; reflexivity.
  - rewrite E. cbn [bind].
  transitivity (mapM (nth_error (firstn n v ++ skipn n w)) (seq 0 (length w))).
  - apply mapM_ext. intros i Hi%in_seq. rewrite brd_in by lia. rewrite Hc by lia.
    destruct (Nat.ltb_spec i n) as [H|H].
    + rewrite nth_error_app1 by (rewrite firstn_length_le by lia; exact H).
      rewrite <- (firstn_skipn n v) at 1. rewrite nth_error_app1 by (rewrite firstn_length_le by lia; exact H). reflexivity.
    + rewrite nth_error_app2 by (rewrite firstn_length_le by lia; exact H). rewrite firstn_length_le by lia.
      rewrite <- (firstn_skipn n w) at 1. rewrite nth_error_app2 by (rewrite firstn_length_le by lia; exact H).
      rewrite firstn_length_le by lia. reflexivity.
  - replace (length w) with (length (firstn n v ++ skipn n w)); [apply mapM_all|].
    rewrite app_length, firstn_length_le, skipn_length by lia. lia.
Qed.
Lemma put_cells_none (v w : list R) n : length w < n -> put_cells v n w = None.
Proof.
  intros Hn. unfold put_cells. destruct (for_ 0 n _ _) as [b|] eqn:E; [|reflexivity]. exfalso.
  assert (Q : blen b = length w /\ n <= length w); [|lia].
  refine (for_after (fun k (b : buf R) => blen b = length w /\ k <= length w) _ 0 n _ _ (Nat.le_0_l n) _ E _).
  - split; [reflexivity|lia].
  - intros k b1 b2 Hk (H1 & H2) Ek. destruct (brd _ _); cbn [bind] in Ek; [|discriminate].
    apply bwr_some in Ek as (G1 & G2 & _). split; lia.
Qed.

Lemma eobj_w_ok (o : eobj R) dim m : p_dim (e_o o) = Z.of_nat dim -> p_m (e_o o) = Z.of_nat m -> dim * m <= length (e_w o) ->
  exists W, eobj_w o = Some W /\ shaped W dim m /\
    forall i k, i < dim -> k < m -> ment W i k = at_row m (firstn (dim * m) (e_w o)) i k.
Proof.
  intros Hdim Hm Hl. unfold eobj_w. rewrite Hdim, Hm.
  destruct (Z.ltb_spec (Z.of_nat dim) 0), (Z.ltb_spec (Z.of_nat m) 0); try lia. cbn [orb]. cbv zeta. rewrite !Nat2Z.id.
  rewrite (mapM_some_map _ (fun i => map (fun k => nth (i * m + k) (e_w o) 0%R) (seq 0 m))).
  2:{ intros i Hi%in_seq. apply mapM_some_map. intros k Hk%in_seq. apply nth_error_nth'. nia. }
  cbn [bind]. eexists. split; [reflexivity|]. split.
  - repeat split; cbn [mr mc md].
    + rewrite map_length, seq_length. reflexivity.
    + intros r Hr. apply in_map_iff in Hr as (i & <- & _). rewrite map_length, seq_length. reflexivity.
  - intros i k Hi Hk. unfold ment. cbn [md]. rewrite nth_error_map_seq. destruct (Nat.ltb_spec i dim); [|lia].
    rewrite nth_error_map_seq. destruct (Nat.ltb_spec k m); [|lia]. unfold at_row. symmetry.
    rewrite <- (firstn_skipn (dim * m) (e_w o)) at 2. rewrite app_nth1 by (rewrite firstn_length_le by lia; nia).
    apply nth_error_nth'. rewrite firstn_length_le by lia. nia.
Qed.
Lemma eobj_b_ok (o : eobj R) m : p_m (e_o o) = Z.of_nat m -> m <= length (e_b o) -> eobj_b o = Some (firstn m (e_b o)).
Proof.
  intros Hm Hl. unfold eobj_b. rewrite Hm. destruct (Z.ltb_spec (Z.of_nat m) 0); [lia|]. rewrite Nat2Z.id.
  transitivity (mapM (nth_error (firstn m (e_b o))) (seq 0 m)).
  - apply mapM_ext. intros i Hi%in_seq. rewrite <- (firstn_skipn m (e_b o)) at 1.
    apply nth_error_app1. rewrite firstn_length_le by lia. lia.
  - rewrite <- (firstn_length_le (e_b o) Hl) at 2. apply mapM_all.
Qed.

(** ** New objects *)
Lemma removed_all (nC : list Z) : (forall z, In z nC -> (0 <= z)%Z) -> removed nC = nC.
Proof.
  unfold removed. induction nC as [|z l IH]; intros H; [reflexivity|]. cbn [filter].
  assert (Ez : Z.eqb z (-1) = false) by (apply Z.eqb_neq; specialize (H z (or_introl eq_refl)); lia).
  rewrite Ez. cbn [negb]. f_equal. apply IH. intros y Hy. apply H. right. exact Hy.
Qed.
Lemma removed_ok nC m : ne_valid nC m ->
  valid_nC (removed nC) m /\ ne_numC nC = length (removed nC) /\ firstn (length (removed nC)) nC = removed nC.
Proof.
  intros [Hv|Ha].
  - rewrite removed_all by (intros z Hz; apply Hv, Hz). split; [exact Hv|]. split; [apply (ne_numC_valid nC m Hv)|apply firstn_all].
  - assert (E : removed nC = []).
    { unfold removed. induction nC as [|z l IH]; [reflexivity|]. cbn [filter]. rewrite (Ha z (or_introl eq_refl)). cbn [Z.eqb Pos.eqb negb].
      apply IH. intros y Hy. apply Ha. right. exact Hy. }
    rewrite E, ne_numC_all by exact Ha. split; [split; [constructor|intros z []]|split; reflexivity].
Qed.
