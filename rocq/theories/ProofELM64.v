(** ELM bases over any carrier, and in binary64. *)
From Coq Require Import ZArith Reals Lia Lra List Arith Bool.
From Flocq Require Import Core BinarySingleNaN Relative.
From Verif Require Import Base ProofBase Numbers64 ModelBFPy ModelBFCpp ProofTab ProofBFPy ProofBFCpp SpecBasis ProofH
  SpecBits ProofBits ProofBits64 ModelELM SpecELM ProofELM SpecELM64.
Import ListNotations.

(** ** the cells, over any carrier *)
Section Any.
Context {T : Type} (A : Ops T) (E : Fun T).
Local Notation "0" := (o0 A). Local Notation "1" := (o1 A).
Local Infix "+" := (oadd A). Local Infix "-" := (osub A).
Local Infix "*" := (omul A). Local Infix "/" := (odiv A).
Local Notation "- x" := (oopp A x).

Definition gsig (w b z : T) : T := 1 / (1 + fexp E (- w * z - b)).
Definition gcell (f : elm) (d : nat) (w b z : T) : T :=
  match f with
  | ReLU => if (d =? 0)%nat then (if fgt0 E (w * z + b) then w * z + b else 0)
            else if (d =? 1)%nat then (if negb (fgt0 E (w * z + b)) then 0 else w) else 0
  | Sigmoid => match cpp_sigmoid_case A d with Some g => g w (gsig w b z) | None => gsig w b z end
  | Tanh => match cpp_tanh_case A d with Some g => g w (ftanh E (w * z + b)) | None => ftanh E (w * z + b) end
  | Sin => match (d mod 4)%nat with
           | 0%nat => opow A w d * fsin E (w * z + b) | 1%nat => opow A w d * fcos E (w * z + b)
           | 2%nat => - opow A w d * fsin E (w * z + b) | _ => - opow A w d * fcos E (w * z + b)
           end
  | Swish => if (d =? 0)%nat then (w * z + b) * 1 / (1 + fexp E (- w * z - b))
             else match cpp_swish_case A d with Some g => g w (1 / (1 + fexp E (- (w * z + b)))) (w * z + b) | None => 0 end
  end.

Lemma gloop m n w b x zs (V : nat -> nat -> T) body (dark : buf T) :
  length w = m -> length b = m -> gpts x zs n -> blen dark = (m * n)%nat ->
  (forall j k, (j < n)%nat -> (k < m)%nat -> body (nth k w 0) (zs j) (nth k b 0) = V j k) ->
  exists b', elm_loop_wbx m n (bof w) (bof b) x body dark = Some b' /\ cols b' n m m V.
Proof.
  intros Hw Hb Hx Hl HV. unfold elm_loop_wbx.
  apply (elm_loop_ok m n (fun j k => bcell dark (m * j + k)%nat)); [exact Hl|reflexivity|].
  intros j k b' Hj Hk _ _. rewrite (gpts_rd (bof w) (fun k => nth k w 0) m); [|rewrite <- Hw; apply gpts_bof|exact Hk].
  cbn [bind]. rewrite (gpts_rd _ _ _ _ Hx Hj). cbn [bind].
  rewrite (gpts_rd (bof b) (fun k => nth k b 0) m); [|rewrite <- Hb; apply gpts_bof|exact Hk].
  cbn [bind]. rewrite HV by assumption. reflexivity.
Qed.
Lemma gwrd w m k : length w = m -> (k < m)%nat -> brd (bof w) k = Some (nth k w 0).
Proof. intros Hw Hk. apply (gpts_rd (bof w) (fun k => nth k w 0) m); [rewrite <- Hw; apply gpts_bof|exact Hk]. Qed.
Lemma gswitch m n w V case dark :
  length w = m -> cols dark n m m V ->
  exists b', cpp_elm_switch m n (bof w) case dark = Some b' /\
    cols b' n m m (fun j k => match case with Some f => f (nth k w 0) (V j k) | None => V j k end).
Proof.
  intros Hw Hc. unfold cpp_elm_switch. destruct case as [f|]; [|exists dark; split; [reflexivity|exact Hc]].
  apply (elm_loop_ok m n (fun j k => Some (V j k))).
  - apply Hc.
  - intros j k Hj Hk. apply (cols_cell _ _ _ _ _ _ Hc Hj Hk).
  - intros j k b' Hj Hk Hl' Hc'. rewrite (gwrd w m) by assumption. cbn [bind].
    rewrite brd_in by (rewrite Hl'; nia). rewrite Hc'. cbn [bind]. reflexivity.
Qed.
Lemma gecpp f w b d n x zs dark : supported Cpp f d -> length b = length w -> gpts x zs n -> blen dark = (length w * n)%nat ->
  exists b', cpp_elm_hint A E f (length w) (bof w) (bof b) d x n dark = Some b' /\
    cols b' n (length w) (length w) (fun j k => gcell f d (nth k w 0) (nth k b 0) (zs j)).
Proof.
  intros Hs Hb Hx Hl. destruct f; cbn [cpp_elm_hint].
  - unfold cpp_relu_hint, gcell. destruct (Nat.eqb_spec d 0); [|destruct (Nat.eqb_spec d 1)].
    + apply (gloop _ _ _ _ _ zs); try assumption; reflexivity.
    + apply (gloop _ _ _ _ _ zs); try assumption; reflexivity.
    + apply (elm_loop_ok (length w) n (fun j k => bcell dark (length w * j + k)%nat)); [exact Hl|reflexivity|]. reflexivity.
  - unfold cpp_sigmoid_hint. edestruct (gloop (length w) n w b x zs (fun j k => gsig (nth k w 0) (nth k b 0) (zs j)) (fun w z b => 1 / (1 + fexp E (- w * z - b)))) as (b1 & E1 & H1);
      [reflexivity|exact Hb|exact Hx|exact Hl|reflexivity|]. rewrite E1. cbn [bind].
    destruct (gswitch (length w) n w _ (cpp_sigmoid_case A d) b1 eq_refl H1) as (b2 & E2 & H2). exists b2. split; [exact E2|exact H2].
  - unfold cpp_tanh_hint. edestruct (gloop (length w) n w b x zs (fun j k => ftanh E (nth k w 0 * zs j + nth k b 0)) (fun w z b => ftanh E (w * z + b))) as (b1 & E1 & H1);
      [reflexivity|exact Hb|exact Hx|exact Hl|reflexivity|]. rewrite E1. cbn [bind].
    destruct (gswitch (length w) n w _ (cpp_tanh_case A d) b1 eq_refl H1) as (b2 & E2 & H2). exists b2. split; [exact E2|exact H2].
  - unfold cpp_sin_hint, gcell. pose proof (Nat.mod_upper_bound d 4).
    destruct (d mod 4)%nat as [|[|[|[|r]]]]; try lia; cbn [Nat.eqb]; apply (gloop _ _ _ _ _ zs); try assumption; reflexivity.
  - unfold cpp_swish_hint, gcell. destruct (Nat.eqb_spec d 0) as [->|Hd0].
    + apply (gloop _ _ _ _ _ zs); try assumption; reflexivity.
    + edestruct (gloop (length w) n w b x zs (fun j k => nth k w 0 * zs j + nth k b 0) (fun w z b => w * z + b) (bnew (n * length w)%nat)) as (b1 & E1 & H1);
        [reflexivity|exact Hb|exact Hx|cbn; lia|reflexivity|]. rewrite E1. cbn [bind].
      assert (Hrd : forall (b2 : buf T) V j k, cols b2 n (length w) (length w) V -> (j < n)%nat -> (k < length w)%nat ->
        brd b2 (length w * j + k)%nat = Some (V j k)).
      { intros b2 V j k H2 Hj Hk. rewrite brd_in by (destruct H2 as [-> _]; nia). apply (cols_cell _ _ _ _ _ _ H2 Hj Hk). }
      edestruct (elm_loop_ok (length w) n (fun _ _ => None)
        (fun j k => 1 / (1 + fexp E (- (nth k w 0 * zs j + nth k b 0))))
        (fun j k _ => z <- brd b1 (length w * j + k)%nat ;; Some (1 / (1 + fexp E (- z)))) (bnew (n * length w)%nat)) as (b2 & E2 & H2).
      4:{ rewrite E2. cbn [bind]. clear E2.
          destruct (cpp_swish_case A d) as [g|] eqn:Eg.
          - apply (elm_loop_ok (length w) n (fun j k => bcell dark (length w * j + k)%nat)); [exact Hl|reflexivity|].
            intros j k b' Hj Hk _ _. rewrite (gwrd w (length w)) by (try reflexivity; assumption). cbn [bind].
            rewrite (Hrd _ _ j k H2 Hj Hk). cbn [bind]. rewrite (Hrd _ _ j k H1 Hj Hk). reflexivity.
          - exfalso. cbn in Hs. do 9 (destruct d as [|d]; [try discriminate Eg; lia|]). lia. }
      * cbn. lia.
      * reflexivity.
      * intros j k b' Hj Hk _ _. rewrite (Hrd _ _ j k H1 Hj Hk). reflexivity.
Qed.

(** ** the matrices *)
Definition emat (B : basis (T := T)) (G : nat -> T -> T) (keep : list nat) (xs : list T) (d : nat) : mat T :=
  Mat (length xs) (length keep) (map (fun x => map (fun k => G k (zmap A B x) * opow A (b_c B) d) keep) xs).
Lemma gecpp_H f w b B xs d (full : bool) : supported Cpp f d -> length b = length w -> b_m B = length w -> valid_nC (b_nC B) (b_m B) ->
  cpp_elm_H_mat A E f (bof w) (bof b) B xs d full =
    Some (emat B (fun k z => gcell f d (nth k w 0) (nth k b 0) z) (if full then seq 0 (b_m B) else keptc (b_nC B) (b_m B)) xs d).
Proof.
  intros Hs Hb HB Hv. unfold cpp_elm_H_mat, cpp_H_with.
  pose proof (keptc_length _ _ Hv) as Hk.
  assert (Hle : (length (b_nC B) <= b_m B)%nat).
  { destruct Hv as [Hnd Hr]. rewrite <- (seq_length (b_m B) 0), <- (map_length Z.of_nat).
    apply NoDup_incl_length; [exact Hnd|]. intros z Hz. specialize (Hr z Hz).
    apply in_map_iff. exists (Z.to_nat z). split; [lia|]. apply in_seq. lia. }
  assert (Hc : (negb full && (b_m B <? length (b_nC B))%nat)%bool = false).
  { destruct full; [reflexivity|]. cbn [negb andb]. apply Nat.ltb_ge. exact Hle. }
  rewrite Hc.
  destruct (gmap_points A B (bof xs) _ _ (gpts_bof A xs)) as (z & Ez & Hz). rewrite Ez; cbn [bind].
  rewrite HB in *.
  destruct (gecpp f w b d (length xs) z _ (bnew (length xs * length w)%nat) Hs Hb Hz) as (dk & Ed & Hd);
    [cbn; lia|].
  rewrite Ed; cbn [bind]. destruct full.
  - edestruct (gemit_full A (b_nC B) (length w) (length xs) (length w) (opow A (b_c B) d) dk
       (bnew (length w * length xs)%nat) _ Hd) as (F & EF & HF); [reflexivity|].
    rewrite EF; cbn [bind].
    rewrite (buf_matrix_bmat F (length xs) (length w) _ (cols_bmat _ _ _ _ HF)). cbn [bind].
    unfold emat. rewrite seq_length. do 2 f_equal.
    apply (map_seq_nth (fun x => map (fun k => gcell f d (nth k w 0) (nth k b 0) (zmap A B x) * opow A (b_c B) d) (seq 0 (length w))) xs 0).
  - rewrite <- Hk.
    edestruct (gemit_part A (b_nC B) (length w) (length xs) (opow A (b_c B) d) dk
       (bnew (length (keptc (b_nC B) (length w)) * length xs)%nat) _ Hd) as (F & EF & HF); [reflexivity|].
    rewrite EF; cbn [bind].
    rewrite (buf_matrix_bmat F (length xs) _ _ (cols_bmat _ _ _ _ HF)). cbn [bind].
    unfold emat. do 2 f_equal.
    rewrite <- (map_seq_nth (fun x => map (fun k => gcell f d (nth k w 0) (nth k b 0) (zmap A B x) * opow A (b_c B) d)
        (keptc (b_nC B) (length w))) xs 0).
    apply map_ext. intros j.
    apply (map_seq_nth (fun k => gcell f d (nth k w 0) (nth k b 0) (zmap A B (nth j xs 0)) * opow A (b_c B) d)
          (keptc (b_nC B) (length w)) 0%nat).
Qed.
End Any.
