(** C103: NLLS on doubles, and results that are not numbers. *)
From Coq Require Import List Bool ZArith Reals Lia Lra.
From Flocq Require Import Core BinarySingleNaN.
From Verif Require Import Base Numbers64 ModelPe SpecPe ModelSolve SpecSolve ProofSolve PropSolve ModelSolve64 SpecSolve64 ProofSolve64 ProofBits64.
Import ListNotations.
Local Open Scope nat_scope.

(** a usable tolerance: a number from zero up to, but not including, one *)
Definition tolerance (tol : f64) : Prop := fin tol /\ (0 <= val tol < 1)%R.

Section Claims.
Context {M : Type} (pinv_dot lstsq : M -> list f64 -> list f64) (jac : (list (list f64) -> list f64) -> list (list f64) -> M).
Notation nlls := (NLLS64 pinv_dot lstsq jac).
Notation asked := (means pinv_dot lstsq jac).
Notation iter := (iterate sub64).

Lemma tol_ok tol : tolerance tol -> ~ nan tol /\ (0 <= val tol)%R /\ tol <> B754_infinity true.
Proof. intros [Hf Ht]. split; [|split; [lra|]]; destruct tol; try discriminate; intros; discriminate. Qed.
Lemma one_val : val (o1 F64) = 1%R.
Proof. exact (proj2 isint_one). Qed.
Lemma ones_gt tol xi : tolerance tol -> xi <> [] -> gt64 (maxabs64 (ones64 xi)) tol = true.
Proof.
  intros Ht Hx. destruct (tol_ok tol Ht) as (H1 & H2 & H3). apply maxabs64_gt; try assumption. split.
  - intros (x & Hin & Hn). unfold ones64 in Hin. apply in_map_iff in Hin as (_ & <- & _). discriminate Hn.
  - intros Hw. destruct xi as [|x xi]; [congruence|]. destruct (Hw (o1 F64)) as [_ [->|(_ & _ & H)]]; [left; reflexivity|destruct Ht as [Ht _]; discriminate|].
    rewrite one_val, Rabs_R1 in H. destruct Ht as [_ Ht]. lra.
Qed.

(** When NLLS returns before the limit, the residual is within the tolerance, or the last step is, or
    one of them is not made of numbers.  Before that, both were made of numbers and above it. *)
Theorem C103_early_partial : forall fuel xi res args consts J cond tol maxIter m timer printOut r upd,
  asked res J args m r upd -> good_consts args consts -> tolerance tol -> xi <> [] ->
  (0 <= maxIter <= Z.of_nat fuel)%Z -> 1 <= fuel ->
  exists out k, fst (nlls fuel xi res args consts J cond None tol maxIter m timer printOut) = NReturns (NResult (iter upd k xi) (Z.of_nat k) out) /\
    (Z.of_nat k <= maxIter)%Z /\
    ((Z.of_nat k < maxIter)%Z ->
       within tol (r (iter upd k xi)) \/ has_nan (r (iter upd k xi)) \/
       exists j, k = S j /\ (within tol (upd (iter upd j xi)) \/ has_nan (upd (iter upd j xi)))) /\
    (forall j, j < k -> ~ has_nan (r (iter upd j xi)) /\ ~ within tol (r (iter upd j xi)) /\
       (S j < k -> ~ has_nan (upd (iter upd j xi)) /\ ~ within tol (upd (iter upd j xi)))).
Proof.
  intros fuel xi res args consts J cond tol maxIter m timer printOut r upd Hm Hc Ht Hx Hf H1.
  destruct (tol_ok tol Ht) as (T1 & T2 & T3).
  destruct (C40_stops_partial pinv_dot lstsq (fun x d => Some (sub64 x d)) sub64 ones64 maxabs64 maxabs64 gt64 jac
    fuel xi res args consts J cond tol maxIter m timer printOut r upd Hm (fun _ _ => eq_refl) Hc Hf H1 (ones_gt tol xi Ht Hx))
    as (out & k & E & Hk & Hs & Hb).
  exists out, k. split; [exact E|]. split; [exact Hk|]. split.
  - intros Hlt. destruct Hs as [Hs|[Hs|(j & -> & Hs)]]; [|lia|].
    + apply maxabs64_stop in Hs; try assumption. destruct Hs as [Hs|Hs]; [right; left|left]; exact Hs.
    + apply maxabs64_stop in Hs; try assumption. right; right. exists j. split; [reflexivity|]. destruct Hs; [right|left]; assumption.
  - intros j Hj. destruct (Hb j Hj) as [Hr _]. apply maxabs64_gt in Hr; try assumption. destruct Hr as [Hr1 Hr2].
    split; [exact Hr1|]. split; [exact Hr2|]. intros Hj'. destruct (Hb (S j) Hj') as [_ Hd].
    specialize (Hd ltac:(lia)). replace (S j - 1) with j in Hd by lia. apply maxabs64_gt in Hd; assumption.
Qed.

(** A residual at the start with an entry that is not a number: NLLS returns the start after no
    iteration, as if it had converged. *)
Theorem C103_nan_residual_refuted : forall fuel xi res args consts J cond tol maxIter m timer printOut r upd,
  asked res J args m r upd -> good_consts args consts -> (maxIter <= Z.of_nat fuel)%Z -> 1 <= fuel ->
  has_nan (r xi) ->
  exists out, fst (nlls fuel xi res args consts J cond None tol maxIter m timer printOut) = NReturns (NResult xi 0 out).
Proof.
  intros fuel xi res args consts J cond tol maxIter m timer printOut r upd Hm Hc Hf H1 Hn.
  destruct (nlls_means pinv_dot lstsq (fun x d => Some (sub64 x d)) sub64 ones64 maxabs64 maxabs64 gt64 jac
    fuel xi res args consts J cond tol maxIter m timer printOut r upd Hm (fun _ _ => eq_refl) Hc Hf H1) as (k & [_ Hk] & out & E & _).
  exists out. destruct k as [|k]; [exact E|]. exfalso. apply (Hk 0); [lia|]. left. cbn [iterate]. apply gt64_nan. left. apply maxabs64_nan, Hn.
Qed.

(** A step with an entry that is not a number: NLLS stops after it, below its limit, and the unknown
    it returns there is not a number. *)
Theorem C103_nan_step_refuted : forall fuel xi res args consts J cond tol maxIter m timer printOut r upd,
  asked res J args m r upd -> good_consts args consts -> tolerance tol -> (2 <= maxIter <= Z.of_nat fuel)%Z -> 
  ~ has_nan (r xi) -> ~ within tol (r xi) ->
  forall i x s, nth_error xi i = Some x -> nth_error (upd xi) i = Some s -> nan s ->
  exists out xi' y, fst (nlls fuel xi res args consts J cond None tol maxIter m timer printOut) = NReturns (NResult xi' 1 out) /\
    nth_error xi' i = Some y /\ nan y.
Proof.
  intros fuel xi res args consts J cond tol maxIter m timer printOut r upd Hm Hc Ht Hf Hr1 Hr2 i x s Hx Hs Hn.
  destruct (tol_ok tol Ht) as (T1 & T2 & T3).
  destruct (nlls_means pinv_dot lstsq (fun x d => Some (sub64 x d)) sub64 ones64 maxabs64 maxabs64 gt64 jac
    fuel xi res args consts J cond tol maxIter m timer printOut r upd Hm (fun _ _ => eq_refl) Hc) as (k & [Hk0 Hk] & out & E & _); [lia|lia|].
  assert (k = 1).
  { destruct k as [|[|k]]; [exfalso|reflexivity|exfalso].
    - destruct Hk0 as [H|[H|H]]; cbn [iterate last_step] in H; [|lia|].
      + assert (gt64 (maxabs64 (r xi)) tol = true) by (apply maxabs64_gt; try assumption; split; assumption). congruence.
      + rewrite ones_gt in H; [discriminate|exact Ht|]. intros ->. destruct i; discriminate.
    - apply (Hk 1); [lia|]. right. right. cbn [last_step iterate]. apply gt64_nan. left. apply maxabs64_nan.
      exists s. split; [apply nth_error_In with i; exact Hs|exact Hn]. }
  subst k. destruct (sub64_nan xi (upd xi) i x s Hx Hs (or_intror Hn)) as (y & Hy & Hny).
  exists out, (iter upd 1 xi), y. split; [exact E|]. split; [exact Hy|exact Hny].
Qed.
End Claims.
Print Assumptions C103_early_partial.
Print Assumptions C103_nan_residual_refuted.
Print Assumptions C103_nan_step_refuted.

(** sqrt of a negative number, say, as the residual at the start 1.0: NLLS says it needed no iteration *)
Example C103_residual_case : exists out,
  fst (NLLS64 (fun _ d => d) (fun _ d => d) (fun _ _ => tt) 10 [o1 F64] (fun _ => [o1 F64; B754_nan]) [] [] None None None
        (B754_zero false) 10 Lstsq false false) = NReturns (NResult [o1 F64] 0 out).
Proof.
  apply (C103_nan_residual_refuted _ _ _ _ _ _ _ _ _ _ _ _ _ _ _ (fun _ => [o1 F64; B754_nan]) (fun _ => [o1 F64; B754_nan])).
  - split; [reflexivity|]. intros x. reflexivity.
  - split; constructor.
  - cbn; lia.
  - lia.
  - exists B754_nan. split; [right; left; reflexivity|reflexivity].
Qed.
(** a singular Jacobian whose solution is not a number *)
Example C103_step_case : exists out xi' y,
  fst (NLLS64 (fun _ _ => [B754_nan]) (fun _ _ => [B754_nan]) (fun _ _ => tt) 10 [o1 F64] (fun _ => [o1 F64]) [] [] None None None
        (B754_zero false) 10 Pinv true false) = NReturns (NResult xi' 1 out) /\ nth_error xi' 0 = Some y /\ nan y.
Proof.
  apply (C103_nan_step_refuted _ _ _ _ _ _ _ _ _ _ _ _ _ _ _ (fun _ => [o1 F64]) (fun _ => [B754_nan])) with (x := o1 F64) (s := B754_nan); try reflexivity.
  - split; [reflexivity|]. intros x. reflexivity.
  - split; constructor.
  - split; [reflexivity|]. cbn. lra.
  - cbn; lia.
  - intros (x & [<-|[]] & H). discriminate H.
  - intros H. destruct (H (o1 F64)) as [_ [H'|(_ & _ & H')]]; [left; reflexivity|discriminate|]. rewrite one_val, Rabs_R1 in H'. cbn in H'. lra.
Qed.
