(** Two runs of the NLLS loop on related unknowns have related outcomes. *)
From Coq Require Import List Bool ZArith.
From Verif Require Import Base ModelPe ModelSolve.
Import ListNotations.

Section Sim.
Context {U1 V1 D1 U2 V2 D2 T : Type}.
Context (sub1 : U1 -> D1 -> option U1) (ones1 : U1 -> D1) (mv1 : V1 -> T) (md1 : D1 -> T).
Context (sub2 : U2 -> D2 -> option U2) (ones2 : U2 -> D2) (mv2 : V2 -> T) (md2 : D2 -> T).
Context (gt : T -> T -> bool).
Context (RU : U1 -> U2 -> Prop).
Context (ls1 : list U1 -> option D1) (res1 : list U1 -> option V1) (a1 : list U1).
Context (ls2 : list U2 -> option D2) (res2 : list U2 -> option V2) (a2 : list U2).
Hypothesis Hres : forall x1 x2, RU x1 x2 ->
  exists r1 r2, res1 (x1 :: a1) = Some r1 /\ res2 (x2 :: a2) = Some r2 /\ mv1 r1 = mv2 r2.
Hypothesis Hls : forall x1 x2, RU x1 x2 ->
  exists d1 d2 y1 y2, ls1 (x1 :: a1) = Some d1 /\ ls2 (x2 :: a2) = Some d2 /\
    sub1 x1 d1 = Some y1 /\ sub2 x2 d2 = Some y2 /\ RU y1 y2 /\ md1 d1 = md2 d2.
Hypothesis Hones : forall x1 x2, RU x1 x2 -> md1 (ones1 x1) = md2 (ones2 x2).

Definition RN (v1 : nval (U := U1) (D := D1) (T := T)) (v2 : nval (U := U2) (D := D2) (T := T)) : Prop :=
  RU (v_xi v1) (v_xi v2) /\ md1 (v_dxi v1) = md2 (v_dxi v2) /\ v_it v1 = v_it v2 /\ v_out v1 = v_out v2.
Definition RL (l1 : looped (U := U1) (D := D1) (T := T)) (l2 : looped (U := U2) (D := D2) (T := T)) : Prop :=
  match l1, l2 with
  | Returns v1, Returns v2 => RN v1 v2
  | Raises, Raises | Running, Running => True
  | _, _ => False
  end.
Definition RO (o1 : nlls_outcome (U := U1) (T := T)) (o2 : nlls_outcome (U := U2) (T := T)) : Prop :=
  match o1, o2 with
  | NReturns r1, NReturns r2 => RU (n_xi r1) (n_xi r2) /\ n_it r1 = n_it r2 /\ n_out r1 = n_out r2
  | NRaises, NRaises | NRunning, NRunning => True
  | _, _ => False
  end.
Lemma loop_sim tol maxIter printOut fuel : forall v1 v2, RN v1 v2 ->
  RL (nlls_loop sub1 mv1 md1 gt fuel ls1 res1 None tol maxIter printOut a1 v1)
     (nlls_loop sub2 mv2 md2 gt fuel ls2 res2 None tol maxIter printOut a2 v2).
Proof.
  unfold nlls_loop. cbv beta iota zeta.
  induction fuel as [|fuel IH]; intros v1 v2 (H1 & H2 & H3 & H4); cbn [while_].
  - destruct (Hres _ _ H1) as (r1 & r2 & E1 & E2 & E). unfold cond_. rewrite E1, E2. cbn [bind]. rewrite E, H2, H3.
    destruct (_ && _); cbn; [exact I|]. repeat split; assumption.
  - destruct (Hres _ _ H1) as (r1 & r2 & E1 & E2 & E). unfold cond_ at 1. rewrite E1. cbn [bind]. unfold cond_ at 2. rewrite E2. cbn [bind]. rewrite E, H2, H3.
    destruct (_ && _); [|repeat split; assumption].
    destruct (Hls _ _ H1) as (d1 & d2 & y1 & y2 & L1 & L2 & S1 & S2 & HY & HD).
    unfold body_ at 1. rewrite L1. cbn [bind]. rewrite S1. cbn [bind].
    unfold body_ at 2. rewrite L2. cbn [bind]. rewrite S2. cbn [bind].
    destruct printOut.
    + destruct (Hres _ _ HY) as (q1 & q2 & F1 & F2 & F). rewrite F1, F2. cbn [bind]. apply IH.
      repeat split; cbn; try assumption; congruence.
    + apply IH. repeat split; cbn; try assumption; congruence.
Qed.
Lemma run_sim tol maxIter printOut warm fuel x1 x2 : RU x1 x2 ->
  RO (nlls_run sub1 ones1 mv1 md1 gt fuel ls1 res1 None tol maxIter printOut warm a1 x1)
     (nlls_run sub2 ones2 mv2 md2 gt fuel ls2 res2 None tol maxIter printOut warm a2 x2).
Proof.
  intros HX. unfold nlls_run. cbv zeta.
  assert (G : forall it o, RN (NVal x1 (ones1 x1) it o) (NVal x2 (ones2 x2) it o)) by (intros; repeat split; cbn; auto).
  assert (H : forall o,
    RO (match nlls_loop sub1 mv1 md1 gt fuel ls1 res1 None tol maxIter printOut a1 (NVal x1 (ones1 x1) 0%Z o) with
        | Returns v => NReturns (NResult (v_xi v) (v_it v) (v_out v)) | Raises => NRaises | Running => NRunning end)
       (match nlls_loop sub2 mv2 md2 gt fuel ls2 res2 None tol maxIter printOut a2 (NVal x2 (ones2 x2) 0%Z o) with
        | Returns v => NReturns (NResult (v_xi v) (v_it v) (v_out v)) | Raises => NRaises | Running => NRunning end)).
  { intros o. pose proof (loop_sim tol maxIter printOut fuel _ _ (G 0%Z o)) as L.
    destruct (nlls_loop sub1 _ _ _ _ _ _ _ _ _ _ _ _), (nlls_loop sub2 _ _ _ _ _ _ _ _ _ _ _ _); try contradiction L; [|exact I..].
    destruct L as (L1 & _ & L3 & L4). repeat split; assumption. }
  destruct warm; [|apply H].
  pose proof (loop_sim tol maxIter printOut fuel _ _ (G (maxIter - 1)%Z [])) as L.
  destruct (nlls_loop sub1 _ _ _ _ _ _ _ _ _ _ _ (NVal x1 (ones1 x1) (maxIter - 1)%Z [])),
    (nlls_loop sub2 _ _ _ _ _ _ _ _ _ _ _ (NVal x2 (ones2 x2) (maxIter - 1)%Z [])); try contradiction L; [|exact I..].
  destruct L as (_ & _ & _ & L4). rewrite L4. apply H.
Qed.
End Sim.
