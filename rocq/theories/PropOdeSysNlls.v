(** C108, the whole of NLLS: systems of linear differential equations with a TFCDict of unknowns. *)
From Coq Require Import ZArith Lia Reals Lra Sorting.Sorted.
From mathcomp Require Import all_ssreflect all_algebra.
From Verif Require Import Base ModelDict SpecDict ProofDict ModelPe SpecPe ModelSolve ModelSolveDict SpecSolveDict
  ModelAffine SpecAffine ModelAffineDict SpecAffineDict ProofAffineDict ModelNllsDict SpecNllsDict ProofNllsDict PropNllsDict.
From Verif Require Import RealStruct ModelOdeSys SpecOdeSys ProofOdeSys PropOdeSys.
Set Implicit Arguments.
Unset Strict Implicit.
Unset Printing Implicit Defensive.
Import GRing.Theory Num.Theory.
Local Open Scope ring_scope.

(** From any unknowns whose residual is not small already, NLLS returns after one or two iterations
    the family of functions that fits the equations best; if an allowed family solves them at their
    points, so does the one NLLS gives. *)
Theorem C108_nlls : forall jvp (K : Type) (keq : K -> K -> bool) fs eqs E jacfwd res h (d : @tdict R K) c s tol maxIter timer printOut fuel,
  keq_ok keq -> fresh d_refresh h d -> contents h d = Some c -> c <> [::] -> List.Forall (fun p => is1d (snd p)) c ->
  system jvp fs eqs c E -> (forall c', same_form c c' -> residualS jvp keq c' fs eqs = Some (res c')) -> differentiatesS jacfwd c ->
  (0 < size (packed c))%N -> valid_method s -> Rle 0 tol -> Rlt tol 1 -> Z.le 1 maxIter -> Z.le maxIter (Z.of_nat fuel) ->
  (exists r, List.In r (res c) /\ Rlt tol (Rabs r)) ->
  exists c' k out y,
    fst (dNLLS keq Plain (1 : R_realFieldType) Rminus (@l_solve R_realFieldType) (@l_maxabs R_realFieldType) (@v_gt R_realFieldType) jacfwd fuel h d
           (fun l : seq (dvalue R K unit) => if l is DUnk c' :: _ then res c' else [::]) [::] [::] None tol maxIter s timer printOut)
      = NReturns (NResult (DUnk c') (Z.of_nat k) out) /\ (0 < k <= 2)%N /\ same_form c c' /\
    curvesS jvp keq c' fs E y /\ allowed jvp fs y /\
    (forall p, allowed jvp fs p -> Rle (misfitS eqs y) (misfitS eqs p)) /\
    ((exists p, allowed jvp fs p /\ forall e, List.In e eqs -> solves_eqn p e) -> forall e, List.In e eqs -> solves_eqn y e).
Proof.
move=> jvp K keq fs eqs E jacfwd res h d c s tol maxIter timer printOut fuel Hk Hf Hc Hne H1 HS Hr Hj Hp Hs Ht0 Ht1 HM1 HM2 [r [Hr1 Hr2]].
have Hnd : List.NoDup (List.map fst (td_items d)) := fresh_keys _ _ _ Hf.
have Hn : List.NoDup (List.map fst c) by have [_ <-] := contents_ld _ _ _ Hc.
have [m [M [b Ha]]] := sys_affine Hk Hn HS Hr Hj.
have He : @entries_ok R_realFieldType K Plain c by split.
have HF : Peano.le 1 fuel by lia.
have Ht : 0 <= (tol : R_realFieldType) by apply/RlebP.
pose res1 := (fun l : seq (dvalue R K unit) => if l is DUnk c' :: _ then res c' else [::]).
have [c' [k [out [EE [Hk2 [Fc [Hpos Hb]]]]]]] := @C109_affine R_realFieldType K unit keq Plain jacfwd m h d c [::] res1 M b [::] s tol maxIter timer printOut fuel
  Hk Hnd Hc He Ha Hs (Sorting.Sorted.SSorted_nil _) (List.Forall_nil _) Ht HM2 HF.
have Hk0 : (0 < k)%N.
  apply: Hpos => //; first by apply/RltbP.
  exists r; last by apply/RltbP.
  move: Hr1 => /=; elim: (res c) => //= x l IH [->|Hi]; rewrite inE; [by rewrite eqxx|by rewrite IH ?orbT].
have {}Hb := Hb Hk0.
have [Hcu [Hal _]] := sys_curves Hk Hn HS Fc.
have [B1 B2] := sys_best Hk Hn HS Hr Fc Hb.
exists c', k, out, (Yc jvp keq c' fs); split; first exact: EE.
by rewrite Hk0 Hk2.
Qed.
Print Assumptions C108_nlls.
