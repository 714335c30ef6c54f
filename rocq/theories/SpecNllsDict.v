(** When a residual of a dictionary and a residual of a column vector are the same function of the
    packed unknowns, and when two runs of NLLS have the same outcome. *)
From Coq Require Import ZArith.
From mathcomp Require Import all_ssreflect all_algebra.
From Verif Require Import Base ModelDict SpecDict SpecSolveDict ModelSolve ModelAffine ModelNllsDict.
Set Implicit Arguments.
Unset Strict Implicit.
Unset Printing Implicit Defensive.
Import GRing.Theory.
Local Open Scope ring_scope.

Section Spec.
Variables (F : realFieldType) (K Ar : Type) (m n : nat).
Notation view := (seq (K * @arr F)). Notation dv := (dvalue F K Ar). Notation vv := (value F Ar n).

(** all entries, in order, as a column *)
Definition pack (c : view) : 'cV[F]_n := \col_i nth 0 (packed c) i.
Definition dargs (args : seq Ar) : seq dv := [seq DArg a | a <- args].
Definition vargs (args : seq Ar) : seq vv := [seq Arg a | a <- args].
(** the residual of the vector is that of every dictionary of the form of [c] with these entries *)
Definition same_residual (c : view) (args : seq Ar) (res : seq dv -> seq F) (vres : seq vv -> 'cV[F]_m) : Prop :=
  forall c', same_form c c' -> size (res (DUnk c' :: dargs args)) = m /\
    vres (Unk (pack c') :: vargs args) = \col_i nth 0 (res (DUnk c' :: dargs args)) i.
(** row [r] of the derivatives, for the entries in order *)
Definition derivatives (D : nat -> K -> nat -> F) (c : view) (r : nat) : seq F :=
  seq.flatten [seq [seq D r p.1 j | j <- iota 0 (size (a_data p.2))] | p <- c].
(** automatic differentiation of the two finds the same derivatives, or the caller's Jacobians are
    the same matrix *)
Definition same_jacobian (jacfwd : (view -> seq F) -> view -> view) (jac : (seq vv -> 'cV[F]_m) -> seq vv -> 'M[F]_(m, n))
    (c : view) (args : seq Ar) (res : seq dv -> seq F) (vres : seq vv -> 'cV[F]_m)
    (J : option (seq dv -> option (@arr F))) (vJ : option (seq vv -> 'M[F]_(m, n))) : Prop :=
  forall c', same_form c c' ->
  match J, vJ with
  | None, None =>
      exists D, jac_of m D c' (jacfwd (fun v => res (DUnk v :: dargs args)) c') /\
        jac vres (Unk (pack c') :: vargs args) = \matrix_(i, j) nth 0 (derivatives D c' i) j
  | Some f, Some g =>
      exists l, f (DUnk c' :: dargs args) = Some (Arr_ [:: m; n] l) /\
        g (Unk (pack c') :: vargs args) = \matrix_(i, j) nth 0 l (i * n + j)
  | _, _ => False
  end.
(** The unknowns of the dictionary have the form of [c] and are those of the vector; the iteration
    counts and the printed lines are the same; or both raise, or both are still running. *)
Definition same_outcome (c : view) (o : nlls_outcome (U := dv) (T := F)) (v : nlls_outcome (U := vv) (T := F)) : Prop :=
  match o, v with
  | NReturns (NResult (DUnk c') it out), NReturns (NResult (Unk x) it' out') =>
      same_form c c' /\ x = pack c' /\ it = it' /\ out = out'
  | NRaises, NRaises | NRunning, NRunning => True
  | _, _ => False
  end.
(** dictionaries the class packs correctly *)
Definition entries_ok (cl : ModelSolveDict.class) (c : view) : Prop :=
  c <> [::] /\
  match cl with
  | ModelSolveDict.Plain => List.Forall (fun p => is1d (snd p)) c
  | ModelSolveDict.Robust => List.Forall (fun p => wf (snd p) /\ a_shape (snd p) <> [::]) c
  end.
End Spec.
Arguments dargs {F K Ar} args.
Arguments vargs {F Ar n} args.
