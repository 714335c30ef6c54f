(** What a CeSolver should answer, without caches; linear operators. *)
From mathcomp Require Import all_ssreflect all_algebra.
From Verif Require Import ModelCe.
Set Implicit Arguments.
Unset Strict Implicit.
Unset Printing Implicit Defensive.
Import GRing.Theory.
Local Open Scope ring_scope.

Section Spec.
Variable E : comUnitRingType.
Notation smx := (@smx E).

(** ** An object that stores its inputs and what the user put in place of computed values *)
Record abs := Abs { a_C : seq (E -> E); a_K : seq E; a_s : seq E; a_g : E; a_phi : option smx; a_ce : option E }.
Definition v_S (a : abs) : smx :=
  if a_C a is [::] then Smx (0 : 'M[E]_(0, 0))
  else Smx (\matrix_(i < size (a_C a), j < size (a_s a)) (nth id (a_C a) i) (nth 0 (a_s a) j)).
Definition v_alpha (a : abs) : option smx := s_inv (v_S a).
Definition v_phi (a : abs) : option smx :=
  if a_phi a is Some p then Some p else obind (s_mul (s_tr (s_col (a_s a)))) (v_alpha a).
Definition v_rho (a : abs) : option smx :=
  if (size (a_K a) <= size (a_C a))%N then Some (s_col (mkseq (fun k => nth 0 (a_K a) k - (nth id (a_C a) k) (a_g a)) (size (a_K a)))) else None.
Definition v_ce (a : abs) : option E :=
  if a_ce a is Some v then Some v
  else obind (fun p => obind (fun r => omap (fun x => a_g a + x) (obind (@s_first E) (s_mul p r))) (v_rho a)) (v_phi a).
(** the numbers, from 1, of the constraints an expression fails *)
Definition failing (a : abs) (ce : E) : seq nat :=
  [seq k.+1 | k <- iota 0 (minn (size (a_C a)) (size (a_K a))) & (nth id (a_C a) k) ce != nth 0 (a_K a) k].
Definition v_check (a : abs) : option (bool * seq nat) :=
  if minn (size (a_C a)) (size (a_K a)) == 0%N then Some (true, [::])
  else omap (fun ce => (nilp (failing a ce), failing a ce)) (v_ce a).

(** Assigning an input drops the replacements that depended on it; assigning phi drops that of ce. *)
Definition a_step (a : abs) (o : ce_op E) : abs * ce_out E :=
  match o with
  | GetCe => (a, OExpr (v_ce a))
  | GetPhi => (a, OMat (v_phi a))
  | GetAlpha => (a, OMat (v_alpha a))
  | GetS => (a, OMat (Some (v_S a)))
  | GetRho => (a, OMat (v_rho a))
  | GetInputs => (a, OInputs (a_C a) (a_K a) (a_s a) (a_g a))
  | Check => (a, OCheck E (v_check a))
  | SetCe v => (Abs (a_C a) (a_K a) (a_s a) (a_g a) (a_phi a) (Some v), ONone _)
  | SetPhi v => (Abs (a_C a) (a_K a) (a_s a) (a_g a) (Some v) None, ONone _)
  | SetSup v => (Abs (a_C a) (a_K a) v (a_g a) None None, ONone _)
  | SetKappa v => (Abs (a_C a) v (a_s a) (a_g a) (a_phi a) None, ONone _)
  | SetC v => (Abs v (a_K a) (a_s a) (a_g a) None None, ONone _)
  | SetG v => (Abs (a_C a) (a_K a) (a_s a) v (a_phi a) None, ONone _)
  end.
Fixpoint a_run (a : abs) (os : seq (ce_op E)) : seq (ce_out E) :=
  if os is o :: os' then let (a', r) := a_step a o in r :: a_run a' os' else [::].

(** phi is assigned only while ce has not been used: [used] says whether ce has been read, checked or
    assigned since the last assignment of an input *)
Fixpoint phi_first (used : bool) (os : seq (ce_op E)) : bool :=
  match os with
  | [::] => true
  | o :: os' =>
      match o with
      | GetCe | Check | SetCe _ => phi_first true os'
      | SetPhi _ => ~~ used && phi_first false os'
      | SetSup _ | SetKappa _ | SetC _ | SetG _ => phi_first false os'
      | _ => phi_first used os'
      end
  end.

(** ** Linear operators *)
(** [c] is additive, and multiplication by the elements of [Sc] (numbers; functions of other variables) passes through *)
Definition lin_over (Sc : {pred E}) (c : E -> E) : Prop :=
  (forall x y, c (x + y) = c x + c y) /\ (forall x a, a \in Sc -> c (x * a) = c x * a).
(** the constraints [C_i u = kappa_i] *)
Definition satisfies (C : seq (E -> E)) (K : seq E) (u : E) : Prop :=
  forall i, (i < size C)%N -> (nth id C i) u = nth 0 K i.
Definition support (C : seq (E -> E)) (s : seq E) : 'M[E]_(size C) := \matrix_(i, j) (nth id C i) (nth 0 s j).
(** what reading [ce] of a new object gives *)
Definition expression (C : seq (E -> E)) (K s : seq E) (g : E) : option E := (get_ce (ce_init C K s g)).2.
End Spec.
