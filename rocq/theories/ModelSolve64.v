(** NLLS on arrays of doubles (utils/TFCUtils.py 1086-1285).  The residual, the Jacobian and the two
    ways to solve for a step are any functions; what is modelled in binary64 is the loop: the maximum
    of the absolute values, the comparisons with the tolerance, and the subtraction of the step.
    Simplification: the step has one entry for each unknown. *)
From Coq Require Import List Bool ZArith.
From Flocq Require Import Core BinarySingleNaN.
From Verif Require Import Base Numbers64 ModelSolve.
Import ListNotations.

(** IEEE [ > ], false when an operand is NaN; lines 1190, 1192 *)
Definition gt64 (x y : f64) : bool := match Bcompare x y with Some Gt => true | _ => false end.
(** the maximum of two numbers as XLA computes it: NaN if one is *)
Definition max64 (x y : f64) : f64 := if is_nan x then x else if is_nan y then y else if gt64 y x then y else x.
(** [np.max(np.abs( . ))]: a reduction that starts from minus infinity; lines 1190, 1192, 1247 *)
Definition maxabs64 (l : list f64) : f64 := fold_left (fun m x => max64 m (Babs x)) l (B754_infinity true).
(** [val["xi"] - dxi]; line 1238 *)
Definition sub64 (x d : list f64) : list f64 := map (fun p => Bminus mode_NE (fst p) (snd p)) (combine x d).
(** [np.ones_like]; line 1271 *)
Definition ones64 (x : list f64) : list f64 := map (fun _ => o1 F64) x.
(** NLLS; lines 1086-1285 *)
Definition NLLS64 {M : Type} (pinv_dot lstsq : M -> list f64 -> list f64) (jac : (list (list f64) -> list f64) -> list (list f64) -> M) :=
  NLLS pinv_dot lstsq (fun x d => Some (sub64 x d)) ones64 maxabs64 maxabs64 gt64 jac.
