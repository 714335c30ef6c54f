(** NLLS and NllsClass on a TFCDict or TFCDictRobust of unknowns, the whole loop (utils/TFCUtils.py
    1176-1285, 1403-1523): ModelSolve.v with the dictionary operations of ModelSolveDict.v and
    ModelDict.v.

    The compiled loop passes its state from one iteration to the next as a tree of jax arrays:
    a dictionary is taken apart into its keys and arrays and built again by its class (526-531,
    733-738).  So the unknowns are the keys and arrays, in order, and [xi -= dxi] works on a
    dictionary newly built of jax arrays.  What raises inside a matrix or step is carried as
    [None] to the subtraction, which is the next thing done with it. *)
From Coq Require Import List Arith Bool ZArith.
From Verif Require Import Base ModelDict SpecDict ModelPe ModelSolve ModelSolveDict.
Import ListNotations.

Section NllsDict.
Context {T K Ar : Type} (keq : K -> K -> bool) (cl : class) (one : T) (sub : T -> T -> T)
  (solve : @arr T -> list T -> list T) (maxabs : list T -> T) (gt : T -> T -> bool).
Notation arr := (@arr T). Notation view := (list (K * @ModelDict.arr T)).
Context (jacfwd : (view -> list T) -> view -> view).

(** the unknowns, or another argument *)
Inductive dvalue := DUnk (c : view) | DArg (a : Ar).
(** [tree_unflatten] of keys and jax arrays, 530 and 737 *)
Definition rebuild (c : view) : option (@tdict T K) := c_new keq cl [] (map (fun p => (fst p, Jax (snd p))) c).
(** [val["xi"] -= val["dxi"]], 1238 and 1250; then taken apart *)
Definition d_sub (u : dvalue) (dxi : option (list T)) : option dvalue :=
  l <- dxi ;;
  match u with
  | DUnk c =>
      d <- rebuild c ;;
      match c_iop keq cl sub [] d (OJax (flat l)) with
      | (h, r, Done) => c' <- contents h r ;; Some (DUnk c')
      | (_, _, Raised) => None
      end
  | DArg a => Some (DArg a)
  end.
(** [np.dot(np.linalg.pinv(J), r)] and [np.linalg.lstsq(J, r)[0]], 1215-1220 *)
Definition d_solve (J : option arr) (r : list T) : option (list T) := j <- J ;; Some (solve j r).
(** the default [J], 1195-1213; [jacfwd(res, 0)] differentiates in the first argument *)
Definition d_jac (res : list dvalue -> list T) (l : list dvalue) : option arr :=
  match l with
  | DUnk c :: args => c_J keq cl (jacfwd (fun c' => res (DUnk c' :: args)) c) c
  | _ => None
  end.
(** [np.ones_like(xiInit.toArray())], 1259-1260 *)
Definition d_ones (u : dvalue) : option (list T) :=
  match u with DUnk c => Some (repeat one (length (packed c))) | DArg _ => None end.
Definition d_maxabs (d : option (list T)) : T := match d with Some l => maxabs l | None => maxabs [] end.
(** toArray of the class, which raises for an empty dictionary *)
Definition c_toArray (h : @heap T) (d : @tdict T K) : option arr :=
  match cl with Plain => d_toArray h d | Robust => r_toArray h d end.

(** NLLS, 1086-1285.  Without a body of the caller's. *)
Definition dNLLS (fuel : nat) (h : @heap T) (d : @tdict T K) (res : list dvalue -> list T) (args : list dvalue)
    (consts : list nat) (J : option (list dvalue -> option arr)) (tol : T) (maxIter : Z) (m : method_) (timer printOut : bool) :=
  match contents h d, c_toArray h d with
  | Some c, Some _ =>
      NLLS d_solve d_solve d_sub d_ones maxabs d_maxabs gt d_jac fuel (DUnk c) res args consts J None None tol maxIter m timer printOut
  | _, _ => (NRaises, consts)
  end.
(** NllsClass, 1288-1523: making the object and calling its [run] *)
Definition dNllsClass_init (h : @heap T) (d : @tdict T K) (res : list dvalue -> list T) (args : list dvalue)
    (consts : list nat) (J : option (list dvalue -> option arr)) (tol : T) (maxIter : Z) (m : method_) (timer printOut : bool) :=
  c <- contents h d ;;
  NllsClass_init (U := dvalue) d_solve d_solve d_jac (DUnk c) res args consts J None None tol maxIter m timer printOut.
Definition dNllsClass_run (fuel : nat) o (h : @heap T) (d : @tdict T K) (args : list dvalue) :=
  match contents h d, c_toArray h d with
  | Some c, Some _ => fst (NllsClass_run d_sub d_ones maxabs d_maxabs gt fuel o (DUnk c) args)
  | _, _ => NRaises
  end.
End NllsDict.
Arguments dvalue : clear implicits.
Arguments DUnk {T K Ar} c.
Arguments DArg {T K Ar} a.

From mathcomp Require Import all_ssreflect all_algebra.
Import GRing.Theory Num.Theory.
(** [np.max(np.abs(l))] in exact arithmetic *)
Definition l_maxabs (F : realFieldType) (l : seq F) : F := foldr Order.max 0%R [seq `|x|%R | x <- l].
Arguments l_maxabs {F} l.
