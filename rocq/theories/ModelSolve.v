(** The least-squares solvers LS, LsClass, NLLS and NllsClass (utils/TFCUtils.py 766-1041,
    1086-1523).

    All values passed around (unknowns and further arguments) have one type [U]; a residual
    or Jacobian function takes the list of its arguments, the unknowns first.  Simplifications:
    [jit] does not change values; automatic differentiation, the linear-algebra routines, the
    arithmetic of the unknowns and the comparison are parameters (instantiated in
    ModelAffine.v and ModelSolveDict.v); the clock is not modelled, only what a timed call
    does besides; lines printed through [io_callback] appear in program order. *)
From Coq Require Import List Bool ZArith.
From Verif Require Import Base ModelPe.
Import ListNotations.

Section Solve.
Context {U V D M T : Type}.
(** [np.dot(np.linalg.pinv(J), r)] and [np.linalg.lstsq(J, r, rcond=None)[0]] *)
Context (pinv_dot lstsq : M -> V -> D).
Context (opp : V -> V).                         (* [-res] *)
(** [zXi += d], [xi -= d]; [None] when it raises *)
Context (addX subX : U -> D -> option U).
Context (zeros : U -> U).                       (* zerosRobust, 141-161 *)
Context (ones : U -> D).                        (* [np.ones_like] of the packed unknowns *)
Context (maxabsV : V -> T) (maxabsD : D -> T).  (* [np.max(np.abs( . ))] *)
Context (gt : T -> T -> bool).                  (* [ > ] *)
(** [jacfwd(res, 0)] put into one matrix, 835-850 *)
Context (jac : (list U -> V) -> list U -> M).
(** whether [x += d] changes the object [x] itself (dictionaries) or makes a new one *)
Context (inplace : U -> bool).

Inductive method_ := Pinv | Lstsq | OtherMethod.
(** 852-857 and 1215-1220; an unknown method exits the program *)
Definition solve_fun (m : method_) : option (M -> V -> D) :=
  match m with Pinv => Some pinv_dot | Lstsq => Some lstsq | OtherMethod => None end.

(** ** LS, 766-886 *)
Definition ls_closure (res : list U -> V) (J : option (list U -> M)) (s : M -> V -> D) : list U -> D :=
  let Jf := match J with Some j => j | None => jac res end in
  fun l => s (Jf l) (opp (res l)).
(** the result and the caller's [constant_arg_nums] afterwards *)
Definition LS (zXi : U) (res : list U -> V) (args : list U) (consts : list nat)
    (J : option (list U -> M)) (m : method_) (timer : bool) : option (U * list nat) :=
  s <- solve_fun m ;;
  w <- wire zXi args consts (ls_closure res J s) ;;          (* 859-867 *)
  let z := zeros zXi in                                      (* 870 *)
  if timer then
    _ <- wired_eval w z ;;                                   (* 876: warm-up *)
    xi <- wired_eval w z ;;                                  (* 879 *)
    r <- addX z xi ;; Some (r, w_consts w)                   (* 881 *)
  else
    xi <- wired_eval w z ;; r <- addX z xi ;; Some (r, w_consts w).   (* 885 *)

(** ** LsClass, 889-1041 *)
Record lsobj := LsObj { lo_ls : list U -> option D; lo_timer : bool; lo_compiled : bool }.
(** __init__, 896-998; also the caller's list afterwards *)
Definition LsClass_init (zXi : U) (res : list U -> V) (args : list U) (consts : list nat)
    (J : option (list U -> M)) (m : method_) (timer : bool) : option (lsobj * list nat) :=
  s <- solve_fun m ;;
  w <- wire zXi args consts (ls_closure res J s) ;;
  Some (LsObj (w_fun w) timer false, w_consts w).
(** run, 1000-1041: the result, the value the caller's [zXi] has afterwards, and the object.
    Without the timer the name [ls] is undefined and the call raises. *)
Definition LsClass_run (o : lsobj) (zXi : U) (args : list U) : option (U * U * lsobj) :=
  if lo_timer o then
    _ <- (if lo_compiled o then Some tt else _ <- lo_ls o (zXi :: args) ;; Some tt) ;;   (* 1026-1028 *)
    xi <- lo_ls o (zXi :: args) ;;                                                       (* 1031 *)
    r <- addX zXi xi ;;                                                                  (* 1033 *)
    Some (r, if inplace zXi then r else zXi, LsObj (lo_ls o) true true)
  else None.

(** ** NLLS, 1086-1285 *)
Record nval := NVal { v_xi : U; v_dxi : D; v_it : Z; v_out : list (Z * T) }.
(** [lax.while_loop]: result, exception, or still running after [fuel] iterations *)
Inductive looped := Returns (v : nval) | Raises | Running.
Fixpoint while_ (fuel : nat) (cond : nval -> option bool) (body : nval -> option nval) (v : nval) : looped :=
  match cond v with
  | None => Raises
  | Some false => Returns v
  | Some true =>
      match fuel with
      | O => Running
      | S fuel => match body v with None => Raises | Some v' => while_ fuel cond body v' end
      end
  end.
(** the default condition, 1184-1193.  It replaces the caller's [cond] unconditionally. *)
Definition cond_ (res : U -> option V) (tol : T) (maxIter : Z) (v : nval) : option bool :=
  r <- res (v_xi v) ;;
  Some (gt (maxabsV r) tol && (v_it v <? maxIter)%Z && gt (maxabsD (v_dxi v)) tol).
(** the default body, 1233-1255 *)
Definition body_ (ls : U -> option D) (res : U -> option V) (printOut : bool) (v : nval) : option nval :=
  d <- ls (v_xi v) ;;
  x <- subX (v_xi v) d ;;
  if printOut then
    r <- res x ;; Some (NVal x d (v_it v + 1) (v_out v ++ [(v_it v, maxabsV r)]))
  else Some (NVal x d (v_it v + 1) (v_out v)).
Definition nlls_closure (res : list U -> V) (J : option (list U -> M)) (s : M -> V -> D) : list U -> D :=
  let Jf := match J with Some j => j | None => jac res end in
  fun l => s (Jf l) (res l).

(** The compiled loop as a function of the remaining arguments. *)
Definition nlls_loop (fuel : nat) (ls : list U -> option D) (res : list U -> option V)
    (body : option (nval -> option nval)) (tol : T) (maxIter : Z) (printOut : bool)
    (args : list U) (v : nval) : looped :=
  let f {A} (g : list U -> option A) x := g (x :: args) in
  while_ fuel (cond_ (f res) tol maxIter)
    (match body with Some b => b | None => body_ (f ls) (f res) printOut end) v.

(** Everything the caller observes: the unknowns, the iteration count, the lines printed. *)
Record nresult := NResult { n_xi : U; n_it : Z; n_out : list (Z * T) }.
Inductive nlls_outcome := NReturns (r : nresult) | NRaises | NRunning.
(** the run itself, 1266-1285 (and NllsClass.run, 1495-1523, where [warm] also depends on
    [_compiled]): a warm-up from [it = maxIter - 1] whose result is discarded, then the loop *)
Definition nlls_run (fuel : nat) ls res body tol maxIter printOut (warm : bool) args (xiInit : U) : nlls_outcome :=
  let start it out := NVal xiInit (ones xiInit) it out in
  let go out :=
    match nlls_loop fuel ls res body tol maxIter printOut args (start 0%Z out) with
    | Returns v => NReturns (NResult (v_xi v) (v_it v) (v_out v))
    | Raises => NRaises | Running => NRunning
    end in
  if warm then
    match nlls_loop fuel ls res body tol maxIter printOut args (start (maxIter - 1)%Z []) with
    | Returns v => go (v_out v)
    | Raises => NRaises | Running => NRunning
    end
  else go [].
(** [cond] is the caller's condition function: unused, as in the code. *)
Definition NLLS (fuel : nat) (xiInit : U) (res : list U -> V) (args : list U) (consts : list nat)
    (J : option (list U -> M)) (cond : option (nval -> bool)) (body : option (nval -> option nval))
    (tol : T) (maxIter : Z) (m : method_) (timer printOut : bool) : nlls_outcome * list nat :=
  match solve_fun m with
  | None => (NRaises, consts)
  | Some s =>
      match wire xiInit args consts (nlls_closure res J s), wire xiInit args consts res with  (* 1222-1231 *)
      | Some wl, Some wr =>
          (nlls_run fuel (w_fun wl) (w_fun wr) body tol maxIter printOut timer (w_args wl) xiInit, w_consts wl)
      | _, _ => (NRaises, consts)
      end
  end.

(** ** NllsClass, 1288-1523 *)
Record nllsobj := NllsObj { no_ls : list U -> option D; no_res : list U -> option V;
  no_body : option (nval -> option nval); no_tol : T; no_maxIter : Z; no_printOut : bool;
  no_timer : bool; no_compiled : bool }.
Definition NllsClass_init (xiInit : U) (res : list U -> V) (args : list U) (consts : list nat)
    (J : option (list U -> M)) (cond : option (nval -> bool)) (body : option (nval -> option nval))
    (tol : T) (maxIter : Z) (m : method_) (timer printOut : bool) : option nllsobj :=
  s <- solve_fun m ;;
  wl <- wire xiInit args consts (nlls_closure res J s) ;;
  wr <- wire xiInit args consts res ;;
  Some (NllsObj (w_fun wl) (w_fun wr) body tol maxIter printOut timer false).
Definition NllsClass_run (fuel : nat) (o : nllsobj) (xiInit : U) (args : list U) : nlls_outcome * nllsobj :=
  (nlls_run fuel (no_ls o) (no_res o) (no_body o) (no_tol o) (no_maxIter o) (no_printOut o)
            (no_timer o && negb (no_compiled o)) args xiInit,
   NllsObj (no_ls o) (no_res o) (no_body o) (no_tol o) (no_maxIter o) (no_printOut o) (no_timer o) true).
End Solve.
