(** How LS and NLLS treat dictionaries of unknowns (utils/TFCUtils.py 827-848, 870-886 and
    1195-1213, 1233-1255): the Jacobian is put together from one block per key, and the update
    is computed for the packed unknowns and added to the dictionary.

    A residual is a function of what it can see of the dictionary, its keys and arrays, in
    order.  [jacfwd] returns a dictionary with the same keys.  Constant arguments, timing and
    printing are in ModelSolve.v. *)
From Coq Require Import List Arith Bool.
From Verif Require Import Base ModelDict SpecDict.
Import ListNotations.

(** TFCDict or TFCDictRobust *)
Inductive class := Plain | Robust.

Section SolveDict.
Context {T K : Type} (keq : K -> K -> bool).
Notation arr := (@arr T). Notation val := (@val T). Notation heap := (@heap T).
Notation tdict := (@tdict T K). Notation view := (list (K * @ModelDict.arr T)).

Definition v_get (c : view) (k : K) : option arr :=
  option_map snd (find (fun p => keq (fst p) k) c).
(** TFCDict: [np.hstack([jacob[k] for k in xi.keys()])], 845-848 and 1210-1213 *)
Definition J_dict (jacob xi : view) : option arr :=
  l <- mapM (v_get jacob) (map fst xi) ;; hstack l.
(** TFCDictRobust: [jacob[k].reshape(jacob[k].shape[0], onp.prod(onp.array(xi[k].shape)))],
    834-843 and 1199-1208.  For a zero-dimensional entry the product of the empty array is
    the float 1.0, which is not a valid dimension. *)
Definition J_block (jacob xi : view) (k : K) : option arr :=
  j <- v_get jacob k ;; x <- v_get xi k ;;
  match a_shape j, a_shape x with
  | m :: _, _ :: _ => reshape j [m; nprod (a_shape x)]
  | _, _ => None
  end.
Definition J_robust (jacob xi : view) : option arr :=
  l <- mapM (J_block jacob xi) (map fst xi) ;; hstack l.

Context (zero : T) (add sub : T -> T -> T) (opp : T -> T).
(** [np.dot(np.linalg.pinv(J), r)] or [np.linalg.lstsq(J, r)[0]] *)
Context (solve : arr -> list T -> list T).
Context (jacfwd : (view -> list T) -> view -> view).
(** the class: its construction, its Jacobian and its [+=] / [-=] *)
Definition c_new (c : class) : heap -> @items T K -> option tdict := match c with Plain => d_new keq | Robust => r_new keq end.
Definition c_iop (c : class) : (T -> T -> T) -> heap -> tdict -> @operand T K -> heap * tdict * outcome := match c with Plain => d_iop keq | Robust => r_iop keq end.
Definition c_J (c : class) : view -> view -> option arr := match c with Plain => J_dict | Robust => J_robust end.

(** zerosRobust, 141-161: [tree_map] of [onp.zeros], so the leaves are new NumPy arrays *)
Definition zeros_of (cl : class) (h : heap) (d : tdict) : heap * option tdict :=
  match mapM (ld h) (map snd (td_items d)) with
  | None => (h, None)
  | Some l =>
      let (h', vs) := alloc true h (map (fun a => Arr_ (a_shape a) (repeat zero (nprod (a_shape a)))) l) in
      (h', c_new cl h' (combine (map fst (td_items d)) vs))
  end.
(** LS without constants and timer, 827-886: heap and returned dictionary *)
Definition LS_dict (cl : class) (h : heap) (d : tdict) (res : view -> list T) : option (heap * tdict) :=
  let (h', z) := zeros_of cl h d in
  z <- z ;; c <- contents h' z ;;
  J <- c_J cl (jacfwd res c) c ;;
  match c_iop cl add h' z (OJax (flat (solve J (map opp (res c))))) with
  | (h'', r, Done) => Some (h'', r)
  | (_, _, Raised) => None
  end.
(** one pass through the body of NLLS, 1233-1255: the new unknowns and [dxi] *)
Definition NLLS_step (cl : class) (h : heap) (d : tdict) (res : view -> list T) : option (heap * tdict * list T) :=
  c <- contents h d ;;
  J <- c_J cl (jacfwd res c) c ;;
  let dxi := solve J (res c) in
  match c_iop cl sub h d (OJax (flat dxi)) with
  | (h', r, Done) => Some (h', r, dxi)
  | (_, _, Raised) => None
  end.
End SolveDict.
