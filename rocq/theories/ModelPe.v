(** Partial evaluation of arguments: pe and pejit (utils/TFCUtils.py 206-323) and the use the
    solvers make of it (LS 855-864, LsClass 975-984, NLLS 1225-1235, NllsClass 1424-1434).

    [X] is the type of arguments, a function of several arguments takes their list.
    Simplifications: argument positions are non-negative; tracing a function with some known
    inputs and evaluating the resulting program on the others gives the function's value on
    both (this is what jax's [trace_to_jaxpr_nounits] and [eval_jaxpr] do); known arguments
    are arrays, not pytrees of several leaves; [jit] does not change values. *)
From Coq Require Import List Arith.
From Verif Require Import Base.
Import ListNotations.

Section Pe.
Context {X Y : Type}.

(** [l.pop(k)]: the element and the rest *)
Definition pop {Z} (k : nat) (l : list Z) : option (Z * list Z) :=
  x <- nth_error l k ;; Some (x, firstn k l ++ skipn (S k) l).
(** lines 234-237: [for k in constant_arg_nums: order.insert(0, order.pop(k))] *)
Fixpoint pe_order (consts : list nat) (order : list nat) : option (list nat) :=
  match consts with
  | [] => Some order
  | k :: t => p <- pop k order ;; pe_order t (fst p :: snd p)
  end.
(** [np.argsort(order)] for a permutation of 0..n-1: where each number stands *)
Fixpoint index_of (i : nat) (l : list nat) : nat :=
  match l with [] => 0 | x :: t => if x =? i then 0 else S (index_of i t) end.
Definition argsort (l : list nat) : list nat := map (fun i => index_of i l) (seq 0 (length l)).
(** [tuple(args[k] for k in ks)] *)
Definition gather {Z} (l : list Z) (ks : list nat) : option (list Z) := mapM (nth_error l) ks.

(** [pe( *args, constant_arg_nums=consts)(f_orig)], 206-295: the new function, or [None] if
    building it raises.  The new function takes the remaining arguments; a wrong number of
    them raises. *)
Definition pe (args : list X) (consts : list nat) (f_orig : list X -> Y) : option (list X -> option Y) :=
  match consts with
  | [] => Some (fun rest => Some (f_orig rest))                      (* 292-293 *)
  | _ =>
      order <- pe_order consts (seq 0 (length args)) ;;               (* 234-236 *)
      dark <- gather args order ;;                                    (* 238 *)
      let reorder := argsort order in                                 (* 237 *)
      let known := firstn (length consts) dark in                     (* 241, 262-273 *)
      Some (fun rest =>
              if length rest =? length args - length consts
              then new_args <- gather (known ++ rest) reorder ;; Some (f_orig new_args)   (* 248-250 *)
              else None)
  end.

(** [constant_arg_nums.sort()] *)
Fixpoint insert (x : nat) (l : list nat) : list nat :=
  match l with [] => [x] | y :: t => if x <=? y then x :: l else y :: insert x t end.
Definition sort (l : list nat) : list nat := fold_right insert [] l.
(** [for k in constant_arg_nums: args.pop(k - 1)]; [pop(-1)] for k = 0 takes the last *)
Fixpoint pops {Z} (ks : list nat) (args : list Z) : option (list Z) :=
  match ks with
  | [] => Some args
  | k :: t => p <- pop (if k =? 0 then length args - 1 else k - 1) args ;; pops t (snd p)
  end.

(** What a solver does with its residual-type function [g] (of [xi :: args]): the function
    and arguments it goes on to use, and the caller's list as it is afterwards. *)
Record wired := Wired { w_fun : list X -> option Y; w_args : list X; w_consts : list nat }.
Definition wire (xi : X) (args : list X) (consts : list nat) (g : list X -> Y) : option wired :=
  match consts with
  | [] => Some (Wired (fun l => Some (g l)) args [])
  | _ =>
      g' <- pe (xi :: args) consts g ;;
      let desc := rev (sort consts) in        (* .sort(); .reverse(): in place *)
      args' <- pops desc args ;;
      Some (Wired g' args' desc)
  end.
(** the value the solver computes at the unknowns [x], e.g. [ls(zXi, *args)] *)
Definition wired_eval (w : wired) (x : X) : option Y := w_fun w (x :: w_args w).
End Pe.
