(** Weights and biases of an ELM object as mutable state: the properties [w], [b] of
    BF_Py.py 628-689 and of BF.cc 612-645 / BF_Py.cc 158-189.

    Memory is a list of blocks; a NumPy array is a one-dimensional strided view of a block
    (element [i] is cell [off + i*str]).  Simplifications: double-precision one-dimensional
    arrays only; [reshape((1, m))] of such an array is a view of the same cells, so the
    Python object keeps the view itself. *)
From Coq Require Import List Arith ZArith Bool.
From Verif Require Import Base.
Import ListNotations.

Section Weights.
Context {T : Type}.

Definition heap := list (list T).
Record view := View { v_blk : nat; v_off : Z; v_str : Z; v_len : nat }.

Definition cell (h : heap) (blk : nat) (i : Z) : option T :=
  if (i <? 0)%Z then None
  else l <- nth_error h blk ;; nth_error l (Z.to_nat i).
(** the array a view denotes *)
Definition vread (h : heap) (v : view) : option (list T) :=
  mapM (fun i => cell h (v_blk v) (v_off v + Z.of_nat i * v_str v)%Z) (seq 0 (v_len v)).
(** [v.data()[0..n)]: consecutive cells from the first element on, whatever the stride *)
Definition vraw (h : heap) (v : view) (n : nat) : option (list T) :=
  mapM (fun i => cell h (v_blk v) (v_off v + Z.of_nat i)%Z) (seq 0 n).

Fixpoint upd {X} (l : list X) (i : nat) (x : X) : list X :=
  match l, i with [], _ => [] | _ :: t, O => x :: t | a :: t, S i => a :: upd t i x end.
(** [arr[i] = x] on the caller's array *)
Definition poke (h : heap) (blk : nat) (i : nat) (x : T) : heap :=
  match nth_error h blk with Some l => upd h blk (upd l i x) | None => h end.

(** What the user does with the object. *)
Inductive wop :=
| SetW (v : view) | SetB (v : view)       (* obj.w = v; obj.b = v *)
| GetW | GetB                             (* read obj.w, obj.b *)
| Eval                                    (* a call of obj.H *)
| Poke (blk i : nat) (x : T).             (* write an element of an existing array *)
(** What the user observes.  [Fault]: the setter read outside the caller's array. *)
Inductive wout (O : Type) := Done | Rejected | Exited | Fault | Arr (l : list T) | Mtx (o : O).
Arguments Done {O}. Arguments Rejected {O}. Arguments Exited {O}. Arguments Fault {O}. Arguments Arr {O}.
Arguments Mtx {O}.

Section Run.
Context {O : Type} (Hf : list T -> list T -> O) (m : nat).

(** Python object: [self._w], [self._b] are arrays *)
Record pystate := PySt { p_h : heap; p_w : view; p_b : view }.
Definition py_get (h : heap) (v : view) : wout O :=
  match vread h v with Some l => Arr l | None => Fault end.
(** setters BF_Py.py 653-670 and 672-689, getters 628-650, [_Hint] reads [self._w], [self._b] *)
Definition py_step (s : pystate) (o : wop) : pystate * wout O :=
  match o with
  | SetW v => if v_len v =? m then (PySt (p_h s) v (p_b s), Done) else (s, Rejected)
  | SetB v => if v_len v =? m then (PySt (p_h s) (p_w s) v, Done) else (s, Rejected)
  | GetW => (s, py_get (p_h s) (p_w s))
  | GetB => (s, py_get (p_h s) (p_b s))
  | Eval => (s, match vread (p_h s) (p_w s), vread (p_h s) (p_b s) with
                | Some w, Some b => Mtx (Hf w b) | _, _ => Fault end)
  | Poke blk i x => (PySt (poke (p_h s) blk i x) (p_w s) (p_b s), Done)
  end.

(** C++ object: [w], [b] are blocks of the object; [getW]/[getB] copy them out into a fresh
    block (so a later write to the returned array is not a write to the object) *)
Record cppstate := CppSt { c_h : heap; c_w : list T; c_b : list T }.
(** [setW], BF.cc 612-619: wrong size exits the process; otherwise copies [m] cells from
    [w.data()] (BF_Py.cc 189, which does not ask pybind for contiguous memory) *)
Definition cpp_step (s : cppstate) (o : wop) : cppstate * wout O :=
  match o with
  | SetW v => if negb (v_len v =? m) then (s, Exited)
              else match vraw (c_h s) v m with
                   | Some l => (CppSt (c_h s) l (c_b s), Done) | None => (s, Fault) end
  | SetB v => if negb (v_len v =? m) then (s, Exited)
              else match vraw (c_h s) v m with
                   | Some l => (CppSt (c_h s) (c_w s) l, Done) | None => (s, Fault) end
  | GetW => (CppSt (c_h s ++ [c_w s]) (c_w s) (c_b s), Arr (c_w s))
  | GetB => (CppSt (c_h s ++ [c_b s]) (c_w s) (c_b s), Arr (c_b s))
  | Eval => (s, Mtx (Hf (c_w s) (c_b s)))
  | Poke blk i x => (CppSt (poke (c_h s) blk i x) (c_w s) (c_b s), Done)
  end.

(** the observations of a history; nothing is observed after the process has exited *)
Fixpoint py_run (s : pystate) (ops : list wop) : list (wout O) :=
  match ops with
  | [] => []
  | o :: ops => let (s', r) := py_step s o in r :: py_run s' ops
  end.
Fixpoint cpp_run (s : cppstate) (ops : list wop) : list (wout O) :=
  match ops with
  | [] => []
  | o :: ops => let (s', r) := cpp_step s o in
                match r with Exited => [Exited] | _ => r :: cpp_run s' ops end
  end.
End Run.
End Weights.
Arguments heap : clear implicits. Arguments pystate : clear implicits. Arguments cppstate : clear implicits.
Arguments wop : clear implicits. Arguments wout : clear implicits.
Arguments Done {T O}. Arguments Rejected {T O}. Arguments Exited {T O}. Arguments Fault {T O}.
Arguments Arr {T O}. Arguments Mtx {T O}.
