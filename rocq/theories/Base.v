(** Common vocabulary of the model: numbers, checked buffers, loops, errors.
    Nothing here transcribes a function of /repo; it is the language the
    transcriptions are written in. *)
From Coq Require Import List Arith ZArith.
Import ListNotations.

(** ** Numbers
    A float is modelled by an exact number of some carrier.  The carrier is R
    in the theorems and Q in computed examples.  [onat] is the conversion of an
    integer loop counter to a float. *)
Record Ops (T : Type) := mkOps {
  o0 : T; o1 : T;
  oadd : T -> T -> T; osub : T -> T -> T; omul : T -> T -> T; odiv : T -> T -> T;
  oopp : T -> T; onat : nat -> T }.
Arguments mkOps {T}.
Arguments o0 {T}. Arguments o1 {T}. Arguments oadd {T}. Arguments osub {T}.
Arguments omul {T}. Arguments odiv {T}. Arguments oopp {T}. Arguments onat {T}.

(** Elementary functions used by the Fourier and ELM bases. *)
Record Fun (T : Type) := mkFun {
  fsin : T -> T; fcos : T -> T; fexp : T -> T; ftanh : T -> T; fpi : T;
  fgt0 : T -> bool (* x > 0 *) }.
Arguments mkFun {T}.
Arguments fsin {T}. Arguments fcos {T}. Arguments fexp {T}. Arguments ftanh {T}.
Arguments fpi {T}. Arguments fgt0 {T}.

(** [pow(x, d)] / [x**d] for a non-negative integer [d]. *)
Fixpoint opow {T} (A : Ops T) (x : T) (d : nat) : T :=
  match d with 0 => o1 A | S d' => omul A x (opow A x d') end.

(** ** Failure
    [None] is undefined behaviour in C++ (out-of-bounds access, use of an
    uninitialised cell) and an exception in Python. *)
Definition bind {A B} (x : option A) (f : A -> option B) : option B :=
  match x with Some a => f a | None => None end.
Notation "x <- a ;; b" := (bind a (fun x => b))
  (at level 100, a at next level, right associativity).

Fixpoint mapM {A B} (f : A -> option B) (l : list A) : option (list B) :=
  match l with
  | [] => Some []
  | a :: t => b <- f a ;; bs <- mapM f t ;; Some (b :: bs)
  end.

(** ** Buffers
    A block of [blen] cells, each holding a number or uninitialised. *)
Record buf (T : Type) := Buf { blen : nat; bcell : nat -> option T }.
Arguments Buf {T}. Arguments blen {T}. Arguments bcell {T}.

(** [new double[n]] / [malloc(n*sizeof(double))] *)
Definition bnew {T} (n : nat) : buf T := Buf n (fun _ => None).
Definition bof {T} (l : list T) : buf T := Buf (length l) (nth_error l).
(** [np.full(n, v)] *)
Definition bfill {T} (n : nat) (v : T) : buf T := Buf n (fun _ => Some v).
(** [b[i]] as an rvalue *)
Definition brd {T} (b : buf T) (i : nat) : option T :=
  if i <? blen b then bcell b i else None.
(** [b[i] = v] *)
Definition bwr {T} (b : buf T) (i : nat) (v : T) : option (buf T) :=
  if i <? blen b
  then Some (Buf (blen b) (fun j => if j =? i then Some v else bcell b j))
  else None.
(** [memcpy] of the first [n] cells into a fresh block of [n] cells *)
Definition bcopy {T} (b : buf T) (n : nat) : option (buf T) :=
  if n <=? blen b then Some (Buf n (bcell b)) else None.
(** all cells, in order; fails if one is uninitialised *)
Definition bto_list {T} (b : buf T) : option (list T) :=
  mapM (brd b) (seq 0 (blen b)).

(** ** Loops
    [for (k = lo; k < hi; k++) s = body(k, s)] *)
Fixpoint iter_ {S} (n lo : nat) (body : nat -> S -> option S) (s : S) : option S :=
  match n with
  | 0 => Some s
  | Datatypes.S n' => s' <- body lo s ;; iter_ n' (Datatypes.S lo) body s'
  end.
Definition for_ {S} (lo hi : nat) (body : nat -> S -> option S) (s : S) : option S :=
  iter_ (hi - lo) lo body s.

(** ** Matrices as returned to Python: a list of rows *)
Definition matrix (T : Type) := list (list T).
Definition nrows {T} (M : matrix T) : nat := length M.
(** every row has [c] entries *)
Definition ncols_are {T} (M : matrix T) (c : nat) : Prop := Forall (fun r => length r = c) M.

(** A row-major buffer read back as [n] rows of [c] entries
    ([py::array_t<double>({nOut, mOut}, F)]). *)
Definition buf_matrix {T} (b : buf T) (n c : nat) : option (matrix T) :=
  mapM (fun j => mapM (fun k => brd b (c * j + k)) (seq 0 c)) (seq 0 n).
