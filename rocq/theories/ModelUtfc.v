(** The univariate class: /repo/src/tfc/utfc.py.

    Simplifications:
    - [basis] strings are constructors; a string that names no basis is [UB LaP] and the like,
      which [utfc] does not offer either;
    - the random initial weights of an ELM basis are the arguments [w], [b];
    - [TFCPrint.Error] (which ends the process), an exception and undefined behaviour are [None];
    - warnings, the conversion of an integer [x0]/[xf] to float and the int32 cast of [nC] are
      dropped; [nC] is one-dimensional;
    - points are one-dimensional arrays; see [vmap_H] for scalars. *)
From Coq Require Import List Arith ZArith Bool.
From Verif Require Import Base ModelBFPy ModelBFCpp ModelELM.
Import ListNotations.

Inductive ubasis := UB (f : fam) | UE (f : elm).

(** the Python type of the [nC] argument decides the branch, utfc.py 100-105; [np] is [jax.numpy],
    so a plain NumPy array is not an [np.ndarray] and leaves [self.nC] unset *)
Inductive nc_arg := NcInt (n : Z) | NcJax (l : list Z) | NcList (l : list Z) | NcNumpy (l : list Z).
Definition utfc_nC (a : nc_arg) : option (list Z) :=
  match a with
  | NcInt n => Some (map Z.of_nat (seq 0 (Z.to_nat n)))            (* 100-101: arange *)
  | NcJax l | NcList l => Some l                                    (* 102-105 *)
  | NcNumpy _ => None                                               (* 106: AttributeError *)
  end.

Section Utfc.
Context {T : Type} (A : Ops T) (E : Fun T) (jvp : (T -> T) -> T -> T -> T).
Local Notation "0" := (o0 A). Local Notation "1" := (o1 A).
Local Infix "+" := (oadd A). Local Infix "-" := (osub A).
Local Infix "*" := (omul A). Local Infix "/" := (odiv A).
Local Notation "# n" := (onat A n) (at level 1).

Record utfc := Utfc {
  u_N : nat; u_be : backend; u_basis : ubasis;
  u_B : basis (T:=T); u_w : list T; u_b : list T;                   (* self.basisClass *)
  u_z : list T; u_x : list T }.

(** [np.linspace(a, b, num)] *)
Definition linspace (a b : T) (num : nat) : list T :=
  match num with
  | O => []
  | S O => [a]
  | S n => map (fun k => a + #k * ((b - a) / #n)) (seq 0 (S n))
  end.

(** utfc.py 176-187.  With [N = 1] the Chebyshev branch divides 0 by 0: not a number, [None];
    with [N = 0] [np.linspace(0, -1, 0)] is empty. *)
Definition utfc_points (b : ubasis) (N : nat) (z0 zf c x0 : T) : option (list T * list T) :=
  z <- match b with
       | UB CP | UB LeP =>
           match N with
           | O => Some []
           | S O => None
           | S n => Some (map (fun I => fcos E (fpi E * (#n - I) / #n)) (linspace (0 * x0) #n (S n)))
           end
       | _ => Some (linspace z0 zf N)
       end ;;
  Some (z, map (fun z => (z - z0) / c + x0) z).

(** [utfc.__init__], utfc.py 95-189 *)
Definition utfc_init (be : backend) (bs : ubasis) (N : nat) (nC : nc_arg) (deg : nat)
    (x0 xf : option T) (w b : list T) : option utfc :=
  nC <- utfc_nC nC ;;                                               (* 100-105 *)
  if (deg <? length nC)%nat then None                               (* 106-107 *)
  else if existsb (fun i => Z.ltb i 0%Z) nC then None               (* 108-111 *)
  else
  let x0 := match x0 with Some v => v | None => 0 end in            (* 115-122 *)
  let xf := match xf with Some v => v | None => 0 end in            (* 124-131 *)
  r <- match bs with                                                (* 142-174 *)
       | UB CP => Some (fam_init A E CP x0 xf nC (deg + 1)%nat, oopp A 1, 1)
       | UB LeP => Some (fam_init A E LeP x0 xf nC (deg + 1)%nat, oopp A 1, 1)
       | UB FS => Some (fam_init A E FS x0 xf nC (deg + 1)%nat, oopp A (fpi E), fpi E)
       | UB _ => None
       | UE _ => Some (elm_init A x0 xf nC (deg + 1)%nat, 0, 1)
       end ;;
  let '(B, z0, zf) := r in
  zx <- utfc_points bs N z0 zf (b_c B) x0 ;;
  let '(z, x) := zx in
  Some (Utfc N be bs B w b z x).

(** [self.basisClass.H(x, d, full)], the implementation rule [H_impl], utfc.py 298-301 *)
Definition utfc_H (u : utfc) (xs : list T) (d : nat) (full : bool) : option (mat T) :=
  match u_be u, u_basis u with
  | Py, UB f => py_H A E f (u_B u) xs d full
  | Cpp, UB f => cpp_H_mat A E f (u_B u) xs d full
  | Py, UE f => py_elm_H A E jvp f (u_w u) (u_b u) (u_B u) xs d full
  | Cpp, UE f => cpp_elm_H_mat A E f (bof (u_w u)) (bof (u_b u)) (u_B u) xs d full
  end.

(** the named methods, utfc.py 191-280 *)
Inductive umeth := mH | mdH | md2H | md4H | md8H.
Definition umeth_order (m : umeth) : nat :=
  match m with mH => 0 | mdH => 1 | md2H => 2 | md4H => 4 | md8H => 8 end%nat.
Definition utfc_call (u : utfc) (m : umeth) (xs : list T) (full : bool) : option (mat T) :=
  utfc_H u xs (umeth_order m) full.

(** [H_abstract_eval], utfc.py 304-315, on the shape of [x].  The Python classes keep their
    number of functions in private attributes, so [self.basisClass.m] is an AttributeError there. *)
Definition utfc_abstract (u : utfc) (shape : list nat) (full : bool) : option (list nat) :=
  match u_be u with
  | Py => None
  | Cpp =>
      let m := b_m (u_B u) in
      let dim1 := if full then m else (m - length (b_nC (u_B u)))%nat in
      match shape with [] => Some [dim1] | n :: _ => Some [n; dim1] end
  end.

(** [H_batch], utfc.py 355-356, for a scalar call mapped over an array: the whole array is
    passed on and the rows of the result are the results of the scalar calls. *)
Definition vmap_H (u : utfc) (xs : list T) (d : nat) (full : bool) : option (list (list T)) :=
  M <- utfc_H u xs d full ;; Some (md M).

(** [dx != 0] *)
Definition nonzero (t : T) : bool := (fgt0 E t || fgt0 E (oopp A t))%bool.

(** rows of [M] times [expand_dims(dx, 1)]: NumPy broadcasting needs equal lengths or a single row
    on one side *)
Definition scale_rows (M : mat T) (dx : list T) : option (mat T) :=
  if (mr M =? length dx)%nat then
    Some (Mat (mr M) (mc M) (map (fun rd => map (fun v => v * snd rd) (fst rd)) (combine (md M) dx)))
  else None.

(** [H_jvp], utfc.py 361-378, for a tangent array of the shape of [x].  When no entry of the
    tangent differs from zero no branch assigns [out_tans]: UnboundLocalError. *)
Definition utfc_jvp (u : utfc) (xs dx : list T) (d : nat) (full : bool) : option (mat T * mat T) :=
  if existsb nonzero dx then
    M1 <- utfc_H u xs (d + 1)%nat full ;;
    out <- scale_rows M1 dx ;;
    M <- utfc_H u xs d full ;;
    Some (M, out)
  else None.
(** the same rule inside a [vmap] over the points with one scalar tangent [dx] (374): [H * dx] *)
Definition vmap_jvp (u : utfc) (xs : list T) (dx : T) (d : nat) (full : bool)
    : option (list (list T) * list (list T)) :=
  if nonzero dx then
    M1 <- vmap_H u xs (d + 1)%nat full ;;
    M <- vmap_H u xs d full ;;
    Some (M, map (map (fun v => v * dx)) M1)
  else None.

(** [HybridUtfc.__init__], utfc.py 407-409 *)
Definition hybrid_init (l : list utfc) : option (list utfc) :=
  match l with
  | [] => Some []
  | k0 :: _ => if forallb (fun k => (u_N k =? u_N k0)%nat) l then Some l else None
  end.
(** [np.hstack] of matrices: the same number of rows, at least one matrix *)
Definition hcat2 (M N : mat T) : option (mat T) :=
  if (mr M =? mr N)%nat
  then Some (Mat (mr M) (mc M + mc N)%nat (map (fun p => fst p ++ snd p) (combine (md M) (md N))))
  else None.
Fixpoint hstack (l : list (mat T)) : option (mat T) :=
  match l with
  | [] => None
  | [M] => Some M
  | M :: l' => N <- hstack l' ;; hcat2 M N
  end.
(** the six methods, utfc.py 411-541 *)
Inductive hmeth := hH | hdH | hd2H | hd3H | hd4H | hd8H.
Definition hmeth_order (m : hmeth) : nat :=
  match m with hH => 0 | hdH => 1 | hd2H => 2 | hd3H => 3 | hd4H => 4 | hd8H => 8 end%nat.
Definition hybrid_call (h : list utfc) (m : hmeth) (xs : list T) (full : bool) : option (mat T) :=
  Ms <- mapM (fun k => utfc_H k xs (hmeth_order m) full) h ;; hstack Ms.
End Utfc.
Arguments Utfc {T}. Arguments u_N {T}. Arguments u_be {T}. Arguments u_basis {T}. Arguments u_B {T}.
Arguments u_w {T}. Arguments u_b {T}. Arguments u_z {T}. Arguments u_x {T}.
