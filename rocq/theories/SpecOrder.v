(** Vocabulary of the statements about derivative orders that may be any integer. *)
From Coq Require Import List Arith ZArith Reals.
From Coquelicot Require Import Coquelicot.
From Verif Require Import Base Numbers ModelBFPy ModelBFCpp ModelELM ModelOrder SpecBasis.
Import ListNotations.

(** [BF.<f>(x0, xf, nC, m).H(xs, d, full)] over the reals, with room for [lim] nested calls *)
Definition H1z (lim : nat) (be : backend) (f : fam) (x0 xf : R) (nC : list Z) (m : nat) (xs : list R) (d : Z) (full : bool) : option (mat R) :=
  let B := fam_init ROps RFun f x0 xf nC m in
  match be with
  | Py => py_Hz ROps RFun lim f B xs d full
  | Cpp => cpp_Hz ROps RFun lim f B xs d full
  end.
(** the same for the random bases with weights [w] and biases [b] *)
Definition HEz (lim : nat) (jvp : (R -> R) -> R -> R -> R) (be : backend) (f : elm) (w b : list R) (x0 xf : R) (nC : list Z)
    (xs : list R) (d : Z) (full : bool) : option (mat R) :=
  let B := elm_init ROps x0 xf nC (length w) in
  match be with
  | Py => py_elm_Hz ROps RFun lim jvp f w b B xs d full
  | Cpp => cpp_elm_Hz ROps RFun f w b B xs d full
  end.

(** how fast the coordinate of the basis functions runs with [x] *)
Definition speed (f : fam) (x0 xf : R) : R :=
  (match f with
   | CP | LeP => 2 / (xf - x0)
   | FS => 2 * PI / (xf - x0)
   | LaP | HoPpro | HoPphy => 1
   end)%R.
(** [v] is the entry of row [j], column [k] of the result [M] *)
Definition result_entry (M : option (mat R)) (j k : nat) (v : R) : Prop := exists M', M = Some M' /\ ment M' j k = Some v.
