(** Vocabulary of the property statements about ELM bases. *)
From Coq Require Import List Arith ZArith Reals.
From Coquelicot Require Import Coquelicot.
From Verif Require Import Base Numbers ModelBFPy ModelBFCpp SpecBasis ModelELM.
Import ListNotations.

(** What the theorems assume of jax's forward differentiation of a function of one
    real: at a point of differentiability it returns derivative times tangent. *)
Definition jvp_ok (jvp : (R -> R) -> R -> R -> R) : Prop :=
  forall g z l t, is_derive g z l -> jvp g z t = (l * t)%R.

(** [BF.ELM<f>(x0, xf, nC, m)] with weights and biases set to [w], [b], then [.H(xs, d, full)];
    the number of basis functions is the number of weights *)
Definition HE (jvp : (R -> R) -> R -> R -> R) (be : backend) (f : elm) (w b : list R) (x0 xf : R)
    (nC : list Z) (xs : list R) (d : nat) (full : bool) : option (mat R) :=
  let B := elm_init ROps x0 xf nC (length w) in
  match be with
  | Py => py_elm_H ROps RFun jvp f w b B xs d full
  | Cpp => cpp_elm_H_mat ROps RFun f (bof w) (bof b) B xs d full
  end.
(** over the rationals; only [ReLU] is meaningful there *)
Definition HEQ (be : backend) (f : elm) (w b : list QArith_base.Q) x0 xf (nC : list Z) xs (d : nat) (full : bool) :=
  let B := elm_init QOps x0 xf nC (length w) in
  match be with
  | Py => py_elm_H QOps QFun (fun _ _ _ => QArith_base.Qmake 0 1) f w b B xs d full
  | Cpp => cpp_elm_H_mat QOps QFun f (bof w) (bof b) B xs d full
  end.

(** the activation functions *)
Definition act (f : elm) (u : R) : R :=
  (match f with
   | ReLU => Rmax 0 u
   | Sigmoid => / (1 + exp (- u))
   | Tanh => tanh u
   | Sin => sin u
   | Swish => u / (1 + exp (- u))
   end)%R.

(** neuron [k] as a function of the physical variable, on the domain from [x0] to [xf] *)
Definition neuron (f : elm) (w b : list R) (x0 xf : R) (k : nat) (t : R) : R :=
  act f (nth k w 0 * ((t - x0) / (xf - x0)) + nth k b 0)%R.

(** [M] is the matrix of the [d]-th derivatives of the neurons at the points [xs],
    at least at the points of the neuron's domain satisfying [ok] *)
Definition neuron_matrix (ok : nat -> R -> Prop) f w b x0 xf xs d (M : mat R) : Prop :=
  shaped M (length xs) (length w) /\
  forall j k x, nth_error xs j = Some x -> (k < length w)%nat -> ok k x ->
    exists v, ment M j k = Some v /\ is_derive_n (neuron f w b x0 xf k) d x v.
Definition everywhere (_ : nat) (_ : R) : Prop := True.
(** the argument of the ReLU neuron [k] is not zero at [x] *)
Definition off_kink (w b : list R) (x0 xf : R) (k : nat) (x : R) : Prop :=
  (nth k w 0 * ((x - x0) / (xf - x0)) + nth k b 0 <> 0)%R.
(** orders for which a backend returns a matrix of the right shape and meaning *)
Definition supported (be : backend) (f : elm) (d : nat) : Prop :=
  match be, f with
  | Py, ReLU => (d <= 1)%nat
  | Py, _ => True
  | Cpp, (Sin | ReLU) => True
  | Cpp, _ => (d <= 8)%nat
  end.
