(** Vocabulary of the property statements about n-dimensional ELM bases. *)
From Coq Require Import List Arith ZArith Reals Permutation QArith.
From Coquelicot Require Import Coquelicot.
From Verif Require Import Base Numbers ModelBFPy ModelBFCpp SpecBasis ModelELM SpecELM ModelND SpecND ModelNELM.
Import ListNotations.
Open Scope R_scope.

(** the point [z + s t] *)
Definition line (z t : list R) (s : R) : list R := map (fun p => fst p + s * snd p) (combine z t).
(** What the theorems assume of jax's forward differentiation of a function of several reals: where
    the directional derivative exists, [jvp] returns it. *)
Definition jvpn_ok (jvpn : (list R -> R) -> list R -> list R -> R) : Prop :=
  forall g z t l, length t = length z -> is_derive (fun s => g (line z t s)) 0 l -> jvpn g z t = l.

(** [tfc.utils.BF.nELM<f>(x0, xf, nC, m)] with weights [w] (row by row) and biases [b], then
    [.H(x, o, full)] *)
Definition HNE jvpn (be : backend) (f : elm) (w b : list R) (x0 xf : list R) (nC : list Z) (m : nat)
    (x : mat R) (o : orders) (full : bool) : option (mat R) :=
  match nelm_init ROps be x0 xf nC m with
  | Some B => nelm_H ROps RFun jvpn be f B w b x o full
  | None => None
  end.
(** over the rationals; only [ReLU] is meaningful there *)
Definition HNEQ (be : backend) (f : elm) (w b x0 xf : list Q) (nC : list Z) (m : nat) (x : mat Q) (o : orders)
    (full : bool) : option (mat Q) :=
  match nelm_init QOps be x0 xf nC m with
  | Some B => nelm_H QOps QFun (fun _ _ _ => (0#1)%Q) be f B w b x o full
  | None => None
  end.
(** arguments: [dim] intervals that are not degenerate, [dim * m] weights, [m] biases *)
Definition ne_args (dim m : nat) (w b x0 xf : list R) : Prop :=
  (1 <= dim)%nat /\ length w = (dim * m)%nat /\ length b = m /\ length x0 = dim /\ length xf = dim /\
  (forall i, (i < dim)%nat -> nth i x0 0 <> nth i xf 0).
(** removed columns: none, [-1] only, or distinct column numbers *)
Definition ne_valid (nC : list Z) (m : nat) : Prop := valid_nC nC m \/ (forall z, In z nC -> z = (-1)%Z).
(** the columns actually removed *)
Definition removed (nC : list Z) : list Z := filter (fun z => negb (Z.eqb z (-1))) nC.

(** sum of [F 0], ..., [F (n - 1)] *)
Fixpoint sumn (n : nat) (F : nat -> R) : R := match n with O => 0 | S n' => sumn n' F + F n' end.
(** argument of the activation function of neuron [k] at the physical point [X], and the neuron *)
Definition narg (dim m : nat) (w b x0 xf : list R) (k : nat) (X : pt) : R :=
  sumn dim (fun i => nth (i * m + k) w 0 * ((X i - nth i x0 0) / (nth i xf 0 - nth i x0 0))) + nth k b 0.
Definition nneuron (f : elm) dim m w b x0 xf k (X : pt) : R := act f (narg dim m w b x0 xf k X).
(** where the neuron is differentiated: everywhere, except at the kink of ReLU *)
Definition smooth_at (f : elm) dim m w b x0 xf k (X : pt) : Prop :=
  match f with ReLU => narg dim m w b x0 xf k X <> 0 | _ => True end.

(** mixed partial derivative on the set [U]: differentiate [nth k d 0] times in variable [k], for
    every [k] of the list in turn *)
Fixpoint mixed_on (U : pt -> Prop) (d ks : list nat) (f g : pt -> R) : Prop :=
  match ks with
  | [] => forall X, U X -> f X = g X
  | k :: ks' => exists h : pt -> R,
      (forall X, U X -> is_derive_n (fun t => f (upd X k t)) (nth k d 0%nat) (X k) (h X)) /\
      mixed_on U d ks' h g
  end.
(** [M] holds the [d]-th mixed partials of the [m] neurons at the points in the columns of [x],
    whatever the order of differentiation *)
Definition nneuron_matrix (f : elm) dim m w b x0 xf (n : nat) (x : mat R) (d : list nat) (M : mat R) : Prop :=
  shaped M n m /\
  forall k, (k < m)%nat -> exists g : pt -> R,
    (forall ks, Permutation ks (seq 0 dim) ->
       mixed_on (smooth_at f dim m w b x0 xf k) d ks (nneuron f dim m w b x0 xf k) g) /\
    forall j X, (j < n)%nat -> at_col x j dim X -> smooth_at f dim m w b x0 xf k X -> ment M j k = Some (g X).

(** orders for which a backend returns the mixed partial derivative *)
Definition nsupported (be : backend) (f : elm) (o : orders) : Prop :=
  match be, f with
  | Py, ReLU => match o with DArr _ => True | DTuple d => list_sum d <> 1%nat end
  | Py, _ => True
  | Cpp, (Sin | ReLU) => True
  | Cpp, _ => (list_sum (ord_list o) <= 8)%nat
  end.
