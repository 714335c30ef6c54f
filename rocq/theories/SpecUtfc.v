(** Vocabulary of the property statements about the univariate class. *)
From Coq Require Import List Arith ZArith Reals.
From Coquelicot Require Import Coquelicot.
From Verif Require Import Base Numbers ModelBFPy SpecBasis ModelELM SpecELM ModelUtfc.
Import ListNotations.

(** the bases [utfc] offers *)
Definition offered (bs : ubasis) : Prop :=
  match bs with UB f => f = CP \/ f = LeP \/ f = FS | UE _ => True end.
(** orders a backend computes correctly for a basis *)
Definition can (be : backend) (bs : ubasis) (d : nat) : Prop :=
  match bs with UB _ => True | UE f => supported be f d end.
(** the basis is smooth (everything but ReLU) *)
Definition smooth_basis (bs : ubasis) : Prop := bs <> UE ReLU.

(** the constructor over the reals; [w], [b] are the weights of an ELM basis *)
Definition mk (be : backend) (bs : ubasis) (N : nat) (nC : nc_arg) (deg : nat) (x0 xf : R) (w b : list R) :=
  utfc_init ROps RFun be bs N nC deg (Some x0) (Some xf) w b.
(** the weights of an ELM basis have one entry per function *)
Definition weights_fit (bs : ubasis) (deg : nat) (w b : list R) : Prop :=
  match bs with UB _ => True | UE _ => length w = S deg /\ length b = S deg end.

(** the basis functions the documentation says are removed *)
Definition documented (a : nc_arg) (removed : Z -> Prop) : Prop :=
  match a with
  | NcInt n => forall i, removed i <-> (0 <= i < n)%Z
  | NcJax l | NcList l | NcNumpy l => forall i, removed i <-> In i l
  end.

(** point [k] of [n + 1] Chebyshev-Gauss-Lobatto points, respectively equally spaced points, of [x0, xf] *)
Definition cgl (x0 xf : R) (n k : nat) : R := (x0 + (xf - x0) * (1 - cos (PI * INR k / INR n)) / 2)%R.
Definition equispaced (x0 xf : R) (n k : nat) : R := (x0 + (xf - x0) * (INR k / INR n))%R.
Definition point_rule (bs : ubasis) : R -> R -> nat -> nat -> R :=
  match bs with UB CP | UB LeP => cgl | _ => equispaced end.

(** the shape of a matrix, as a tuple *)
Definition has_shape {T} (M : mat T) (s : list nat) : Prop := exists r c, s = [r; c] /\ shaped M r c.

(** the points [xs] moved by [t] along [dx] *)
Definition moved (xs dx : list R) (t : R) : list R := map (fun p => fst p + t * snd p)%R (combine xs dx).

(** [M] is the concatenation of the columns of the matrices [l], in order *)
Fixpoint columns_concat {T} (l : list (mat T)) (M : mat T) : Prop :=
  match l with
  | [] => mc M = 0%nat /\ forall j k, ment M j k = None
  | M1 :: l' => exists M2, columns_concat l' M2 /\ mc M = (mc M1 + mc M2)%nat /\
      forall j k, ment M j k = if k <? mc M1 then ment M1 j k else ment M2 j (k - mc M1)
  end.

(** the members of a hybrid, well-formed *)
Definition member (u : utfc (T:=R)) (d : nat) : Prop :=
  exists be bs N nC l deg x0 xf w b, mk be bs N nC deg x0 xf w b = Some u /\ utfc_nC nC = Some l /\
    valid_nC l (S deg) /\ can be bs d /\ weights_fit bs deg w b.

(** derivative orders of the methods of [HybridUtfc] *)
Definition mord (m : hmeth) : nat := match m with hH => 0 | hdH => 1 | hd2H => 2 | hd3H => 3 | hd4H => 4 | hd8H => 8 end%nat.
