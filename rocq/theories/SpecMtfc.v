(** Vocabulary of the property statements about the multivariate class. *)
From Coq Require Import List Arith ZArith Reals.
From Coquelicot Require Import Coquelicot.
From Verif Require Import Base Numbers ModelBFPy SpecBasis ModelELM SpecELM ModelND SpecND ModelNELM SpecNELM
  ModelUtfc SpecUtfc ModelMtfc.
Import ListNotations.

(** the bases [mtfc] offers *)
Definition offeredm (bs : mbasis) : Prop :=
  match bs with MB f => f = CP \/ f = LeP \/ f = FS | ME _ => True end.
(** the constructor over the reals; [w], [b] are the weights of an ELM basis *)
Definition mkm (be : backend) (bs : mbasis) (n : list nat) (nC : mnc_arg) (deg dim : nat) (x0 xf w b : list R) :=
  mtfc_init ROps RFun be bs n nC deg dim (Some x0) (Some xf) w b.
(** orders a backend computes correctly for a basis; mtfc always passes a tuple *)
Definition canm (be : backend) (bs : mbasis) (dim : nat) (d : list nat) : Prop :=
  length d = dim /\ match bs with MB _ => True | ME f => nsupported be f (DTuple d) end.
(** what the arguments have to satisfy beyond being accepted: for an ELM basis, intervals that are
    not degenerate, weights of the right number, and distinct functions of the basis in [nC]; a
    two-dimensional [nC] array is rectangular *)
Definition argsm (bs : mbasis) (nC : mnc_arg) (deg dim : nat) (x0 xf w b : list R) : Prop :=
  (1 <= dim)%nat /\
  match bs with
  | MB _ => match nC with MJax2 M => shaped M dim (mc M) | _ => True end
  | ME _ =>
      length w = (dim * S deg)%nat /\ length b = S deg /\
      (forall i, (i < dim)%nat -> nth i x0 0%R <> nth i xf 0%R) /\
      match nC with
      | MJax1 l => valid_nC l (S deg)
      | MList es => exists l, es = map EInt l /\ valid_nC l (S deg)
      | _ => True
      end
  end.
(** everything but ReLU is differentiable everywhere *)
Definition smoothm (bs : mbasis) : Prop := bs <> ME ReLU.

(** *** the grid *)
(** the rule for the points of one dimension *)
Definition point_rulem (bs : mbasis) : R -> R -> nat -> nat -> R :=
  match bs with MB CP | MB LeP => cgl | _ => equispaced end.
(** product of a list of numbers; number of points per step of dimension [k] *)
Fixpoint product (l : list nat) : nat := match l with [] => 1 | a :: l' => a * product l' end.
Definition stride (n : list nat) (k : nat) : nat := product (skipn (S k) n).

(** *** named derivatives: how often each variable is differentiated, and the variables named *)
Definition times (m : mmeth) (k : nat) : nat :=
  match m, k with
  | (mmHx | mmHxy), 0 => 1
  | (mmHx2 | mmHx2y), 0 => 2
  | (mmHy | mmHxy | mmHx2y), 1 => 1
  | mmHy2, 1 => 2
  | mmHz, 2 => 1
  | _, _ => 0
  end.
Definition needs (m : mmeth) : nat :=
  match m with mmH | mmHx | mmHx2 => 1 | mmHy | mmHy2 | mmHxy | mmHx2y => 2 | mmHz => 3 end.

(** *** constraints *)
(** the functions of one dimension that the documentation says its entry names *)
Definition names (e : nc_ent) (i : nat) : Prop :=
  match e with EInt n => (Z.of_nat i < n)%Z | EList l => In (Z.of_nat i) l end.
(** multi-indices that remain: total degree at most [deg] and, unless all are asked for, some
    dimension whose function is not named *)
Definition remains (deg : nat) (es : list nc_ent) (full : bool) (v : list nat) : Prop :=
  length v = length es /\ (list_sum v <= deg)%nat /\
  (full = true \/ exists k e a, nth_error es k = Some e /\ nth_error v k = Some a /\ ~ names e a).
(** how many functions an entry names *)
Definition count (e : nc_ent) : Z := match e with EInt n => n | EList l => Z.of_nat (length l) end.

(** [idx] lists the multi-indices of the columns: entry [i] of row [j] is the product over the
    dimensions of the univariate functions [idx_i] *)
Definition columns_are (H : mat R -> list nat -> option (mat R)) (be : backend) (f : fam) (x0 xf : list R) (m dim : nat)
    (idx : list (list nat)) : Prop :=
  forall n x d, shaped x dim n -> length d = dim ->
  exists M, H x d = Some M /\ shaped M n (length idx) /\
  forall i v j, nth_error idx i = Some v -> (j < n)%nat ->
  exists F : nat -> R,
    (forall k, (k < dim)%nat ->
       exists xk, ment x k j = Some xk /\
       uni_entry be f (nth k x0 0%R) (nth k xf 0%R) m xk (nth k d 0%nat) (nth k v 0%nat) (F k)) /\
    ment M j i = Some (prodn dim F).

(** *** tangents *)
Definition plus_one (d : list nat) (k : nat) : list nat := firstn k d ++ S (nth k d 0%nat) :: skipn (S k) d.
Definition tan_at (tans : list (option (list R))) (k j : nat) : R :=
  match nth k tans None with None => 0%R | Some l => nth j l 0%R end.
(** one tangent per dimension: none, or one number per point *)
Definition tangents (dim n : nat) (tans : list (option (list R))) : Prop :=
  length tans = dim /\ forall l, In (Some l) tans -> length l = n.
(** the points moved by [t] along the tangents *)
Definition movedm (dim n : nat) (x : mat R) (tans : list (option (list R))) (t : R) : mat R :=
  Mat dim n (map (fun k => map (fun j => nth j (nth k (md x) []) 0 + t * tan_at tans k j)%R (seq 0 n)) (seq 0 dim)).
(** the entries a constraint specification for a product basis gives, one per dimension *)
Definition entries (nC : mnc_arg) (es : list nc_ent) : Prop :=
  match nC with MList l | MNumpy l => es = l | MJax1 l => es = map EInt l | _ => False end.
(** a list naming a single function; the documentation gives it no special meaning *)
Definition singleton (e : nc_ent) : Prop := exists a, e = EList [a].
(** the functions of an ELM basis a specification names *)
Definition elm_names (nC : mnc_arg) (l : list Z) : Prop :=
  match nC with
  | MInt n => l = map Z.of_nat (seq 0 (Z.to_nat n))
  | MJax1 v => l = v
  | MList es => es = map EInt l
  | _ => False
  end.
