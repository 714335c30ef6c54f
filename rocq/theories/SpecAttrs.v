(** Vocabulary of the statements about assigned attributes. *)
From Coq Require Import List Arith ZArith Reals.
From Verif Require Import Base Numbers ModelBFPy ModelBFCpp SpecBasis ModelELM SpecELM ModelRegistry ModelAttrs.
Import ListNotations.

(** the attributes [m] and [numC] describe arrays the object has: [numC] entries of the array of
    removed functions given to the constructor exist *)
Definition in_range (o : cobj R) : Prop :=
  (0 <= q_m o)%Z /\ (0 <= q_numC o <= Z.of_nat (length (q_nC o)))%Z.
(** the first [numC] entries of that array *)
Definition used_nC (o : cobj R) : list Z := firstn (Z.to_nat (q_numC o)) (q_nC o).
(** the attributes [x0], [c], [z0] describe the map [g] *)
Definition maps_by (o : cobj R) (g : R -> R) : Prop := forall t, ((t - q_x0 o) * q_c o + q_z0 o = g t)%R.

(** a compiled object made by [BF.<f>(x0, xf, nC, m)] after the assignments [l] *)
Definition assigned (f : fam) (x0 xf : R) (nC : list Z) (m : nat) (l : list (assign R)) : cobj R :=
  obj_sets (obj_of (fam_init ROps RFun f x0 xf nC m)) l.
(** the same for the ELM classes *)
Definition elm_assigned (x0 xf : R) (nC : list Z) (m : nat) (l : list (assign R)) : cobj R :=
  obj_sets (obj_of (elm_init ROps x0 xf nC m)) l.
(** the value given last by the entries of [l] that give one, [v] if there is none *)
Definition last_given {S V : Type} (g : S -> option V) (l : list S) (v : V) : V :=
  fold_left (fun v a => match g a with Some w => w | None => v end) l v.
