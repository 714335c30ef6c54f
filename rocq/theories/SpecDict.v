(** What a dictionary of arrays should do, without reference to slices, caches or loops. *)
From Coq Require Import List Arith Bool.
From Verif Require Import Base ModelDict.
Import ListNotations.

Section Spec.
Context {T K : Type} (keq : K -> K -> bool).
Notation arr := (@arr T). Notation val := (@val T). Notation heap := (@heap T).
Notation tdict := (@tdict T K).

(** [keq] decides equality of keys *)
Definition keq_ok : Prop := forall x y, keq x y = true <-> x = y.

(** An array whose data fill its shape, and a one-dimensional one. *)
Definition wf (a : arr) : Prop := length (a_data a) = nprod (a_shape a).
Definition is1d (a : arr) : Prop := a_shape a = [length (a_data a)].

(** What a caller sees in a dictionary: keys and arrays, in order. *)
Definition contents_of (h : heap) (d : list (K * val)) : option (list (K * arr)) :=
  mapM (fun p => a <- ld h (snd p) ;; Some (fst p, a)) d.
Definition contents (h : heap) (d : tdict) : option (list (K * arr)) := contents_of h (td_items d).

(** the last pair of the list with key [k] has the value [v] *)
Definition last_val (l : list (K * val)) (k : K) (v : val) : Prop :=
  exists l1 l2, l = l1 ++ (k, v) :: l2 /\ ~ In k (map fst l2).

(** All entries one after the other. *)
Definition packed (c : list (K * arr)) : list T := concat (map (fun p => a_data (snd p)) c).

(** Entry-by-entry combination of two arrays (of one shape). *)
Definition zip2 (f : T -> T -> T) (l1 l2 : list T) : list T :=
  map (fun p => f (fst p) (snd p)) (combine l1 l2).
Definition ew (f : T -> T -> T) (a b : arr) : arr := Arr_ (a_shape a) (zip2 f (a_data a) (a_data b)).
Definition ewc (f : T -> T -> T) (c : list (K * arr)) (bs : list arr) : list (K * arr) :=
  map (fun p => (fst (fst p), ew f (snd (fst p)) (snd p))) (combine c bs).

(** [bs] are the operand's arrays under the keys of [c], with the same shapes. *)
Definition matches (h : heap) (c : list (K * arr)) (o : list (K * val)) (bs : list arr) : Prop :=
  Forall2 (fun p b => exists y, In (fst p, y) o /\ ld h y = Some b /\ a_shape b = a_shape (snd p)) c bs.

(** A dictionary whose cached keys and slices are those of its items. *)
Definition fresh (refresh : heap -> list (K * val) -> option tdict) (h : heap) (d : tdict) : Prop :=
  NoDup (map fst (td_items d)) /\ refresh h (td_items d) = Some d.

(** No NumPy array that meets a NumPy operand (and so is updated in place) is also held
    under a different key of [d] or of [o]. *)
Definition unshared (d o : list (K * val)) : Prop :=
  forall k k' l l', In (k, Np l) d -> In (k, Np l') o -> In (k', Np l) d \/ In (k', Np l) o -> k = k'.
End Spec.
