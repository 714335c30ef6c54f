(** NumPy broadcasting, index by index, and what [update] should leave in a dictionary (C93, C94). *)
From Coq Require Import List Arith Bool.
From Verif Require Import Base ModelDict SpecDict.
Import ListNotations.

Section Spec.
Context {T K : Type}.
Notation arr := (@arr T). Notation val := (@val T). Notation heap := (@heap T).

(** place of an index tuple in row-major order *)
Fixpoint offset (s idx : list nat) : nat :=
  match s, idx with _ :: s', i :: idx' => i * nprod s' + offset s' idx' | _, _ => 0 end.
Definition inside (s idx : list nat) : Prop := Forall2 lt idx s.
Definition entry (a : arr) (idx : list nat) : option T := nth_error (a_data a) (offset (a_shape a) idx).

(** Shapes are compared from the last dimension on; a missing dimension or a 1 gives way. *)
Fixpoint bc_rev (s t r : list nat) : Prop :=
  match s, t, r with
  | [], _, _ => r = t
  | _, [], _ => r = s
  | a :: s', b :: t', c :: r' => (a = b /\ c = a \/ a = 1 /\ c = b \/ b = 1 /\ c = a) /\ bc_rev s' t' r'
  | _, _, [] => False
  end.
Definition broadcasts (s t r : list nat) : Prop := bc_rev (rev s) (rev t) (rev r).
(** the entry of an array of shape [s] that lands at [idx] of the result *)
Definition source (s idx : list nat) : list nat :=
  map (fun p => if fst p =? 1 then 0 else snd p) (combine s (skipn (length idx - length s) idx)).
(** [c] is the broadcast result of [a f b] *)
Definition is_bc (f : T -> T -> T) (a b c : arr) : Prop :=
  broadcasts (a_shape a) (a_shape b) (a_shape c) /\ wf c /\
  forall idx, inside (a_shape c) idx -> exists x y,
    entry a (source (a_shape a) idx) = Some x /\ entry b (source (a_shape b) idx) = Some y /\ entry c idx = Some (f x y).

(** entry [p] of a dictionary, combined with the operand's array under the same key, gives the array [c] *)
Definition combines (f : T -> T -> T) (h : heap) (o : list (K * val)) (p : K * val) (c : arr) : Prop :=
  exists y a b, In (fst p, y) o /\ ld h (snd p) = Some a /\ ld h y = Some b /\ is_bc f a b c.
(** every array of the dictionary and of the operand fills its shape *)
Definition filled (h : heap) (d : list (K * val)) : Prop := forall k v a, In (k, v) d -> ld h v = Some a -> wf a.
(** no NumPy array meets a NumPy array *)
Definition no_clash (d o : list (K * val)) : Prop := forall k l l', In (k, Np l) d -> In (k, Np l') o -> False.

(** the value last given to [k] in a list of pairs *)
Definition last_for (l : list (K * val)) (k : K) (v : val) : Prop :=
  exists l1 l2, l = l1 ++ (k, v) :: l2 /\ ~ In k (map fst l2).
(** the keys of [ks] in order of first appearance, those of [old] left out *)
Inductive newcomers : list K -> list K -> list K -> Prop :=
| newcomers_nil old : newcomers old [] []
| newcomers_old old k ks r : In k old -> newcomers old ks r -> newcomers old (k :: ks) r
| newcomers_new old k ks r : ~ In k old -> newcomers (k :: old) ks r -> newcomers old (k :: ks) (k :: r).
End Spec.
