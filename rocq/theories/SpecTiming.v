(** Vocabulary of C80 and C81. *)
From Coq Require Import List Arith Bool.
From Verif Require Import Base ModelDict ModelTiming.
Import ListNotations.

(** what happens between the two readings of the clock *)
Definition measured (t mid : list event) : Prop :=
  exists pre post, t = pre ++ EClock :: mid ++ EClock :: post /\
    ~ In EClock pre /\ ~ In EClock mid /\ ~ In EClock post.

Definition no_compile (l : list event) : Prop := forall k, ~ In (ECompile k) l.

(** the computations that have not ended all started before *)
Definition wf (s : st) : Prop := forall c, In c (s_run s) -> c < s_next s.

(** the interval holds the whole of one computation, the last one started, and starts no other;
    no other computation started by this call (numbers from [n0] on) ends inside *)
Definition covers (n0 : nat) (mid : list event) (s' : st) : Prop :=
  exists c, S c = s_next s' /\
    (exists a b d, mid = a ++ EStart c :: b ++ EEnd c :: d) /\
    (forall c', In (EStart c') mid -> c' = c) /\
    (forall c', n0 <= c' -> In (EEnd c') mid -> c' = c).

(** all values of a dictionary are jax arrays made by computation [c] *)
Definition made_by {T K} (keq : K -> K -> bool) (by_ : K -> nat) (d : @tdict T K) (c : nat) : Prop :=
  forall k v, In (k, v) (td_items d) -> is_jax v = true /\ by_ k = c.

(** the object's key list is up to date *)
Definition keys_current {T K} (d : @tdict T K) : Prop := td_keys d = map fst (td_items d).

(** all values are ready *)
Definition all_ready {T K} (by_ : K -> nat) (d : @tdict T K) (s : st) : Prop :=
  forall k v, In (k, v) (td_items d) -> ~ In (by_ k) (s_run s).

(** the call returns in state [s]: the awaited computation has ended *)
Definition returns {T K} (keq : K -> K -> bool) (by_ : K -> nat) (d : @tdict T K) (s : st) : Prop :=
  exists c, dict_wait keq by_ d = Some c /\ ~ In c (s_run s).
