(** What a user expects of the weights and biases of an ELM object: they are two
    arrays of numbers, changed only by an accepted assignment. *)
From Coq Require Import List Arith ZArith Bool.
From Verif Require Import Base ModelWeights.
Import ListNotations.

(** element [z] of block [blk], and the array a view shows *)
Definition entry {T} (h : heap T) (blk : nat) (z : Z) : option T :=
  if (0 <=? z)%Z then nth (Z.to_nat z) (map Some (nth blk h [])) None else None.
Definition contents {T} (h : heap T) (v : view) : option (list T) :=
  mapM (fun i => entry h (v_blk v) (v_off v + v_str v * Z.of_nat i)%Z) (seq 0 (v_len v)).
(** memory after element [i] of block [blk] has been overwritten *)
Definition store {T} (h : heap T) (blk i : nat) (x : T) : heap T :=
  map (fun bl => map (fun jy => if (fst bl =? blk) && (fst jy =? i) then x else snd jy)
                     (combine (seq 0 (length (snd bl))) (snd bl)))
      (combine (seq 0 (length h)) h).

(** the value last written to element [i] of block [blk] *)
Definition written {T} (ops : list (wop T)) (blk i : nat) : option T :=
  fold_left (fun a o => match o with
                        | Poke b j x => if (b =? blk) && (j =? i) then Some x else a
                        | _ => a end) ops None.
(** element [z] of block [blk] after the history *)
Definition now_entry {T} (h : heap T) (ops : list (wop T)) (blk : nat) (z : Z) : option T :=
  match entry h blk z with
  | None => None
  | Some y => Some (match written ops blk (Z.to_nat z) with Some x => x | None => y end)
  end.
Definition now_contents {T} (h : heap T) (ops : list (wop T)) (v : view) : option (list T) :=
  mapM (fun i => now_entry h ops (v_blk v) (v_off v + v_str v * Z.of_nat i)%Z) (seq 0 (v_len v)).
(** the array last accepted as the weights, as the biases *)
Definition last_w {T} (m : nat) (ops : list (wop T)) (v : view) : view :=
  fold_left (fun a o => match o with SetW v => if v_len v =? m then v else a | _ => a end) ops v.
Definition last_b {T} (m : nat) (ops : list (wop T)) (v : view) : view :=
  fold_left (fun a o => match o with SetB v => if v_len v =? m then v else a | _ => a end) ops v.

(** the caller's arrays, the current weights, the current biases *)
Record sstate (T : Type) := Sst { s_h : heap T; s_w : list T; s_b : list T }.
Arguments Sst {T}. Arguments s_h {T}. Arguments s_w {T}. Arguments s_b {T}.

Section Spec.
Context {T O : Type} (Hf : list T -> list T -> O) (m : nat).

Definition spec_step (s : sstate T) (o : wop T) : sstate T * wout T O :=
  match o with
  | SetW v => if v_len v =? m
              then match contents (s_h s) v with Some l => (Sst (s_h s) l (s_b s), Done) | None => (s, Fault) end
              else (s, Rejected)
  | SetB v => if v_len v =? m
              then match contents (s_h s) v with Some l => (Sst (s_h s) (s_w s) l, Done) | None => (s, Fault) end
              else (s, Rejected)
  | GetW => (Sst (s_h s ++ [s_w s]) (s_w s) (s_b s), Arr (s_w s))
  | GetB => (Sst (s_h s ++ [s_b s]) (s_w s) (s_b s), Arr (s_b s))
  | Eval => (s, Mtx (Hf (s_w s) (s_b s)))
  | Poke blk i x => (Sst (store (s_h s) blk i x) (s_w s) (s_b s), Done)
  end.
Fixpoint spec_run (s : sstate T) (ops : list (wop T)) : list (wout T O) :=
  match ops with [] => [] | o :: ops => let (s', r) := spec_step s o in r :: spec_run s' ops end.

(** the same observations, except that the process ends at the first rejected assignment *)
Fixpoint until_exit (l : list (wout T O)) : list (wout T O) :=
  match l with [] => [] | r :: t => match r with Rejected => [Exited] | _ => r :: until_exit t end end.
End Spec.

(** every array assigned in the operation is contiguous in memory *)
Definition contiguous {T} (o : wop T) : Prop :=
  match o with SetW v | SetB v => v_str v = 1%Z | _ => True end.
(** every array assigned is one of the arrays of [h] *)
Definition readable {T} (h : heap T) (o : wop T) : Prop :=
  match o with SetW v | SetB v => exists l, contents h v = Some l | _ => True end.
Definition not_poke {T} (o : wop T) : Prop := match o with Poke _ _ _ => False | _ => True end.
