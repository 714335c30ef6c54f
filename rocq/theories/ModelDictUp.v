(** [TFCDict.update] (utils/TFCUtils.py 377-389) with what it leaves behind when it raises: the items
    and the keys are already the new ones (386-388), the list of slices holds [slice(0, 0, 1)] from the
    failing key on (363-371).  ModelDict.v has only the outcome.  Simplification: a failing
    [super().update] is not modelled, the arguments being pairs. *)
From Coq Require Import List Arith Bool.
From Verif Require Import Base ModelDict.
Import ListNotations.

Section Up.
Context {T K : Type} (keq : K -> K -> bool).
Notation heap := (@heap T). Notation val := (@val T). Notation tdict := (@tdict T K).
(** the loop 366-371; slices of the keys not reached stay [slice(0, 0, 1)] *)
Fixpoint fill (h : heap) (start : nat) (vs : list val) : list (option (nat * nat)) * outcome :=
  match vs with
  | [] => ([], Done)
  | v :: vs' =>
      match len0 h v with
      | Some n => let (s, r) := fill h (start + n) vs' in (Some (start, start + n) :: s, r)
      | None => (repeat (Some (0, 0)) (length vs), Raised)
      end
  end.
(** getSlices, 353-375 *)
Definition getSlices_run (h : heap) (vs : list val) : list (option (nat * nat)) * outcome :=
  if forallb is_arr vs then fill h 0 vs else (repeat None (length vs), Done).
(** update, 377-389 *)
Definition update_run (h : heap) (d : tdict) (l : list (K * val)) : tdict * outcome :=
  let it := od_update keq (td_items d) l in
  let (s, r) := getSlices_run h (map snd it) in
  (TD it (map fst it) s, r).
End Up.
