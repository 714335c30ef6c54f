(** One colour scale for several plots. *)
From Coq Require Import Reals List Bool.
From Verif Require Import Base ModelPrinter ModelMplot ModelColor.
Import ListNotations.

Definition is_listed (types : list text) (k : trace) : Prop := In (t_class k) types.
(** the plot has the named data: at least one number *)
Definition has_data (k : trace) (v : list R) : Prop := t_in k = Some true /\ t_val k = Some v /\ v <> [].
(** [x] is one of the numbers the listed plots hold *)
Definition among (types : list text) (ks : list trace) (x : R) : Prop :=
  exists k v, In k ks /\ is_listed types k /\ has_data k v /\ In x v.
Definition largest (P : R -> Prop) (m : R) : Prop := P m /\ forall x, P x -> (x <= m)%R.
Definition smallest (P : R -> Prop) (m : R) : Prop := P m /\ forall x, P x -> (m <= x)%R.
Definition with_scale (k : trace) (cmax cmin : option ext) : trace := Trace (t_class k) (t_in k) (t_val k) (t_scaled k) cmax cmin.
(** every plot for which [which] holds got this scale, the others are unchanged, in the same order *)
Definition scaled (which : trace -> Prop) (cmax cmin : trace -> option ext) (ks ks' : list trace) : Prop :=
  Forall2 (fun k k' => (which k /\ k' = with_scale k (cmax k) (cmin k)) \/ (~ which k /\ k' = k)) ks ks'.
