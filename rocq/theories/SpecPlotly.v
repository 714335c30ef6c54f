(** Labels and cameras of Plotly subplots, by row and column. *)
From Coq Require Import Reals List Bool Arith.
From Verif Require Import Base ModelPrinter ModelMplot SpecMplot ModelPlotly.
Import ListNotations.

(** the subplot in row [j], column [k] (from 0): Plotly numbers row by row *)
Definition sub_at (f : pfig) (j k : nat) : option psub := nth_error (pf_sub f) (j * pf_c f + k).
(** subplot (j, k) shows the labels of cell (j', k') *)
Definition shows (f : pfig) (x y : larg) (z : option larg) (j k j' k' : nat) : Prop :=
  exists s, sub_at f j k = Some s /\ p_x s = entry x j' k' /\ p_y s = entry y j' k' /\ p_z s = entry_opt z j' k'.
Definition shows_nothing (f : pfig) (j k : nat) : Prop :=
  exists s, sub_at f j k = Some s /\ p_x s = None /\ p_y s = None /\ p_z s = None.
(** an r by c figure all of whose subplots show the labels of their own cells *)
Definition own_labels (f : pfig) (x y : larg) (z : option larg) (r c : nat) : Prop :=
  pf_r f = r /\ pf_c f = c /\ forall j k, j < r -> k < c -> shows f x y z j k j k.
(** every label is given *)
Definition full (a : larg) (r c : nat) : Prop := forall j k, j < r -> k < c -> entry a j k <> None.

(** [v] is the lowest label given among the cells whose row and column add up to [m] *)
Definition latest (g : nat -> nat -> option text) (r c m : nat) (v : option text) : Prop :=
  (v = None /\ forall j k, j < r -> k < c -> j + k = m -> g j k = None) \/
  exists j k, j < r /\ k < c /\ j + k = m /\ v = g j k /\ v <> None /\
    forall j' k', j' < r -> k' < c -> j' + k' = m -> j < j' -> g j' k' = None.

Local Open Scope R_scope.
Definition deg (x : R) : R := x * PI / 180.
Definition dot3 (u v : R * R * R) : R := let '(a, b, c) := u in let '(a', b', c') := v in a * a' + b * b' + c * c'.
(** the point [e] lies at (signed) distance [d] from the centre, [el] degrees above the horizontal
    plane, and horizontally in the direction [az] degrees from the negative y axis *)
Definition placed (e : R * R * R) (d az el : R) : Prop :=
  dot3 e e = d * d /\
  dot3 e (0, 0, 1) = d * sin (deg el) /\
  dot3 e (- sin (deg az), - cos (deg az), 0) = d * cos (deg el) /\
  dot3 e (cos (deg az), - sin (deg az), 0) = 0.

(** a call of view: angles, subplot (row and column from 0) and distance *)
Record vcall := VCall { v_az : R; v_el : R; v_j : nat; v_k : nat; v_d : option R }.
Definition run_view (f : pfig) (v : vcall) : option pfig := view f (v_az v) (v_el v) (Some (S (v_j v))) (Some (S (v_k v))) (v_d v).
Fixpoint run_views (f : pfig) (vs : list vcall) : option pfig :=
  match vs with [] => Some f | v :: vs => f' <- run_view f v ;; run_views f' vs end.
(** the distance in force after these calls *)
Definition distance_after (vs : list vcall) : R := fold_left (fun d v => match v_d v with Some d' => d' | None => d end) vs (5 / 2).
(** the camera of subplot (j, k) after these calls: where the last call for it put it *)
Definition camera_ok (f : pfig) (vs : list vcall) (j k : nat) : Prop :=
  exists s, sub_at f j k = Some s /\
    match p_eye s with
    | None => forall v, In v vs -> (v_j v, v_k v) <> (j, k)
    | Some e => exists before v after, vs = before ++ v :: after /\ (v_j v, v_k v) = (j, k) /\
        (forall w, In w after -> (v_j w, v_k w) <> (j, k)) /\
        placed e (distance_after (before ++ [v])) (v_az v) (v_el v)
    end.
(** the two figures differ at most in the camera of subplot (j, k) *)
Definition same_but_camera (f f' : pfig) (j k : nat) : Prop :=
  pf_r f' = pf_r f /\ pf_c f' = pf_c f /\ pf_3d f' = pf_3d f /\ pf_titles f' = pf_titles f /\
  (forall j' k', (k' < pf_c f)%nat -> (j', k') <> (j, k) -> sub_at f' j' k' = sub_at f j' k') /\
  (forall s, sub_at f j k = Some s -> exists e, sub_at f' j k = Some (PSub (p_x s) (p_y s) (p_z s) e)).
