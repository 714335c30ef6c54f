(** Properties C67 and C68: labels and cameras of Plotly subplots. *)
From Coq Require Import Reals Lra List Bool Arith Lia String.
From Verif Require Import Base ModelPrinter ModelMplot SpecMplot ModelPlotly SpecPlotly ProofMplot ProofPlotly.
Import ListNotations.
Local Open Scope list_scope.

(** C67, partial: on grids with one row or one column every subplot shows the labels of its cell.
    Missing: grids with several rows and columns (refuted below). *)
Theorem C67_own_labels_partial keep x y titles z r c :
  grid x r c -> covers (Some y) r c -> covers z r c -> covers titles r c -> r * c <> 0 -> r = 1 \/ c = 1 ->
  exists f, PlotlyPlot keep x y titles z = Some f /\ own_labels f x y z r c.
Proof.
  intros Hx Hy Hz Ht Hn H1. destruct (plotly_made keep x y titles z r c Hx Hy Hz Ht Hn) as [f [Ef [Hr [Hc _]]]]. exists f. split; [exact Ef|].
  split; [exact Hr|]. split; [exact Hc|]. intros j k Hj Hk.
  destruct (shown keep x y titles z r c f j k Hx Hy Hz Ht Ef Hj Hk) as [S _].
  assert (Nat.min (j * c + k) (r - 1) = j) as E by (destruct H1; subst; nia).
  assert (j * c + k - j = k) as E' by (destruct H1; subst; nia). cbv zeta in S. rewrite E, E' in S. apply S; [|tauto].
  destruct H1; subst; nia.
Qed.
Print Assumptions C67_own_labels_partial.

(** C67, partial: which labels each subplot of a larger grid shows, when all labels are given.
    Counting the subplots row by row from 0, subplot m shows the labels of row min(m, r-1) and
    column m - min(m, r-1) if m <= r+c-2, and no labels otherwise. *)
Theorem C67_shown_partial keep x y titles z r c j k :
  grid x r c -> covers (Some y) r c -> covers z r c -> covers titles r c ->
  full x r c -> full y r c -> (forall b, z = Some b -> full b r c) -> j < r -> k < c ->
  exists f, PlotlyPlot keep x y titles z = Some f /\
    let m := j * c + k in
    if m <=? r + c - 2 then shows f x y z j k (Nat.min m (r - 1)) (m - Nat.min m (r - 1)) else shows_nothing f j k.
Proof.
  intros Hx Hy Hz Ht Fx Fy Fz Hj Hk. destruct (plotly_made keep x y titles z r c Hx Hy Hz Ht ltac:(nia)) as [f [Ef _]]. exists f. split; [exact Ef|].
  destruct (shown keep x y titles z r c f j k Hx Hy Hz Ht Ef Hj Hk) as [S1 S2]. cbv zeta.
  destruct (Nat.leb_spec (j * c + k) (r + c - 2)) as [H|H]; [|apply S2, H]. apply S1; [exact H|]. do 3 right. auto.
Qed.
Print Assumptions C67_shown_partial.

(** C67 is false of every grid with at least two rows and two columns: the last subplot shows no
    label at all, and the second subplot of the first row shows the labels of the first cell of
    the second row. *)
Theorem C67_refuted keep x y titles z r c :
  grid x r c -> covers (Some y) r c -> covers z r c -> covers titles r c ->
  full x r c -> full y r c -> (forall b, z = Some b -> full b r c) -> 2 <= r -> 2 <= c ->
  exists f, PlotlyPlot keep x y titles z = Some f /\ ~ own_labels f x y z r c /\
    shows_nothing f (r - 1) (c - 1) /\ shows f x y z 0 1 1 0.
Proof.
  intros Hx Hy Hz Ht Fx Fy Fz Hr Hc. destruct (plotly_made keep x y titles z r c Hx Hy Hz Ht ltac:(nia)) as [f [Ef _]]. exists f. split; [exact Ef|].
  destruct (shown keep x y titles z r c f (r - 1) (c - 1) Hx Hy Hz Ht Ef ltac:(lia) ltac:(lia)) as [_ S2].
  assert (shows_nothing f (r - 1) (c - 1)) as SN by (apply S2; nia).
  destruct (shown keep x y titles z r c f 0 1 Hx Hy Hz Ht Ef ltac:(lia) ltac:(lia)) as [S1 _]. cbv zeta in S1.
  replace (Nat.min (0 * c + 1) (r - 1)) with 1 in S1 by lia. replace (0 * c + 1 - 1) with 0 in S1 by lia.
  split; [|split; [exact SN|apply S1; [lia|do 3 right; auto]]].
  intros [_ [_ H]]. destruct (H (r - 1) (c - 1) ltac:(lia) ltac:(lia)) as [s [E [Ex _]]]. destruct SN as [s' [E' [Ex' _]]].
  rewrite E in E'. injection E' as <-. apply (Fx (r - 1) (c - 1)); [lia|lia|congruence].
Qed.
Print Assumptions C67_refuted.

(** C67, partial: with labels missing too, an x (y, z) axis shows nothing but one of the x (y, z)
    labels, namely one whose row and column add up to the number of the subplot. *)
Theorem C67_kind_partial keep x y titles z r c j k :
  grid x r c -> covers (Some y) r c -> covers z r c -> covers titles r c -> j < r -> k < c ->
  exists f s, PlotlyPlot keep x y titles z = Some f /\ sub_at f j k = Some s /\
    let from g v := v = None \/ exists j' k', j' < r /\ k' < c /\ j' + k' = j * c + k /\ v = g j' k' in
    from (entry x) (p_x s) /\ from (entry y) (p_y s) /\ from (entry_opt z) (p_z s).
Proof.
  intros Hx Hy Hz Ht Hj Hk. destruct (plotly_made keep x y titles z r c Hx Hy Hz Ht ltac:(nia)) as [f [Ef [Hr [Hc [_ [_ [_ Hn]]]]]]].
  exists f. eexists. split; [exact Ef|]. unfold sub_at. rewrite Hc, Hn, repeat_nth by nia. split; [reflexivity|]. cbv zeta.
  assert (W : forall (g : nat -> nat -> option text) v, v = None \/ (exists j' k', In (j', k') (cells r c) /\ j' + k' = j * c + k /\ v = g j' k') ->
    v = None \/ exists j' k', j' < r /\ k' < c /\ j' + k' = j * c + k /\ v = g j' k').
  { intros g v [H|(j' & k' & H1 & H2 & H3)]; [auto|right; exists j', k']. apply in_cells in H1 as [? ?]. auto. }
  destruct (fold_own keep x y z (j * c + k) (cells r c)) as (A & B & D). split; [|split]; apply W; assumption.
Qed.
Print Assumptions C67_kind_partial.

(** C67, partial: with labels missing too, which label an axis shows.  If Plotly takes a title
    [None] as "no title" ([keep] false), the lowest cell with that sum decides, label or not; if it
    leaves the title alone, the lowest of these cells that has the label. *)
Theorem C67_missing_partial (keep : bool) x y titles z r c j k :
  grid x r c -> covers (Some y) r c -> covers z r c -> covers titles r c -> j < r -> k < c ->
  exists f s, PlotlyPlot keep x y titles z = Some f /\ sub_at f j k = Some s /\
    let m := j * c + k in
    if keep then latest (entry x) r c m (p_x s) /\ latest (entry y) r c m (p_y s) /\ latest (entry_opt z) r c m (p_z s)
    else if m <=? r + c - 2 then shows f x y z j k (Nat.min m (r - 1)) (m - Nat.min m (r - 1)) else shows_nothing f j k.
Proof.
  intros Hx Hy Hz Ht Hj Hk. destruct (plotly_made keep x y titles z r c Hx Hy Hz Ht ltac:(nia)) as [f [Ef [Hr [Hc [_ [_ [_ Hn]]]]]]].
  exists f. eexists. split; [exact Ef|]. unfold sub_at. rewrite Hc, Hn, repeat_nth by nia. split; [reflexivity|]. cbv zeta.
  destruct keep.
  - destruct (fold_given true x y z (j * c + k) (cells r c) eq_refl) as (A & B & D). split; [|split]; apply last_of_cells; assumption.
  - destruct (shown false x y titles z r c f j k Hx Hy Hz Ht Ef Hj Hk) as [S1 S2].
    destruct (Nat.leb_spec (j * c + k) (r + c - 2)) as [H|H]; [|apply S2, H]. apply S1; [exact H|]. left. reflexivity.
Qed.
Print Assumptions C67_missing_partial.

(** a grid without cells is rejected *)
Theorem C67_empty_partial keep x y titles z r c : grid x r c -> r * c = 0 -> PlotlyPlot keep x y titles z = None.
Proof.
  intros Hx Hn. destruct (norm_grid x r c Hx) as [X [EX [HXr [HXc _]]]]. unfold PlotlyPlot. rewrite EX. cbn [bind].
  destruct (norm y); [|reflexivity]. cbn [bind]. destruct (norm_opt z); [|reflexivity]. cbn [bind]. destruct (flat_titles titles); [|reflexivity].
  cbn [bind]. rewrite HXr, HXc, Hn. reflexivity.
Qed.
Print Assumptions C67_empty_partial.

Local Notation "'q' s" := (Some (txt s)) (at level 5, s at level 4).
Example C67_column : exists f, PlotlyPlot true (LFlat [q"t"; q"s"]) (LFlat [q"u"; None]) None None = Some f /\
  map (fun s => (p_x s, p_y s)) (pf_sub f) = [(q"t", q"u"); (q"s", None)].
Proof. eexists. split; reflexivity. Qed.
(** one label missing in the second row: the second subplot shows the label above it, or none *)
Example C67_missing_case : exists f f',
  PlotlyPlot true (LNested [[q"a"; q"b"]; [None; q"d"]]) (LNested [[q"e"; q"f"]; [q"g"; q"h"]]) None None = Some f /\
  PlotlyPlot false (LNested [[q"a"; q"b"]; [None; q"d"]]) (LNested [[q"e"; q"f"]; [q"g"; q"h"]]) None None = Some f' /\
  map p_x (pf_sub f) = [q"a"; q"b"; q"d"; None] /\ map p_x (pf_sub f') = [q"a"; None; q"d"; None].
Proof. do 2 eexists. repeat split. Qed.
Example C67_square : exists f,
  PlotlyPlot true (LNested [[q"a"; q"b"]; [q"c"; q"d"]]) (LNested [[q"e"; q"f"]; [q"g"; q"h"]]) None None = Some f /\
  map (fun s => (p_x s, p_y s)) (pf_sub f) = [(q"a", q"e"); (q"c", q"g"); (q"d", q"h"); (None, None)].
Proof. eexists. split; reflexivity. Qed.

(** C68, partial: after any sequence of calls of view on a 3-D figure, each naming a subplot of the
    first row or of a figure with one column, and never a distance 0, each camera is where the
    last call for its subplot put it, at the distance in force at that call; the labels are
    unchanged.  Missing: rows after the first of figures with several columns, and distance 0
    (refuted below). *)
Theorem C68_history_partial keep x y titles z r c vs :
  grid x r c -> covers (Some y) r c -> covers (Some z) r c -> covers titles r c -> r * c <> 0 ->
  (forall v, In v vs -> v_j v < r /\ v_k v < c /\ (v_j v = 0 \/ c = 1) /\ v_d v <> Some 0%R) ->
  exists f0 f, PlotlyPlot keep x y titles (Some z) = Some f0 /\ run_views f0 vs = Some f /\
  forall j k, j < r -> k < c -> camera_ok f vs j k /\
    forall s0, sub_at f0 j k = Some s0 -> exists e, sub_at f j k = Some (PSub (p_x s0) (p_y s0) (p_z s0) e).
Proof.
  intros Hx Hy Hz Ht Hn Hv. destruct (plotly_made keep x y titles (Some z) r c Hx Hy Hz Ht Hn) as [f0 [E0 [Hr [Hc [H3 [Hd [Hl H]]]]]]].
  exists f0. destruct (history f0 vs) as [f [E Hf]].
  - unfold history_ok. rewrite Hr, Hc. do 2 (split; [reflexivity|]). split; [exact H3|]. split; [exact Hl|]. split; [exact Hd|]. split.
    + intros j k Hj Hk. unfold camera_ok, sub_at. rewrite Hc, H, repeat_nth by nia. eexists. split; [reflexivity|].
      assert (forall cs s, p_eye s = None ->
        p_eye (fold_left (fun s jk => if fst jk + snd jk =? j * c + k then relabel keep x y (Some z) jk s else s) cs s) = None) as K.
      { induction cs as [|jk cs IH]; intros s Es; [exact Es|]. cbn [fold_left]. apply IH. destruct (_ =? _); exact Es. }
      rewrite K by reflexivity. intros v [].
    + intros j k s0 _ _ Es. apply same_labels_refl, Es.
  - rewrite Hr, Hc. exact Hv.
  - exists f. split; [exact E0|]. split; [exact E|]. destruct Hf as [_ [_ [_ [_ [_ [Hcam Hlab]]]]]]. rewrite Hr, Hc in *.
    intros j k Hj Hk. split; [apply Hcam; assumption|]. intros s0 Es. apply Hlab; assumption.
Qed.
Print Assumptions C68_history_partial.

(** one call, on any state of a 3-D figure, with or without a subplot named: only that camera
    moves, and it goes where it was asked to *)
Theorem C68_one_call_partial f az el row col dist j k :
  pf_3d f = true -> List.length (pf_sub f) = pf_r f * pf_c f -> j < pf_r f -> k < pf_c f ->
  (row = Some (S j) /\ col = Some (S k) /\ (j = 0 \/ pf_c f = 1)) \/ ((row = None \/ col = None) /\ j = 0 /\ k = 0) ->
  dist <> Some 0%R ->
  exists f' s e, view f az el row col dist = Some f' /\ same_but_camera f f' j k /\ sub_at f' j k = Some s /\ p_eye s = Some e /\
    pf_dist f' = match dist with Some d => d | None => pf_dist f end /\ placed e (pf_dist f') az el.
Proof.
  intros H3 Hl Hj Hk Hrc Hd.
  assert ((match row, col with Some (S r), Some (S c) => r + c | _, _ => 0 end) = j * pf_c f + k) as Hs.
  { destruct Hrc as [[-> [-> [->| ->]]]|[[->| ->] [-> ->]]]; try lia. destruct row as [[|]|]; reflexivity. }
  destruct (view_spec f az el row col dist j k H3 Hl Hj Hk Hs) as [f' [s [e [E [Sb [Es [Ee [Hd' [Hp _]]]]]]]]].
  exists f', s, e. repeat (split; [assumption|]). split; [|exact Hp]. rewrite Hd'. destruct dist as [d|]; [|reflexivity].
  destruct (Req_EM_T d 0) as [->|]; [contradiction|reflexivity].
Qed.
Print Assumptions C68_one_call_partial.

(** view is an error on 2-D figures *)
Theorem C68_flat_partial f az el row col dist : pf_3d f = false -> view f az el row col dist = None.
Proof. intros H. unfold view. rewrite H. reflexivity. Qed.
Print Assumptions C68_flat_partial.

(** C68 is false of every subplot below the first row of a figure with several columns: its camera
    stays as it was, and that of another subplot moves. *)
Theorem C68_row_refuted f az el dist j k :
  pf_3d f = true -> List.length (pf_sub f) = pf_r f * pf_c f -> 0 < j < pf_r f -> k < pf_c f -> 2 <= pf_c f -> dist <> Some 0%R ->
  exists f' j' k' s e, view f az el (Some (S j)) (Some (S k)) dist = Some f' /\ sub_at f' j k = sub_at f j k /\
    j' < pf_r f /\ k' < pf_c f /\ (j', k') <> (j, k) /\ sub_at f' j' k' = Some s /\ p_eye s = Some e /\ placed e (pf_dist f') az el.
Proof.
  intros H3 Hl Hj Hk Hc Hd. set (c := pf_c f) in *. set (j' := (j + k) / c). set (k' := (j + k) mod c).
  assert (j + k = j' * c + k') as E by (unfold j', k'; rewrite Nat.mul_comm; apply Nat.div_mod; lia).
  assert (k' < c) as Hk' by (apply Nat.mod_upper_bound; lia).
  assert (j + k < j * c + k) as Hlt by nia.
  assert (j' <= j) as Hle by nia.
  assert ((j', k') <> (j, k)) as Hne by (intros X; injection X; intros; nia).
  destruct (view_spec f az el (Some (S j)) (Some (S k)) dist j' k' H3 Hl ltac:(lia) Hk' E) as [f' [s [e [Ev [Sb [Es [Ee [_ [Hp _]]]]]]]]].
  exists f', j', k', s, e. split; [exact Ev|]. destruct Sb as [_ [_ [_ [_ [So _]]]]]. split; [apply So; [exact Hk|congruence]|].
  split; [lia|]. repeat (split; [assumption|]). exact Hp.
Qed.
Print Assumptions C68_row_refuted.

(** C68 is false of the distance 0, which is taken for no distance: the camera of the main scene
    is put at the distance in force before, not at the centre *)
Theorem C68_zero_refuted f az el row col : pf_3d f = true -> pf_sub f <> [] -> pf_dist f <> 0%R -> row = None \/ col = None ->
  view f az el row col (Some 0%R) = view f az el row col None /\
  exists f' s e, view f az el row col (Some 0%R) = Some f' /\ sub_at f' 0 0 = Some s /\ p_eye s = Some e /\ dot3 e e <> 0%R.
Proof.
  intros H3 Hs Hd Hrc. assert (view f az el row col (Some 0%R) = view f az el row col None) as E.
  { unfold view. destruct (Req_EM_T 0 0) as [_|N]; [reflexivity|destruct N; reflexivity]. }
  split; [exact E|]. rewrite E. unfold view. rewrite H3.
  destruct (pf_sub f) as [|s ss]; [contradiction|].
  replace (match row with Some (S r) => match col with Some (S c) => S r + S c - 1 - 1 | _ => 0 end | _ => 0 end) with 0
    by (destruct Hrc as [->| ->]; [reflexivity|destruct row as [[|]|]; reflexivity]).
  cbn [modify bind]. eexists. eexists. eexists. split; [reflexivity|]. split; [reflexivity|]. split; [reflexivity|].
  rewrite (proj1 (placed_ok _ _ _)). nra.
Qed.
Print Assumptions C68_zero_refuted.

(** a side-by-side pair of 3-D plots: moving the second one twice and the first not at all *)
Example C68_case : exists f0 f,
  PlotlyPlot true (LNested [[q"x"; q"x"]]) (LNested [[q"y"; q"y"]]) None (Some (LNested [[q"z"; q"z"]])) = Some f0 /\
  run_views f0 [VCall 30 45 0 1 (Some 4%R); VCall 90 0 0 1 None] = Some f /\
  exists a b e, pf_sub f = [a; b] /\ p_eye a = None /\ p_eye b = Some e /\ e = (-4, 0, 0)%R /\ p_z b = q"z".
Proof.
  eexists. eexists. split; [reflexivity|]. split.
  - cbn. unfold view. cbn. destruct (Req_EM_T 4 0) as [N|_]; [lra|]. cbn. reflexivity.
  - eexists. eexists. eexists. split; [reflexivity|]. split; [reflexivity|]. split; [reflexivity|]. split; [|reflexivity].
    replace (90 * (PI / 180))%R with (PI / 2)%R by field. replace (0 * (PI / 180))%R with 0%R by ring.
    rewrite sin_PI2, cos_PI2, sin_0, cos_0. f_equal; [f_equal|]; ring.
Qed.
