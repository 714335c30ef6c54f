(** Property C113: colours of Plotly subplots. *)
From Coq Require Import Reals Lra List Bool Arith Lia String.
From Verif Require Import Base ModelPrinter ModelMplot SpecMplot ModelPlotly SpecPlotly ProofMplot ProofPlotly ModelPlotlyCol SpecPlotlyCol.
Import ListNotations.
Local Open Scope list_scope.

Section Loop.
Variables (grid back : text).
Notation no := (SCol no_colour no_colour no_colour).
Definition paint (jk : nat * nat) (s : scol) : scol :=
  if (fst jk =? 0) && (snd jk =? 0) then on_all (first_scene grid back) s else on_all (other_scene grid back) s.
Lemma loop_ok cs : forall l, (forall j k, In (j, k) cs -> j + k < List.length l) ->
  exists l', foldM (fun (rc : nat * nat) (l : list scol) =>
    let (row, col) := rc in
    if (row =? 0) && (col =? 0) then modify (on_all (first_scene grid back)) l 0
    else modify (on_all (other_scene grid back)) l (row + col + 1 - 1)) cs l = Some l' /\ List.length l' = List.length l /\
  forall n, nth_error l' n = option_map (fold_left (fun s jk => if fst jk + snd jk =? n then paint jk s else s) cs) (nth_error l n).
Proof.
  induction cs as [|[j k] cs IH]; intros l Hi.
  - exists l. cbn. repeat split. intros n. destruct (nth_error l n); reflexivity.
  - cbn [foldM].
    assert (exists l1, (if (j =? 0) && (k =? 0) then modify (on_all (first_scene grid back)) l 0
      else modify (on_all (other_scene grid back)) l (j + k + 1 - 1)) = Some l1 /\ List.length l1 = List.length l /\
      forall n, nth_error l1 n = option_map (fun s => if j + k =? n then paint (j, k) s else s) (nth_error l n)) as (l1 & E1 & L1 & H1).
    { assert (j + k < List.length l) as Hl by (apply Hi; left; reflexivity). unfold paint. cbn [fst snd].
      destruct ((j =? 0) && (k =? 0)) eqn:E.
      - apply andb_true_iff in E as [Ej Ek]. apply Nat.eqb_eq in Ej, Ek. subst.
        destruct (modify_spec (on_all (first_scene grid back)) l 0 Hl) as (l1 & E & L & H). exists l1. split; [exact E|]. split; [exact L|].
        intros n. rewrite H, (Nat.eqb_sym n 0). reflexivity.
      - destruct (modify_spec (on_all (other_scene grid back)) l (j + k + 1 - 1) ltac:(lia)) as (l1 & E' & L & H). exists l1. split; [exact E'|]. split; [exact L|].
        intros n. rewrite H. replace (j + k + 1 - 1) with (j + k) by lia. rewrite (Nat.eqb_sym n (j + k)). reflexivity. }
    rewrite E1. cbn [bind]. destruct (IH l1) as (l2 & E2 & L2 & H2).
    { intros j' k' Hin. rewrite L1. apply Hi. right. exact Hin. }
    exists l2. split; [exact E2|]. split; [congruence|]. intros n. rewrite H2, H1. destruct (nth_error l n); reflexivity.
Qed.
Lemma fold_none n cs s : (forall j k, In (j, k) cs -> j + k <> n) ->
  fold_left (fun s jk => if fst jk + snd jk =? n then paint jk s else s) cs s = s.
Proof.
  revert s. induction cs as [|[j k] cs IH]; intros s H; [reflexivity|]. cbn [fold_left fst snd].
  destruct (Nat.eqb_spec (j + k) n) as [E|_]; [destruct (H j k); [left; reflexivity|exact E]|]. apply IH. intros; apply H; right; assumption.
Qed.
Lemma fold_later n cs s : n <> 0 -> (exists j k, In (j, k) cs /\ j + k = n) \/ s = on_all (other_scene grid back) no -> s = no \/ s = on_all (other_scene grid back) no ->
  fold_left (fun s jk => if fst jk + snd jk =? n then paint jk s else s) cs s = on_all (other_scene grid back) no.
Proof.
  intros Hn. revert s. induction cs as [|[j k] cs IH]; intros s H Hs.
  - destruct H as [(j & k & [] & _)|H]. exact H.
  - cbn [fold_left fst snd]. destruct (Nat.eqb_spec (j + k) n) as [E|E].
    + apply IH; right; unfold paint; cbn [fst snd]; replace ((j =? 0) && (k =? 0)) with false by (destruct j, k; cbn in *; try reflexivity; lia); destruct Hs as [->| ->]; reflexivity.
    + apply IH; [|exact Hs]. destruct H as [(j' & k' & [Q|Q] & E')|H]; [injection Q as -> ->; lia|left; exists j', k'; auto|right; exact H].
Qed.
Lemma fold_first cs s : (exists j k, In (j, k) cs /\ j + k = 0) \/ s = on_all (first_scene grid back) no -> s = no \/ s = on_all (first_scene grid back) no ->
  fold_left (fun s jk => if fst jk + snd jk =? 0 then paint jk s else s) cs s = on_all (first_scene grid back) no.
Proof.
  revert s. induction cs as [|[j k] cs IH]; intros s H Hs.
  - destruct H as [(j & k & [] & _)|H]. exact H.
  - cbn [fold_left fst snd]. destruct (Nat.eqb_spec (j + k) 0) as [E|E].
    + assert (j = 0 /\ k = 0) as [-> ->] by lia. apply IH; right; destruct Hs as [->| ->]; reflexivity.
    + apply IH; [|exact Hs]. destruct H as [(j' & k' & [Q|Q] & E')|H]; [injection Q as -> ->; lia|left; exists j', k'; auto|right; exact H].
Qed.
Lemma cell_in r c j k : In (j, k) (cells r c) <-> j < r /\ k < c.
Proof.
  unfold cells. rewrite in_concat. split.
  - intros (l & Hl & Hin). apply in_map_iff in Hl as (j' & <- & Hj). apply in_map_iff in Hin as (k' & E & Hk). injection E as -> ->.
    apply in_seq in Hj, Hk. lia.
  - intros [Hj Hk]. exists (map (fun k => (j, k)) (seq 0 c)). split; apply in_map_iff; [exists j|exists k]; rewrite in_seq; split; try reflexivity; lia.
Qed.
(** the scenes with numbers up to r + c - 2 (from 0) are painted, the others are not *)
Lemma scenes r c : r * c <> 0 -> exists l, scene_loop grid back r c (repeat no (r * c)) = Some l /\
  forall n, n < r * c -> nth_error l n = Some (if n =? 0 then on_all (first_scene grid back) no else if n <=? r + c - 2 then on_all (other_scene grid back) no else no).
Proof.
  intros H0. destruct (loop_ok (cells r c) (repeat no (r * c))) as (l & E & _ & H).
  { intros j k Hin. apply cell_in in Hin. rewrite repeat_length. nia. }
  exists l. split; [exact E|]. intros n Hn. rewrite H.
  assert (nth_error (repeat no (r * c)) n = Some no) as ->.
  { rewrite (nth_error_nth' _ no) by (rewrite repeat_length; exact Hn). rewrite nth_repeat. reflexivity. }
  cbn [option_map]. f_equal. destruct (Nat.eqb_spec n 0) as [->|Hn0].
  - apply fold_first; [|left; reflexivity]. left. exists 0, 0. rewrite cell_in. nia.
  - destruct (Nat.leb_spec n (r + c - 2)) as [Hle|Hgt].
    + apply fold_later; [exact Hn0| |left; reflexivity]. left. exists (Nat.min n (r - 1)), (n - Nat.min n (r - 1)). rewrite cell_in. nia.
    + apply fold_none. intros j k Hin. apply cell_in in Hin. lia.
Qed.
End Loop.

Lemma made_c grid back keep x y titles z r c : SpecMplot.grid x r c -> covers (Some y) r c -> covers z r c -> covers titles r c -> r * c <> 0 ->
  exists f p, PlotlyPlotC grid back keep x y titles z = Some (f, p) /\ PlotlyPlot keep x y titles z = Some f /\
    colours grid back (given z) r c = Some p.
Proof.
  intros Hx Hy Hz Ht Hn. destruct (plotly_made keep x y titles z r c Hx Hy Hz Ht Hn) as [f [Ef [Hr [Hc [E3 H]]]]].
  unfold PlotlyPlotC. rewrite Ef. cbn [bind]. rewrite Hr, Hc, E3.
  destruct z as [a|]; cbn [given]; unfold colours.
  - destruct (scenes grid back r c Hn) as (l & El & _). rewrite El. cbn [bind]. eauto.
  - cbn [bind]. eauto.
Qed.

(** C113 for 2-D figures, partial: both axes of every subplot have the grid colour of the class for their grid and
    zero lines and black axis lines, and the plot area has the background colour.  Missing: 3-D
    figures with several rows and columns (refuted below). *)
Theorem C113_flat_partial grid back keep x y titles r c j k :
  SpecMplot.grid x r c -> covers (Some y) r c -> covers titles r c -> j < r -> k < c ->
  exists f p, PlotlyPlotC grid back keep x y titles None = Some (f, p) /\ c_plot p = Some back /\
    all_axes (fun a => a_grid a = Some grid /\ a_zero a = Some grid /\ a_line a = Some (txt "black")) p c j k false.
Proof.
  intros Hx Hy Ht Hj Hk. destruct (made_c grid back keep x y titles None r c Hx Hy I Ht ltac:(nia)) as (f & p & E & _ & Ep). exists f, p. split; [exact E|].
  injection Ep as <-. split; [reflexivity|]. unfold all_axes, sub_axes. cbn [c_sub]. rewrite nth_error_map.
  rewrite (nth_error_nth' (repeat _ (r * c)) (SCol no_colour no_colour no_colour)) by (rewrite repeat_length; nia). rewrite nth_repeat.
  eexists. split; [reflexivity|]. split; [discriminate|]. intros a [<-|[<-|[]]]; cbn; auto.
Qed.
Print Assumptions C113_flat_partial.

(** C113 for 3-D figures, partial: which scenes are given the colours.  Counting the subplots row by row from 0, all
    three axes of subplot m are given the colours for grid and background if m <= r+c-2, and none of their
    colours is set otherwise.  The zero lines of the first scene are never coloured, those of the
    other scenes with the rest. *)
Theorem C113_scene_partial grid back keep x y titles z r c j k :
  SpecMplot.grid x r c -> covers (Some y) r c -> covers (Some z) r c -> covers titles r c -> j < r -> k < c ->
  exists f p, PlotlyPlotC grid back keep x y titles (Some z) = Some (f, p) /\
    let m := j * c + k in
    if m <=? r + c - 2 then
      all_axes (fun a => in_colours grid back a /\ a_zero a = if m =? 0 then None else Some grid) p c j k true
    else all_axes untouched p c j k true.
Proof.
  intros Hx Hy Hz Ht Hj Hk. destruct (made_c grid back keep x y titles (Some z) r c Hx Hy Hz Ht ltac:(nia)) as (f & p & E & _ & Ep). exists f, p. split; [exact E|].
  unfold colours in Ep. destruct (scenes grid back r c ltac:(nia)) as (l & El & Hl). rewrite El in Ep. cbn [bind] in Ep. injection Ep as <-.
  cbv zeta. specialize (Hl (j * c + k) ltac:(nia)). unfold all_axes, sub_axes. cbn [c_sub]. rewrite Hl. cbn [option_map].
  destruct (Nat.eqb_spec (j * c + k) 0) as [E0|E0].
  - rewrite E0. cbn [Nat.leb]. eexists. split; [reflexivity|]. split; [discriminate|]. intros a [<-|[<-|[<-|[]]]]; repeat split.
  - destruct (j * c + k <=? r + c - 2); eexists; (split; [reflexivity|]); (split; [discriminate|]); intros a [<-|[<-|[<-|[]]]]; repeat split.
Qed.
Print Assumptions C113_scene_partial.

(** C113, partial: so on grids with one row or one column all scenes have the colours *)
Theorem C113_line_partial grid back keep x y titles z r c j k :
  SpecMplot.grid x r c -> covers (Some y) r c -> covers (Some z) r c -> covers titles r c -> r = 1 \/ c = 1 -> j < r -> k < c ->
  exists f p, PlotlyPlotC grid back keep x y titles (Some z) = Some (f, p) /\ all_axes (in_colours grid back) p c j k true.
Proof.
  intros Hx Hy Hz Ht H1 Hj Hk. destruct (C113_scene_partial grid back keep x y titles z r c j k Hx Hy Hz Ht Hj Hk) as (f & p & E & H). exists f, p. split; [exact E|].
  cbv zeta in H. rewrite (proj2 (Nat.leb_le _ _)) in H by (destruct H1; subst; nia). destruct H as (l & E1 & E2 & H3). exists l. split; [exact E1|]. split; [exact E2|].
  intros a Ha. apply (H3 a Ha).
Qed.
Print Assumptions C113_line_partial.

(** C113 is false of all 3-D figures with at least two rows and two columns: no colour of the last subplot is set;
    and of all 3-D figures with several subplots: the zero lines of the second are coloured and those of
    the first are not. *)
Theorem C113_refuted grid back keep x y titles z r c :
  SpecMplot.grid x r c -> covers (Some y) r c -> covers (Some z) r c -> covers titles r c -> 2 <= r -> 2 <= c ->
  exists f p, PlotlyPlotC grid back keep x y titles (Some z) = Some (f, p) /\
    ~ (forall j k, j < r -> k < c -> all_axes (in_colours grid back) p c j k true) /\
    all_axes untouched p c (r - 1) (c - 1) true /\
    all_axes (fun a => a_zero a = None) p c 0 0 true /\ all_axes (fun a => a_zero a = Some grid) p c 0 1 true.
Proof.
  intros Hx Hy Hz Ht Hr Hc.
  destruct (C113_scene_partial grid back keep x y titles z r c (r - 1) (c - 1) Hx Hy Hz Ht ltac:(lia) ltac:(lia)) as (f & p & E & H1).
  destruct (C113_scene_partial grid back keep x y titles z r c 0 0 Hx Hy Hz Ht ltac:(lia) ltac:(lia)) as (f' & p' & E' & H2).
  destruct (C113_scene_partial grid back keep x y titles z r c 0 1 Hx Hy Hz Ht ltac:(lia) ltac:(lia)) as (f'' & p'' & E'' & H3).
  rewrite E in E', E''. injection E' as <- <-. injection E'' as <- <-. exists f, p. split; [exact E|]. cbv zeta in H1, H2, H3.
  rewrite (proj2 (Nat.leb_gt _ _)) in H1 by nia. cbn [Nat.mul Nat.add] in H2, H3.
  rewrite (proj2 (Nat.leb_le _ _)) in H2 by lia. rewrite (proj2 (Nat.leb_le _ _)) in H3 by lia. cbn [Nat.eqb] in H2, H3.
  split; [|split; [exact H1|split]].
  - intros H. destruct (H (r - 1) (c - 1) ltac:(lia) ltac:(lia)) as (l & E1 & Hne & Hl). destruct H1 as (l' & E2 & _ & Hl'). rewrite E1 in E2. injection E2 as <-.
    destruct l as [|a l]; [apply Hne; reflexivity|]. destruct (Hl a (or_introl eq_refl)) as [Q _]. destruct (Hl' a (or_introl eq_refl)) as [Q' _]. congruence.
  - destruct H2 as (l & E1 & E2 & H4). exists l. split; [exact E1|]. split; [exact E2|]. intros a Ha. apply (H4 a Ha).
  - destruct H3 as (l & E1 & E2 & H4). exists l. split; [exact E1|]. split; [exact E2|]. intros a Ha. apply (H4 a Ha).
Qed.
Print Assumptions C113_refuted.

(** two rows of two scenes: the fourth keeps Plotly's colours *)
Notation q s := (Some (txt s)).
Example C113_case : exists f p,
  let L := LNested [[q"a"; q"b"]; [q"c"; q"d"]] in
  PlotlyPlotC (txt "grey") (txt "clear") true L L None (Some L) = Some (f, p) /\
  map (fun s => a_grid (s_x s)) (c_sub p) = [q"grey"; q"grey"; q"grey"; None] /\
  map (fun s => a_zero (s_z s)) (c_sub p) = [None; q"grey"; q"grey"; None].
Proof. do 2 eexists. cbv zeta. split; [vm_compute; reflexivity|]. split; vm_compute; reflexivity. Qed.
