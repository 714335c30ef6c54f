(** Lemmas for the Plotly figure. *)
From Coq Require Import Reals Lra List Bool Arith Lia.
From Verif Require Import Base ModelPrinter ModelMplot SpecMplot ProofMplot ModelPlotly SpecPlotly.
Import ListNotations.

Lemma modify_spec {A} (f : A -> A) l i : i < length l -> exists l', modify f l i = Some l' /\ length l' = length l /\
  forall n, nth_error l' n = option_map (fun a => if n =? i then f a else a) (nth_error l n).
Proof.
  revert i. induction l as [|a l IH]; intros [|i] Hi; cbn [length] in Hi; try lia.
  - eexists. split; [reflexivity|]. split; [reflexivity|]. intros [|n]; cbn; [reflexivity|]. destruct (nth_error l n); reflexivity.
  - destruct (IH i ltac:(lia)) as [l' [E [L H]]]. exists (a :: l'). cbn [modify]. rewrite E. cbn. split; [reflexivity|]. split; [congruence|].
    intros [|n]; [reflexivity|]. cbn. apply H.
Qed.
Lemma modify_none {A} (f : A -> A) l i : length l <= i -> modify f l i = None.
Proof. revert i. induction l as [|a l IH]; intros [|i] Hi; cbn in *; try lia; try reflexivity. rewrite IH by lia. reflexivity. Qed.

(** ** Labels *)
Section Labels.
Variables (keep : bool) (x y : larg) (z : option larg).
Definition relabel (jk : nat * nat) (s : psub) : psub :=
  upd_titles keep (entry x (fst jk) (snd jk)) (entry y (fst jk) (snd jk)) (entry_opt z (fst jk) (snd jk)) s.
Lemma axis_index_sum j k : axis_index j k = j + k.
Proof. unfold axis_index. destruct j, k; cbn [Nat.eqb andb]; lia. Qed.
Lemma label_loop X Y Z cs :
  (forall j k, In (j, k) cs -> at_ X j k = Some (entry x j k)) ->
  (forall j k, In (j, k) cs -> at_ Y j k = Some (entry y j k)) ->
  match Z with None => z = None | Some L => exists b, z = Some b /\ forall j k, In (j, k) cs -> at_ L j k = Some (entry b j k) end ->
  forall subs, (forall j k, In (j, k) cs -> j + k < length subs) ->
  exists subs', foldM (fun (rc : nat * nat) (subs : list psub) =>
    let (row, col) := rc in
    x <- at_ X row col ;;
    y <- at_ Y row col ;;
    z <- match Z with None => Some None | Some Z => at_ Z row col end ;;
    modify (upd_titles keep x y z) subs (axis_index row col)) cs subs = Some subs' /\
  length subs' = length subs /\
  forall n, nth_error subs' n = option_map (fold_left (fun s jk => if fst jk + snd jk =? n then relabel jk s else s) cs) (nth_error subs n).
Proof.
  intros HX HY HZ. induction cs as [|[j k] cs IH]; intros subs Hi.
  - exists subs. cbn. repeat split. intros n. destruct (nth_error subs n); reflexivity.
  - cbn [foldM]. rewrite (HX j k), (HY j k) by (left; reflexivity).
    assert ((match Z with None => Some None | Some Z => at_ Z j k end) = Some (entry_opt z j k)) as EZ.
    { destruct Z as [L|]; [|rewrite HZ; reflexivity]. destruct HZ as [b [-> HZ]]. apply HZ. left. reflexivity. }
    cbn [bind]. rewrite EZ. cbn [bind]. rewrite axis_index_sum.
    destruct (modify_spec (upd_titles keep (entry x j k) (entry y j k) (entry_opt z j k)) subs (j + k)) as [s1 [E [L H]]]; [apply Hi; left; reflexivity|].
    rewrite E. cbn [bind].
    destruct (IH) with (subs := s1) as [s2 [E2 [L2 H2]]].
    + intros; apply HX; right; assumption.
    + intros; apply HY; right; assumption.
    + destruct Z as [L'|]; [|exact HZ]. destruct HZ as [b [Eb HZ]]. exists b. split; [exact Eb|]. intros; apply HZ; right; assumption.
    + intros j' k' Hin. rewrite L. apply Hi. right. exact Hin.
    + exists s2. split; [exact E2|]. split; [congruence|]. intros n. rewrite H2, H. destruct (nth_error subs n) as [s|]; [|reflexivity].
      cbn [option_map fold_left fst snd]. rewrite (Nat.eqb_sym n (j + k)). reflexivity.
Qed.
Lemma fold_other n cs s : (forall j k, In (j, k) cs -> j + k <> n) ->
  fold_left (fun s jk => if fst jk + snd jk =? n then relabel jk s else s) cs s = s.
Proof.
  revert s. induction cs as [|[j k] cs IH]; intros s H; [reflexivity|]. cbn [fold_left fst snd].
  destruct (Nat.eqb_spec (j + k) n) as [E|_]; [destruct (H j k); [left; reflexivity|exact E]|]. apply IH. intros; apply H; right; assumption.
Qed.
(** the last cell with this sum decides, when it is the only one or has all its labels *)
Lemma fold_last n l1 j k l2 : j + k = n -> (forall j' k', In (j', k') l2 -> j' + k' <> n) ->
  (keep = false \/ (forall j' k', In (j', k') l1 -> j' + k' <> n) \/
   (entry x j k <> None /\ entry y j k <> None /\ (entry_opt z j k <> None \/ z = None))) ->
  let s := fold_left (fun s jk => if fst jk + snd jk =? n then relabel jk s else s) (l1 ++ (j, k) :: l2) blank in
  p_x s = entry x j k /\ p_y s = entry y j k /\ p_z s = entry_opt z j k.
Proof.
  intros E H2 H1. cbv zeta. rewrite fold_left_app. cbn [fold_left fst snd]. rewrite (proj2 (Nat.eqb_eq _ _) E), fold_other by exact H2.
  destruct H1 as [H1|[H1|[Hx [Hy Hz]]]].
  - unfold relabel at 1 3 5, upd_titles, upd. rewrite H1. cbn [p_x p_y p_z fst snd].
    destruct (entry x j k), (entry y j k), (entry_opt z j k); auto.
  - rewrite fold_other by exact H1. unfold relabel, upd_titles, blank, upd. cbn [p_x p_y p_z fst snd].
    destruct (entry x j k), (entry y j k), (entry_opt z j k), keep; auto.
  - assert (forall cs s, z = None -> p_z s = None ->
      p_z (fold_left (fun s jk => if fst jk + snd jk =? n then relabel jk s else s) cs s) = None) as K.
    { intros cs s Ez. revert s. induction cs as [|[j' k'] cs IH]; intros s Es; [exact Es|]. cbn [fold_left]. apply IH.
      destruct (_ =? _); [|exact Es]. unfold relabel, upd_titles. cbn [p_z]. rewrite Ez. cbn. rewrite Es. destruct keep; reflexivity. }
    specialize (K l1 blank). unfold relabel at 1 3 5, upd_titles, upd. cbn [p_x p_y p_z fst snd].
    destruct (entry x j k); [|congruence]. destruct (entry y j k); [|congruence]. split; [reflexivity|]. split; [reflexivity|].
    destruct Hz as [Hz|Hz]; [destruct (entry_opt z j k); congruence|]. rewrite (K Hz eq_refl). rewrite Hz. cbn. destruct keep; reflexivity.
Qed.
(** when missing labels are passed over, the last one given *)
Definition last_of n cs (g : nat -> nat -> option text) v :=
  (v = None /\ forall j k, In (j, k) cs -> j + k = n -> g j k = None) \/
  exists l1 j k l2, cs = l1 ++ (j, k) :: l2 /\ j + k = n /\ v = g j k /\ v <> None /\ forall j' k', In (j', k') l2 -> j' + k' = n -> g j' k' = None.
Lemma fold_given n cs : keep = true ->
  let s := fold_left (fun s jk => if fst jk + snd jk =? n then relabel jk s else s) cs blank in
  last_of n cs (entry x) (p_x s) /\ last_of n cs (entry y) (p_y s) /\ last_of n cs (entry_opt z) (p_z s).
Proof.
  intros Hk. cbv zeta. induction cs as [|[j k] cs IH] using rev_ind.
  { assert (forall g, last_of n [] g None) as H by (intros g; left; split; [reflexivity|intros ? ? []]). cbn. auto. }
  rewrite fold_left_app. cbn [fold_left fst snd]. destruct IH as (IX & IY & IZ).
  assert (W : forall g v, last_of n cs g v -> (j + k = n -> g j k = None) -> last_of n (cs ++ [(j, k)]) g v).
  { intros g v [[Hv H]|(l1 & j' & k' & l2 & E & Es & Ev & Hv & H)] Hg.
    - left. split; [exact Hv|]. intros a b Hi Eab. apply in_app_or in Hi as [Hi|[[= <- <-]|[]]]; auto.
    - right. exists l1, j', k', (l2 ++ [(j, k)]). split; [rewrite E, <- app_assoc; reflexivity|]. repeat (split; [assumption|]).
      intros a b Hi Eab. apply in_app_or in Hi as [Hi|[[= <- <-]|[]]]; auto. }
  destruct (Nat.eqb_spec (j + k) n) as [E|E]; [|split; [|split]; apply W; tauto].
  assert (V : forall (g : nat -> nat -> option text) old, last_of n cs g old -> last_of n (cs ++ [(j, k)]) g (upd keep (g j k) old)).
  { intros g old H. unfold upd. rewrite Hk. destruct (g j k) as [t|] eqn:Eg; [|apply W; auto].
    right. exists cs, j, k, []. rewrite Eg. split; [reflexivity|]. split; [exact E|]. split; [reflexivity|]. split; [discriminate|]. intros ? ? []. }
  unfold relabel, upd_titles. cbn [p_x p_y p_z fst snd]. split; [|split]; apply V; assumption.
Qed.
(** whatever is shown on an axis is a label of that axis *)
Lemma fold_own n cs :
  let s := fold_left (fun s jk => if fst jk + snd jk =? n then relabel jk s else s) cs blank in
  let from g v := v = None \/ exists j k, In (j, k) cs /\ j + k = n /\ v = g j k in
  from (entry x) (p_x s) /\ from (entry y) (p_y s) /\ from (entry_opt z) (p_z s).
Proof.
  cbv zeta. induction cs as [|[j k] cs IH] using rev_ind; [cbn; auto|].
  rewrite fold_left_app. cbn [fold_left fst snd]. destruct IH as (IX & IY & IZ).
  assert (W : forall (g : nat -> nat -> option text) v, v = None \/ (exists j' k', In (j', k') cs /\ j' + k' = n /\ v = g j' k') ->
    v = None \/ exists j' k', In (j', k') (cs ++ [(j, k)]) /\ j' + k' = n /\ v = g j' k').
  { intros g v [H|(j' & k' & H1 & H2 & H3)]; [auto|right; exists j', k']. split; [apply in_or_app; auto|auto]. }
  destruct (Nat.eqb_spec (j + k) n) as [E|E]; [|split; [|split]; apply W; assumption].
  assert (V : forall (g : nat -> nat -> option text) old, old = None \/ (exists j' k', In (j', k') cs /\ j' + k' = n /\ old = g j' k') ->
    let v := upd keep (g j k) old in v = None \/ exists j' k', In (j', k') (cs ++ [(j, k)]) /\ j' + k' = n /\ v = g j' k').
  { intros g old H. cbv zeta. unfold upd. destruct (g j k) as [t|] eqn:Eg.
    - right. exists j, k. split; [apply in_or_app; right; left; reflexivity|auto].
    - destruct keep; [apply W, H|auto]. }
  unfold relabel, upd_titles. cbn [p_x p_y p_z fst snd]. split; [|split]; apply V; assumption.
Qed.
End Labels.

Lemma cells_after r c l1 j k l2 j' k' : cells r c = l1 ++ (j, k) :: l2 -> In (j', k') l2 -> j * c + k < j' * c + k'.
Proof.
  intros E Hi. apply in_split in Hi as [a [b ->]]. pose proof (cells_split r c l1 j k _ E) as L1.
  assert (cells r c = (l1 ++ (j, k) :: a) ++ (j', k') :: b) as E' by (rewrite E, <- app_assoc; reflexivity).
  apply cells_split in E'. rewrite app_length in E'. cbn in E'. lia.
Qed.
Lemma cells_before r c l1 j k l2 j' k' : cells r c = l1 ++ (j, k) :: l2 -> In (j', k') l1 -> j' * c + k' < j * c + k.
Proof.
  intros E Hi. apply in_split in Hi as [a [b ->]]. rewrite <- app_assoc in E. cbn [app] in E.
  apply (cells_after r c a j' k' (b ++ (j, k) :: l2)); [exact E|]. apply in_elt.
Qed.

Lemma repeat_nth {A} (a : A) n i : i < n -> nth_error (repeat a n) i = Some a.
Proof. revert i. induction n; intros [|i] H; cbn; try lia; try reflexivity. apply IHn. lia. Qed.
Lemma flat_titles_covers t r c : covers t r c -> r * c <> 0 -> exists T, flat_titles t = Some T /\ (T = None \/ exists a l, T = Some (a :: l)).
Proof.
  destruct t as [t|]; cbn [covers flat_titles]; [|eauto]. intros [r' [c' [G [Hr Hc]]]] Hn.
  assert (0 < r /\ 0 < c) as [H0 H0'] by (split; destruct r, c; lia).
  destruct (norm_grid t r' c' G) as [L [E [Lr [Lc H]]]]. rewrite E. cbn. eexists. split; [reflexivity|]. right.
  specialize (H 0 0 ltac:(lia) ltac:(lia)). unfold at_ in H. destruct ((0 <? l_r L) && (0 <? l_c L)); [|discriminate].
  destruct (nth_error (l_d L) 0) as [row|] eqn:E0; [|discriminate]. cbn in H. destruct (l_d L) as [|r0 ls]; [discriminate|]. injection E0 as ->.
  destruct row as [|a row]; [discriminate|]. cbn. eauto.
Qed.

Theorem plotly_made keep x y titles z r c : grid x r c -> covers (Some y) r c -> covers z r c -> covers titles r c -> r * c <> 0 ->
  exists f, PlotlyPlot keep x y titles z = Some f /\ pf_r f = r /\ pf_c f = c /\ pf_3d f = given z /\ pf_dist f = (5 / 2)%R /\
  length (pf_sub f) = r * c /\
  forall n, nth_error (pf_sub f) n =
    option_map (fold_left (fun s jk => if fst jk + snd jk =? n then relabel keep x y z jk s else s) (cells r c)) (nth_error (repeat blank (r * c)) n).
Proof.
  intros Hx Hy Hz Ht Hn. destruct (norm_grid x r c Hx) as [X [EX [HXr [HXc HX]]]].
  destruct (norm_covers (Some y) r c Hy) as [Y' [EY HY]]. cbn in EY. destruct (norm y) as [Y|] eqn:EY'; [|discriminate]. cbn in EY. injection EY as <-.
  destruct HY as [y' [Ey HY]]. injection Ey as <-.
  destruct (norm_covers z r c Hz) as [Z [EZ HZ]]. destruct (flat_titles_covers titles r c Ht Hn) as [T [ET HT]].
  unfold PlotlyPlot. rewrite EX, EY'. cbn [bind]. rewrite EZ. cbn [bind]. rewrite ET. cbn [bind]. rewrite HXr, HXc.
  assert (0 < r /\ 0 < c) as [Hr Hc] by (split; destruct r, c; lia).
  destruct (label_loop keep x y z X Y Z (cells r c)) with (subs := repeat blank (r * c)) as [subs [E [L H]]].
  - intros j k Hi. apply in_cells in Hi as [? ?]. apply HX; assumption.
  - intros j k Hi. apply in_cells in Hi as [? ?]. apply HY; assumption.
  - destruct Z as [Z|]; [|exact HZ]. destruct HZ as [b [Eb HZ]]. exists b. split; [exact Eb|]. intros j k Hi. apply in_cells in Hi as [? ?]. apply HZ; assumption.
  - intros j k Hi. apply in_cells in Hi as [? ?]. rewrite repeat_length. nia.
  - assert (put_labels keep X Y Z (repeat blank (r * c)) = Some subs) as EP by (unfold put_labels; rewrite HXr, HXc; exact E).
    assert (exists ts, match r * c with
        | 0 => None
        | 1 => match T with None => Some [None] | Some [] => None | Some (t :: _) => Some [t] end
        | _ => match T with None => Some (repeat None (r * c)) | Some l => Some (firstn (r * c) (l ++ repeat None (r * c))) end
        end = Some ts) as [ts Ets].
    { destruct (r * c) as [|[|n]]; [lia| |]; destruct HT as [->|[a [l ->]]]; eauto. }
    rewrite Ets. cbn [bind]. rewrite EP. cbn [bind]. eexists. split; [reflexivity|]. cbn [pf_r pf_c pf_3d pf_dist pf_sub].
    rewrite L, repeat_length. repeat split; [|lra|exact H].
    destruct Z as [Z|]; [destruct HZ as [b [-> _]]; reflexivity|]. rewrite HZ. reflexivity.
Qed.

(** the cell whose labels end up on the subplot with number [m] (from 0): the one furthest down *)
Lemma shown keep x y titles z r c f j k : grid x r c -> covers (Some y) r c -> covers z r c -> covers titles r c ->
  PlotlyPlot keep x y titles z = Some f -> j < r -> k < c ->
  let m := j * c + k in let j' := Nat.min m (r - 1) in let k' := m - j' in
  (m <= r + c - 2 -> (keep = false \/ r = 1 \/ c = 1 \/ (full x r c /\ full y r c /\ forall b, z = Some b -> full b r c)) -> shows f x y z j k j' k') /\
  (r + c - 2 < m -> shows_nothing f j k).
Proof.
  intros Hx Hy Hz Ht Ef Hj Hk m j' k'. destruct (plotly_made keep x y titles z r c Hx Hy Hz Ht ltac:(nia)) as [f' [Ef' [Hr [Hc [_ [_ [_ H]]]]]]].
  assert (f' = f) by congruence. subst f'. specialize (H m). rewrite repeat_nth in H by (unfold m; nia). cbn [option_map] in H. split.
  - intros Hm Hfull. assert (In (j', k') (cells r c)) as Hi by (apply in_cells; unfold j', k'; lia).
    apply in_split in Hi as [l1 [l2 Es]]. rewrite Es in H.
    destruct (fold_last keep x y z m l1 j' k' l2) as [Ex [Ey Ez]].
    + unfold k', j'. lia.
    + intros a b Hi. pose proof (cells_after r c l1 j' k' l2 a b Es Hi) as Lt.
      assert (In (a, b) (cells r c)) as Hi' by (rewrite Es; apply in_or_app; right; right; exact Hi). apply in_cells in Hi' as [Ha Hb].
      assert (j' <= a) by (assert (k' < c) by (unfold k', j'; lia); nia).
      intros Es'. destruct (Nat.eq_dec a j') as [->|Hne]; [nia|].
      assert (j' = m) by (unfold j' in *; lia). lia.
    + destruct Hfull as [H1|[H1|[H1|[Fx [Fy Fz]]]]].
      * left. exact H1.
      * right; left. intros a b Hi Eab. pose proof (cells_before r c l1 j' k' l2 a b Es Hi). assert (In (a, b) (cells r c)) as Hi' by (rewrite Es; apply in_or_app; left; exact Hi).
        apply in_cells in Hi' as [Ha Hb]. unfold j', k' in *. assert (a = 0) by lia. subst a. lia.
      * right; left. intros a b Hi Eab. pose proof (cells_before r c l1 j' k' l2 a b Es Hi). assert (In (a, b) (cells r c)) as Hi' by (rewrite Es; apply in_or_app; left; exact Hi).
        apply in_cells in Hi' as [Ha Hb]. unfold j', k' in *. subst c. assert (b = 0) by lia. subst b. lia.
      * right; right. assert (j' < r /\ k' < c) as [A B] by (unfold j', k'; lia). split; [apply Fx; assumption|]. split; [apply Fy; assumption|].
        destruct z as [b|]; [left; apply (Fz b); auto|right; reflexivity].
    + eexists. split; [unfold sub_at; rewrite Hc; exact H|]. auto.
  - intros Hm. rewrite fold_other in H.
    + eexists. split; [unfold sub_at; rewrite Hc; exact H|]. cbn. auto.
    + intros a b Hi. apply in_cells in Hi as [Ha Hb]. lia.
Qed.

Lemma last_of_cells n r c g v : last_of n (cells r c) g v -> latest g r c n v.
Proof.
  intros [[Hv H]|(l1 & j & k & l2 & E & Es & Ev & Hv & H)].
  - left. split; [exact Hv|]. intros a b Ha Hb Eab. apply H; [apply in_cells; auto|exact Eab].
  - right. assert (In (j, k) (cells r c)) as Hi by (rewrite E; apply in_elt). apply in_cells in Hi as [Hj Hk].
    exists j, k. repeat (split; [assumption|]). intros a b Ha Hb Eab Lt.
    assert (In (a, b) (cells r c)) as Hi by (apply in_cells; auto). rewrite E in Hi. apply in_app_or in Hi as [Hi|[[= -> ->]|Hi]]; [|lia|apply H; assumption].
    pose proof (cells_before r c l1 j k l2 a b E Hi). nia.
Qed.

(** ** Cameras *)
Local Open Scope R_scope.
Lemma placed_ok d az el : placed
  (d * (- sin (az * (PI / 180)) * cos (el * (PI / 180))), d * (- cos (az * (PI / 180)) * cos (el * (PI / 180))), d * sin (el * (PI / 180))) d az el.
Proof.
  unfold placed, deg, dot3. replace (az * PI / 180) with (az * (PI / 180)) by lra. replace (el * PI / 180) with (el * (PI / 180)) by lra.
  set (a := az * (PI / 180)). set (e := el * (PI / 180)). pose proof (sin2_cos2 a) as A. pose proof (sin2_cos2 e) as E. unfold Rsqr in *.
  repeat split.
  - transitivity (d * d * ((sin a * sin a + cos a * cos a) * (cos e * cos e) + sin e * sin e)); [ring|]. rewrite A. rewrite Rmult_1_l, Rplus_comm, E. ring.
  - ring.
  - transitivity (d * cos e * (sin a * sin a + cos a * cos a)); [ring|]. rewrite A. ring.
  - ring.
Qed.
Local Open Scope nat_scope.
Lemma view_spec f az el row col dist j k : pf_3d f = true -> length (pf_sub f) = pf_r f * pf_c f ->
  j < pf_r f -> k < pf_c f ->
  (match row, col with Some (S r), Some (S c) => r + c | _, _ => 0 end) = j * pf_c f + k ->
  exists f' s' e, view f az el row col dist = Some f' /\ same_but_camera f f' j k /\ sub_at f' j k = Some s' /\ p_eye s' = Some e /\
    pf_dist f' = (match dist with Some v => if Req_EM_T v 0 then pf_dist f else v | None => pf_dist f end) /\
    placed e (pf_dist f') az el /\ length (pf_sub f') = length (pf_sub f).
Proof.
  intros H3 Hl Hj Hk Hs. unfold view. rewrite H3.
  set (d := match dist with Some v => if Req_EM_T v 0 then pf_dist f else v | None => pf_dist f end).
  set (e := (d * _, d * _, d * _)%R).
  assert (match row, col with Some (S r), Some (S c) => S r + S c - 1 - 1 | _, _ => 0 end = j * pf_c f + k) as ->.
  { rewrite <- Hs. destruct row as [[|r]|]; try reflexivity. destruct col as [[|c]|]; try reflexivity. lia. }
  destruct (modify_spec (set_eye e) (pf_sub f) (j * pf_c f + k)) as [l [E [L H]]]; [nia|]. rewrite E. cbn [bind].
  destruct (nth_error (pf_sub f) (j * pf_c f + k)) as [s|] eqn:Es; [|apply nth_error_None in Es; nia].
  eexists _, (set_eye e s), e. split; [reflexivity|]. split; [|split; [|split; [reflexivity|split; [reflexivity|split; [apply placed_ok|exact L]]]]].
  - do 2 (split; [reflexivity|]). split; [symmetry; exact H3|]. split; [reflexivity|]. split.
    + intros j' k' Hk' Hne. unfold sub_at. cbn [pf_sub pf_c]. rewrite H. destruct (nth_error (pf_sub f) (j' * pf_c f + k')); [|reflexivity]. cbn.
      destruct (Nat.eqb_spec (j' * pf_c f + k') (j * pf_c f + k)) as [Eq|_]; [|reflexivity].
      destruct Hne. apply (num_inj (pf_c f)); try assumption. unfold num. cbn [fst snd]. lia.
    + unfold sub_at. cbn [pf_sub pf_c]. intros s0 E0. rewrite H, E0. cbn. rewrite Nat.eqb_refl. eexists. reflexivity.
  - unfold sub_at. cbn [pf_sub pf_c]. rewrite H, Es. cbn. rewrite Nat.eqb_refl. reflexivity.
Qed.
(** a history of calls *)
Lemma same_labels_refl f j k : forall s, sub_at f j k = Some s -> exists e, sub_at f j k = Some (PSub (p_x s) (p_y s) (p_z s) e).
Proof. intros [a b d e] E. exists e. exact E. Qed.
Definition history_ok (f0 f : pfig) (vs : list vcall) : Prop :=
  pf_r f = pf_r f0 /\ pf_c f = pf_c f0 /\ pf_3d f = true /\ length (pf_sub f) = pf_r f * pf_c f /\ pf_dist f = distance_after vs /\
  (forall j k, j < pf_r f0 -> k < pf_c f0 -> camera_ok f vs j k) /\
  (forall j k s0, j < pf_r f0 -> k < pf_c f0 -> sub_at f0 j k = Some s0 -> exists e, sub_at f j k = Some (PSub (p_x s0) (p_y s0) (p_z s0) e)).
Lemma history f0 vs : history_ok f0 f0 [] ->
  (forall v, In v vs -> v_j v < pf_r f0 /\ v_k v < pf_c f0 /\ (v_j v = 0 \/ pf_c f0 = 1) /\ v_d v <> Some 0%R) ->
  exists f, run_views f0 vs = Some f /\ history_ok f0 f vs.
Proof.
  intros H0. assert (forall f before, history_ok f0 f before ->
    (forall v, In v vs -> v_j v < pf_r f0 /\ v_k v < pf_c f0 /\ (v_j v = 0 \/ pf_c f0 = 1) /\ v_d v <> Some 0%R) ->
    exists f', run_views f vs = Some f' /\ history_ok f0 f' (before ++ vs)) as G; [|apply (G f0 [] H0)].
  clear H0. induction vs as [|v vs IH]; intros f before H Hv.
  - exists f. rewrite app_nil_r. split; [reflexivity|exact H].
  - destruct H as [Hr [Hc [H3 [Hl [Hd [Hcam Hlab]]]]]]. destruct (Hv v (or_introl eq_refl)) as [Hj [Hk [Hp Hz]]].
    destruct (view_spec f (v_az v) (v_el v) (Some (S (v_j v))) (Some (S (v_k v))) (v_d v) (v_j v) (v_k v) H3 Hl) as [f' [s' [e [Ev [Hs [Es [Ee [Hd' [Hpl Hl']]]]]]]]].
    { lia. } { lia. } { rewrite Hc. destruct Hp as [->| ->]; lia. }
    cbn [run_views]. unfold run_view at 1. rewrite Ev. cbn [bind].
    destruct Hs as [Sr [Sc [S3 [_ [So Sl]]]]].
    assert (pf_dist f' = distance_after (before ++ [v])) as Hdist.
    { rewrite Hd'. unfold distance_after. rewrite fold_left_app. cbn [fold_left]. fold (distance_after before). rewrite <- Hd. destruct (v_d v) as [d|]; [|reflexivity].
      destruct (Req_EM_T d 0) as [->|]; [contradiction|reflexivity]. }
    destruct (IH f' (before ++ [v])) as [f2 [E2 H2]].
    + unfold history_ok. rewrite Sr, Sc, S3. do 3 (split; [assumption|]). split; [congruence|]. split; [exact Hdist|]. split.
      * intros j k Hj' Hk'. destruct (Nat.eq_dec (v_j v) j) as [Ej|Nj]; [destruct (Nat.eq_dec (v_k v) k) as [Ek|Nk]|].
        -- subst j k. exists s'. split; [exact Es|]. rewrite Ee. exists before, v, []. split; [reflexivity|]. split; [reflexivity|]. split; [intros w []|].
           rewrite <- Hdist. exact Hpl.
        -- destruct (Hcam j k Hj' Hk') as [s [Ess Hs']]. exists s. split; [rewrite So; [exact Ess|lia|congruence]|].
           destruct (p_eye s).
           ++ destruct Hs' as [b [w [a [-> [Ew [Ha Hp']]]]]]. exists b, w, (a ++ [v]). rewrite <- app_assoc. split; [reflexivity|]. split; [exact Ew|]. split; [|exact Hp'].
              intros w' Hw'. apply in_app_or in Hw' as [Hw'|[<-|[]]]; [apply Ha, Hw'|congruence].
           ++ intros w Hw. apply in_app_or in Hw as [Hw|[<-|[]]]; [apply Hs', Hw|congruence].
        -- destruct (Hcam j k Hj' Hk') as [s [Ess Hs']]. exists s. split; [rewrite So; [exact Ess|lia|congruence]|].
           destruct (p_eye s).
           ++ destruct Hs' as [b [w [a [-> [Ew [Ha Hp']]]]]]. exists b, w, (a ++ [v]). rewrite <- app_assoc. split; [reflexivity|]. split; [exact Ew|]. split; [|exact Hp'].
              intros w' Hw'. apply in_app_or in Hw' as [Hw'|[<-|[]]]; [apply Ha, Hw'|congruence].
           ++ intros w Hw. apply in_app_or in Hw as [Hw|[<-|[]]]; [apply Hs', Hw|congruence].
      * intros j k s0 Hj' Hk' E0. destruct (Hlab j k s0 Hj' Hk' E0) as [e0 El].
        destruct (Nat.eq_dec (v_j v) j) as [Ej|Nj]; [destruct (Nat.eq_dec (v_k v) k) as [Ek|Nk]|].
        -- subst j k. apply Sl in El. exact El.
        -- exists e0. rewrite So; [exact El|lia|congruence].
        -- exists e0. rewrite So; [exact El|lia|congruence].
    + intros w Hw. apply Hv. right. exact Hw.
    + exists f2. rewrite <- app_assoc in H2. split; assumption.
Qed.
