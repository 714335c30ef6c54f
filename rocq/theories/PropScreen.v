(** C115: sizes of figures on the screen. *)
From Coq Require Import Reals ZArith Bool Lra Lia Ascii String List.
From Flocq Require Import Core.
From Verif Require Import Base ModelPrinter ModelScreen SpecScreen.
Open Scope R_scope.

Lemma pydiv_some a b : b <> 0 -> pydiv a b = Some (a / b).
Proof. intros H. unfold pydiv. destruct (Req_EM_T b 0); [contradiction|reflexivity]. Qed.
Ltac divs := repeat (rewrite pydiv_some by (try lra; apply Rgt_not_eq, Rdiv_lt_0_compat; lra); cbn [bind fst snd]).
Lemma pyint_whole x : 0 <= x -> (exists n, pyint x = IZR n) /\ pyint x <= x < pyint x + 1.
Proof.
  intros Hx. unfold pyint. split; [eexists; reflexivity|]. rewrite Ztrunc_floor by exact Hx.
  split; [apply Zfloor_lb|]. apply Zfloor_ub.
Qed.
Lemma pixels l k px mm : (0 < px)%Z -> (0 < mm)%Z -> 0 <= l -> 0 < k -> forall c, c = IZR px / (IZR mm / k) ->
  whole_pixels (pyint (l * c)) (l * k) px mm.
Proof.
  intros Hp Hm Hl Hk c Hc. apply IZR_lt in Hp, Hm. assert (Hc0 : 0 <= c).
  { rewrite Hc. apply Rlt_le, Rdiv_lt_0_compat; [exact Hp|]. apply Rdiv_lt_0_compat; assumption. }
  destruct (pyint_whole (l * c) ltac:(apply Rmult_le_pos; assumption)) as (Hn & H1 & H2). split; [exact Hn|].
  assert (E : l * k * IZR px = l * c * IZR mm) by (rewrite Hc; field; lra). rewrite E.
  split; [apply Rmult_le_compat_r; lra|apply Rmult_lt_compat_r; lra].
Qed.

(** full screen: as many pixels as the screen has, whatever the resolution of the figure *)
Theorem C115_full s f : dpi f <> 0 ->
  (exists g, FullScreen_m s f = Some g /\ in_w g * dpi g = IZR (px_w s) /\ in_h g * dpi g = IZR (px_h s)) /\
  p_w (FullScreen_p s) = IZR (px_w s) /\ p_h (FullScreen_p s) = IZR (px_h s).
Proof.
  intros Hd. split; [|split; reflexivity]. unfold FullScreen_m. rewrite !pydiv_some by exact Hd. cbn [bind]. eexists. split; [reflexivity|].
  cbn [in_w in_h dpi]. split; field; exact Hd.
Qed.
Print Assumptions C115_full.

(** part of the screen, in inches or millimetres: the whole number of pixels that fit *)
Theorem C115_part s w h u k : real_screen s -> 0 <= w -> 0 <= h -> unit_mm u k ->
  exists g, PartScreen_p s w h u = Some g /\
    whole_pixels (p_w g) (w * k) (px_w s) (mm_w s) /\ whole_pixels (p_h g) (h * k) (px_h s) (mm_h s).
Proof.
  intros (H1 & H2 & H3 & H4) Hw Hh Hu. pose proof (IZR_lt _ _ H3) as M3. pose proof (IZR_lt _ _ H4) as M4.
  destruct Hu as [[-> ->]|[-> ->]]; unfold PartScreen_p; cbn [teqb txt list_ascii_of_string Ascii.eqb Bool.eqb andb negb];
    divs; eexists; (split; [reflexivity|]); cbn [p_w p_h].
  - split; apply pixels; try assumption; try lra; reflexivity.
  - split; apply pixels; try assumption; try lra; field; lra.
Qed.
Print Assumptions C115_part.

(** the same length in inches and in millimetres gives the same size, also if it is negative; pixels
    are taken as they are; matplotlib takes inches as they are; every other text is read as millimetres *)
Theorem C115_units s w h : real_screen s ->
  PartScreen_p s w h (txt "in") = PartScreen_p s (25.4 * w) (25.4 * h) (txt "mm") /\
  PartScreen_p s w h (txt "px") = Some (PSize w h) /\
  (forall f, in_w (PartScreen_m w h f) = w /\ in_h (PartScreen_m w h f) = h /\ dpi (PartScreen_m w h f) = dpi f) /\
  (forall u, u <> txt "in" -> u <> txt "px" -> PartScreen_p s w h u = PartScreen_p s w h (txt "mm")).
Proof.
  intros (H1 & H2 & H3 & H4). pose proof (IZR_lt _ _ H3) as M3. pose proof (IZR_lt _ _ H4) as M4.
  assert (Teq : forall a b, teqb a b = true -> a = b).
  { induction a as [|x a IH]; intros [|y b] E; cbn in E; try discriminate; [reflexivity|].
    apply andb_true_iff in E as [E1 E2]. apply Ascii.eqb_eq in E1. subst. f_equal. apply IH, E2. }
  split; [|split; [reflexivity|split]].
  - unfold PartScreen_p. cbn [teqb txt list_ascii_of_string Ascii.eqb Bool.eqb andb negb].
    divs. do 3 f_equal; field; lra.
  - intros f. auto.
  - intros u Hi Hp. unfold PartScreen_p at 1.
    destruct (teqb u (txt "px")) eqn:Ep; [apply Teq in Ep; contradiction|]. destruct (teqb u (txt "in")) eqn:Ei; [apply Teq in Ei; contradiction|].
    reflexivity.
Qed.
Print Assumptions C115_units.

(** a screen of 1920 x 1080 pixels and 508 x 254 mm: 2 x 1 inches are 192 x 108 pixels; asking for
    5 cm gives the 18 pixels of 5 mm *)
Example C115_case : let s := Screen 1920 1080 508 254 in
  PartScreen_p s 2 1 (txt "in") = Some (PSize 192 108) /\ PartScreen_p s 5 5 (txt "cm") = Some (PSize 18 21).
Proof.
  assert (T : forall x n, IZR n <= x < IZR n + 1 -> (0 <= n)%Z -> pyint x = IZR n).
  { intros x n Hx Hn. unfold pyint. apply IZR_le in Hn. rewrite Ztrunc_floor by lra. f_equal. apply Zfloor_imp. rewrite plus_IZR. exact Hx. }
  split; unfold PartScreen_p; cbn [teqb txt list_ascii_of_string Ascii.eqb Bool.eqb andb negb px_w px_h mm_w mm_h];
    divs; f_equal; f_equal; apply T; (lia || lra).
Qed.

(** A figure without resolution, or a screen that says it has no size, makes the calls raise; pixels
    need neither. *)
Theorem C115_raises s f w h u :
  (dpi f = 0 -> FullScreen_m s f = None) /\
  (mm_w s = 0%Z \/ mm_h s = 0%Z -> u <> txt "px" -> PartScreen_p s w h u = None).
Proof.
  assert (D0 : forall a, pydiv a 0 = None) by (intros a; unfold pydiv; destruct (Req_EM_T 0 0); congruence).
  assert (Di : forall a, pydiv a 25.4 = Some (a / 25.4)) by (intros a; unfold pydiv; destruct (Req_EM_T 25.4 0); [lra|reflexivity]).
  assert (Teq : forall a b, teqb a b = true -> a = b).
  { induction a as [|x a IH]; intros [|y b] E; cbn in E; try discriminate; [reflexivity|].
    apply andb_true_iff in E as [E1 E2]. apply Ascii.eqb_eq in E1. subst. f_equal. apply IH, E2. }
  split.
  - intros E. unfold FullScreen_m. rewrite E, D0. reflexivity.
  - intros Hz Hu. unfold PartScreen_p. destruct (teqb u (txt "px")) eqn:Ep; [apply Teq in Ep; contradiction|]. cbn [negb].
    assert (Q : forall m, m = 0%Z -> IZR m / 25.4 = 0) by (intros m ->; lra).
    destruct (teqb u (txt "in")); rewrite ?Di; cbn [bind]; destruct Hz as [E|E].
    + rewrite (Q _ E), D0. reflexivity.
    + destruct (pydiv (IZR (px_w s)) _); cbn [bind]; [|reflexivity]. rewrite (Q _ E), D0. reflexivity.
    + rewrite E, D0. reflexivity.
    + destruct (pydiv (IZR (px_w s)) _); cbn [bind]; [|reflexivity]. rewrite E, D0. reflexivity.
Qed.
Print Assumptions C115_raises.
