(** C65: a saved figure's file name tells its type.  C66: animations save every frame once, in order. *)
From Coq Require Import List Bool Arith ZArith Ascii String Lia FinFun.
From Verif Require Import Base ModelPrinter ModelSave SpecSave ProofSave ProofFrames.
Import ListNotations.
Local Open Scope list_scope.

Lemma same_types : (forall t, In t mpl_types <-> In t matplotlib_documented) /\ (forall t, In t plotly_types <-> In t plotly_documented) /\
  (forall t, In t mayavi_types <-> In t mayavi_documented).
Proof. split; [|split]; intros t; cbn; split; intros H; repeat (destruct H as [H|H]; [tauto|]); destruct H. Qed.
Lemma saves_well_ext save l l' def : (forall t, In t l <-> In t l') -> saves_well save l def -> saves_well save l' def.
Proof.
  intros E [H1 [H2 [H3 H4]]]. split; [exact H1|]. split; [intros f t Hf Ht; apply H2; [exact Hf|apply E, Ht]|]. split; [|exact H4].
  intros f Hf Hn. apply H3; [exact Hf|]. intros t Ht. apply Hn, E, Ht.
Qed.

Theorem C65_plotly_mayavi_partial :
  saves_well plotly_save plotly_documented (txt "png") /\ saves_well mayavi_save mayavi_documented (txt "pdf").
Proof.
  destruct same_types as [_ [E1 E2]]. split; eapply saves_well_ext; [exact E1|exact plotly_well|exact E2|exact mayavi_well].
Qed.
Print Assumptions C65_plotly_mayavi_partial.

Theorem C65_matplotlib_partial :
  (forall f t, file_name f -> plain_type t -> mpl_save f (Some t) = Some (f ++ "."%char :: t, t) /\ has_suffix (f ++ "."%char :: t) t) /\
  (forall f t, has_suffix f t -> In t matplotlib_documented -> mpl_save f None = Some (f, t)) /\
  (forall f, mpl_save f (Some []) = mpl_save f None).
Proof. split; [exact mpl_typed|]. split; [|reflexivity]. intros f t Hf Ht. apply mpl_inferred; [exact Hf|apply same_types, Ht]. Qed.
Print Assumptions C65_matplotlib_partial.

(** without a supported suffix, matplotlib's PDF goes into a file whose name does not say so *)
Theorem C65_matplotlib_refuted f : file_name f -> (forall t, In t matplotlib_documented -> ~ has_suffix f t) ->
  mpl_save f None = Some (f, txt "pdf") /\ ~ has_suffix f (txt "pdf").
Proof.
  intros Hf Hn. split; [apply mpl_default; [exact Hf|]; intros t Ht; apply Hn, same_types, Ht|]. apply Hn. cbn. auto.
Qed.
Print Assumptions C65_matplotlib_refuted.

(** saveAll writes the figure as save does and beside it, in another file, the pickle, whose
    name is the given one with ".pickle" even if that has a suffix already *)
Theorem C65_saveAll f t g ty : file_name f -> mpl_save f t = Some (g, ty) -> t <> Some (txt "pickle") ->
  exists p, mpl_saveAll f t = Some [(g, ty); (p, txt "pickle")] /\ p = f ++ txt ".pickle" /\ has_suffix p (txt "pickle") /\ g <> p.
Proof.
  intros Hf Hs Ht. exists (f ++ txt ".pickle"). unfold mpl_saveAll. rewrite Hs. cbn [bind]. split; [reflexivity|]. split; [reflexivity|]. split.
  - apply (typed_suffix f (txt "pickle") Hf). repeat split; [discriminate| |]; cbn; intros H; repeat (destruct H as [H|H]; [discriminate|]); exact H.
  - unfold mpl_save in Hs. destruct (no_type t) as [u|] eqn:Eu; injection Hs as <- <-; intros E.
    + apply app_inv_head in E. assert (u = txt "pickle") as -> by (injection E as ->; reflexivity). apply Ht.
      destruct t as [[|c r]|]; [discriminate|exact Eu|discriminate].
    + apply (f_equal (@List.length _)) in E. rewrite app_length in E. cbn in E. lia.
Qed.
Print Assumptions C65_saveAll.
Example C65_saveAll_ex : mpl_saveAll (txt "out/fig.svg") (Some []) = Some [(txt "out/fig.svg", txt "svg"); (txt "out/fig.svg.pickle", txt "pickle")].
Proof. vm_compute. reflexivity. Qed.

Example C65_ex : plotly_save (txt "plots.v2/fig.final") None = Some (txt "plots.v2/fig.final.png", txt "png")
  /\ plotly_save (txt "out/fig.svg") None = Some (txt "out/fig.svg", txt "svg")
  /\ mayavi_save (txt "fig") (Some (txt "obj")) = Some (txt "fig.obj", txt "obj")
  /\ mpl_save (txt "fig.jpg") None = Some (txt "fig.jpg", txt "pdf").
Proof. repeat split; vm_compute; reflexivity. Qed.
(** a name that is only a suffix is no file name with a suffix: Plotly raises *)
Example C65_hidden : plotly_save (txt "") (Some (txt "svg")) = None /\ mpl_save (txt ".png") None = Some (txt ".png", txt "pdf").
Proof. split; vm_compute; reflexivity. Qed.

(** ** C66 *)
Lemma nth_frames outDir fileName n k f : nth_error (map (frame outDir fileName) (seq 0 n)) k = Some f -> k < n /\ f = frame outDir fileName k.
Proof.
  intros H. assert (k < n) as Hk by (rewrite <- (seq_length n 0), <- (map_length (frame outDir fileName)); apply nth_error_Some; congruence). split; [exact Hk|].
  rewrite nth_error_map, (nth_error_nth' _ 0) in H by (rewrite seq_length; exact Hk). rewrite seq_nth in H by exact Hk. cbn in H. congruence.
Qed.
Lemma frame_inj outDir fileName i j : (forall r, fileName <> "/"%char :: r) -> frame outDir fileName i = frame outDir fileName j -> i = j.
Proof.
  intros Hf. unfold frame. destruct (join_prefix outDir fileName Hf) as [q [E _]]. rewrite !E by apply pad6_dig. intros H. apply app_inv_tail, app_inv_head in H.
  destruct (pad6_printf i) as [_ [V _]], (pad6_printf j) as [_ [V' _]]. congruence.
Qed.

Theorem C66_frames_partial save outDir fileName ys :
  save = mpl_save \/ save = mayavi_save -> ~ absolute outDir -> ~ absolute fileName -> ~ In (YInt (-1)) ys ->
  exists fs, animate save outDir fileName ys = Some (map (fun f => (f, txt "png")) fs) /\ List.length fs = List.length ys /\ NoDup fs /\
    (forall k f, nth_error fs k = Some f -> ffmpeg_reads outDir fileName k f) /\
    (forall i j f g, i < j -> j < 10 ^ 6 -> nth_error fs i = Some f -> nth_error fs j = Some g -> before f g).
Proof.
  intros Hs Ho Hf Hy. assert (writes_png save) as Hw by (destruct Hs as [->| ->]; [exact mpl_png|exact mayavi_png]).
  assert (forall r, fileName <> "/"%char :: r) as Hf' by (intros r ->; apply Hf; exists r; reflexivity).
  assert (before_stop ys = List.length ys) as En.
  { clear -Hy. induction ys as [|y ys IH]; [reflexivity|]. cbn [before_stop List.length]. assert (goes_on y = true) as ->; [|rewrite IH; [reflexivity|intros H; apply Hy; right; exact H]].
    destruct y as [|[|p|[p|p|]]]; try reflexivity. exfalso. apply Hy. left. reflexivity. }
  exists (map (frame outDir fileName) (seq 0 (List.length ys))). unfold animate. rewrite (frames_are _ _ _ _ _ Hw), En.
  split; [rewrite map_map; reflexivity|]. split; [rewrite map_length, seq_length; reflexivity|]. split; [|split].
  - apply Injective_map_NoDup; [|apply seq_NoDup]. intros i j. apply frame_inj, Hf'.
  - intros k f Hk. apply nth_frames in Hk as [_ ->]. exists (pad6 k). split; [apply pad6_printf|]. unfold frame.
    destruct (join_prefix outDir fileName Hf') as [q [E P]]. rewrite E by apply pad6_dig.
    split.
    + split; [|intros [r H]; discriminate]. intros [r H]. exfalso. rewrite <- E in H by apply pad6_dig. clear E P.
      destruct (pad6_dig k) as [D N].
      assert (forall c r', fileName ++ pad6 k = c :: r' -> c <> "/"%char) as Hc.
      { intros c r' Hcr ->. destruct fileName as [|x fn]; [|injection Hcr as -> _; apply (Hf' fn eq_refl)]. cbn [app] in Hcr. rewrite Hcr in D. inversion D as [|? ? H0 _]; subst. unfold digit in H0. cbn in H0. lia. }
      destruct (fileName ++ pad6 k) as [|c r'] eqn:Ec; [destruct fileName; [cbn [app] in Ec; congruence|discriminate]|]. specialize (Hc c r' eq_refl). cbn [join_path] in H.
      destruct (Ascii.eqb c slash) eqn:Es; [apply eqb_slash in Es; congruence|]. destruct outDir as [|o od]; [injection H as H _; congruence|].
      destruct (Ascii.eqb (last (o :: od) dot) slash); injection H as H _; apply Ho; exists od; rewrite H; reflexivity.
    + exists (parts ((q ++ pad6 k) ++ txt ".png")). split; [apply parts_path|].
      rewrite <- app_assoc, P. apply parts_path.
  - intros i j f g Hij Hj Hi' Hj'. apply nth_frames in Hi' as [_ ->]. apply nth_frames in Hj' as [_ ->]. unfold frame.
    destruct (join_prefix outDir fileName Hf') as [q [E _]]. rewrite !E by apply pad6_dig. rewrite <- !app_assoc. apply before_prefix.
    pose proof (printf_six i _ (pad6_printf i) ltac:(lia)) as Li. pose proof (printf_six j _ (pad6_printf j) Hj) as Lj.
    apply before_app; [|congruence]. destruct (pad6_printf i) as [Di [Vi _]], (pad6_printf j) as [Dj [Vj _]]. apply value_before; [exact Di|exact Dj|congruence|lia].
Qed.
Print Assumptions C66_frames_partial.

(** a generator that yields -1 is taken to have ended *)
Theorem C66_minus_one_refuted save outDir fileName ys zs : save = mpl_save \/ save = mayavi_save -> ~ In (YInt (-1)) ys ->
  exists fs, animate save outDir fileName (ys ++ YInt (-1) :: zs) = Some fs /\ List.length fs = List.length ys.
Proof.
  intros Hs Hy. assert (writes_png save) as Hw by (destruct Hs as [->| ->]; [exact mpl_png|exact mayavi_png]).
  unfold animate. rewrite (frames_are _ _ _ _ _ Hw). eexists. split; [reflexivity|]. rewrite map_length, seq_length.
  induction ys as [|y ys IH]; [reflexivity|]. cbn [app before_stop List.length]. assert (goes_on y = true) as ->; [|rewrite IH; [reflexivity|intros H; apply Hy; right; exact H]].
  destruct y as [|[|p|[p|p|]]]; try reflexivity. exfalso. apply Hy. left. reflexivity.
Qed.
Print Assumptions C66_minus_one_refuted.

(** from a million frames on, the alphabetical order of the names is not the order of the frames *)
Theorem C66_order_refuted outDir fileName : ~ absolute fileName -> before (frame outDir fileName (10 ^ 6)) (frame outDir fileName (10 ^ 6 - 1)).
Proof.
  intros Hf. assert (forall r, fileName <> "/"%char :: r) as Hf' by (intros r ->; apply Hf; exists r; reflexivity).
  unfold frame. destruct (join_prefix outDir fileName Hf') as [q [E _]]. rewrite !E by apply pad6_dig. rewrite <- !app_assoc. apply before_prefix.
  assert (forall n, value (repeat "0"%char n) = 0) as V0 by (intros n; rewrite <- (List.app_nil_r (repeat _ n)), value_zeros; reflexivity).
  assert (forall n, value (repeat "9"%char n) = 10 ^ n - 1) as V9.
  { induction n; [reflexivity|]. cbn [repeat]. rewrite value_cons, IHn, repeat_length, Nat.pow_succ_r'. change (nat_of_ascii "9" - 48) with 9.
    assert (0 < 10 ^ n) by (apply Nat.neq_0_lt_0, Nat.pow_nonzero; lia). lia. }
  assert (forall c n, digit c -> Forall digit (repeat c n)) as D by (intros c n Hc; apply Forall_forall; intros x Hx; apply repeat_spec in Hx; subst; exact Hc).
  assert (digit "0"%char /\ digit "1"%char /\ digit "9"%char) as [D0 [D1 D9]] by (unfold digit; cbn; lia).
  assert (pad6 (10 ^ 6) = "1"%char :: repeat "0"%char 6) as ->.
  { apply (printf_unique (10 ^ 6)); [apply pad6_printf|]. split; [constructor; [exact D1|apply D, D0]|]. split; [rewrite value_cons, V0, repeat_length; change (nat_of_ascii "1" - 48) with 1; lia|].
    split; [cbn; lia|]. intros _. discriminate. }
  assert (pad6 (10 ^ 6 - 1) = repeat "9"%char 6) as ->.
  { apply (printf_unique (10 ^ 6 - 1)); [apply pad6_printf|]. split; [apply D, D9|]. split; [apply V9|]. rewrite repeat_length. split; [lia|]. intros H. lia. }
  apply bf_head. cbn. lia.
Qed.
Print Assumptions C66_order_refuted.

(** the printed command does not read the frames saved in an absolute directory *)
Theorem C66_absolute_refuted outDir fileName k k' : absolute outDir -> ~ ffmpeg_reads outDir fileName k' (frame outDir fileName k).
Proof.
  intros [o ->] [d [_ [[H _] _]]]. assert (absolute (frame (slash :: o) fileName k)) as Ha.
  { unfold frame. destruct (fileName ++ pad6 k) as [|c r] eqn:Ec.
    - destruct (pad6_dig k) as [_ N]. destruct fileName; [cbn [app] in Ec; congruence|discriminate].
    - cbn [join_path]. destruct (Ascii.eqb c slash) eqn:Es; [apply eqb_slash in Es; subst; exists (r ++ txt ".png"); reflexivity|].
      destruct (Ascii.eqb (last (slash :: o) dot) slash); eexists; reflexivity. }
  destruct (H Ha) as [r E]. discriminate.
Qed.
Print Assumptions C66_absolute_refuted.

Example C66_ex : animate mpl_save (txt "MyMovie") (txt "images") [YNone; YInt 3; YNone]
  = Some [(txt "MyMovie/images000000.png", txt "png"); (txt "MyMovie/images000001.png", txt "png"); (txt "MyMovie/images000002.png", txt "png")].
Proof. vm_compute. reflexivity. Qed.
Example C66_stops : animate mayavi_save (txt "MyMovie/") (txt "f") [YNone; YInt (-1); YNone] = Some [(txt "MyMovie/f000000.png", txt "png")].
Proof. vm_compute. reflexivity. Qed.
