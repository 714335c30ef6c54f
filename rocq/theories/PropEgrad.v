(** C52, C53, C62: step, egrad and egradRobust. *)
From Coq Require Import Reals List Bool Arith String Lia Lra.
From Coquelicot Require Import Coquelicot.
From Verif Require Import Base ModelEgrad SpecEgrad ProofEgrad.
Import ListNotations.
Local Open Scope R_scope.

(** ** C52 *)
Theorem C52_values x : (0 < x -> step x = 1) /\ (x <= 0 -> step x = 0).
Proof. unfold step, heaviside. destruct (Rlt_dec x 0), (Rlt_dec 0 x); split; intros; try lra; reflexivity. Qed.
Theorem C52_derivative x : x <> 0 -> is_derive step x 0.
Proof.
  intros Hx. apply (is_derive_ext_loc (fun _ => step x)); [|apply (is_derive_const (step x) x)].
  exists (mkposreal (Rabs x) (Rabs_pos_lt x Hx)). intros y Hy.
  unfold ball in Hy; cbn in Hy; unfold AbsRing_ball in Hy; cbn in Hy. unfold abs, minus, plus, opp in Hy; cbn in Hy.
  unfold step, heaviside. destruct (Rlt_dec x 0), (Rlt_dec 0 x), (Rlt_dec y 0), (Rlt_dec 0 y); try reflexivity; try lra;
    unfold Rabs in Hy; destruct (Rcase_abs (y + - x)), (Rcase_abs x); lra.
Qed.
(** what JAX differentiates it to, at every point, including 0 where there is no derivative *)
Theorem C52_jvp x x' : step_jvp x x' = 0.
Proof. unfold step_jvp, heaviside_jvp. destruct (Rlt_dec x 0), (Rlt_dec 0 x); reflexivity. Qed.
Theorem C52_no_derivative_at_0 l : ~ is_derive step 0 l.
Proof.
  intros H. assert (ex_derive step 0) as He by (exists l; exact H).
  apply ex_derive_continuous in He. unfold continuous in He.
  assert (step 0 = 0) as E0 by (apply C52_values; lra). rewrite E0 in He.
  assert (locally 0 (fun y => ball 0 (mkposreal (1/2) ltac:(lra)) (step y))) as [e Hb].
  { apply He. exists (mkposreal (1/2) ltac:(lra)). intros y Hy. exact Hy. }
  assert (0 < e / 2 < e) as Hh by (destruct e; cbn; lra).
  specialize (Hb (e / 2)). unfold ball in Hb; cbn in Hb; unfold AbsRing_ball in Hb; cbn in Hb.
  unfold abs, minus, plus, opp in Hb; cbn in Hb.
  rewrite (proj1 (C52_values (e / 2))) in Hb by lra.
  rewrite !Rabs_right in Hb by lra. assert (1 + - 0 < 1 / 2) by (apply Hb; lra). lra.
Qed.

(** ** C53 *)
(** On arguments that go together egrad returns the partial derivatives, and nothing else. *)
Theorem C53_partial_derivatives n f g j f' sh args r : elementwise n f g -> (j < n)%nat -> conform n sh args ->
  (forall i, (i < numel sh)%nat -> let p := map (entry i) args in is_derive (fun x => f (put j x p)) (nth j p 0) (f' p)) ->
  is_egrad g j args r <-> r = Some (Arr sh (map (fun i => f' (map (entry i) args)) (seq 0 (numel sh)))).
Proof.
  intros Hg Hj Hc Hd. pose proof Hc as [_ [HF _]].
  unfold is_egrad, egrad_tans. rewrite tans_from by (eapply fits_arr; exact HF).
  assert (forall i, (i < numel sh)%nat -> nth i (map (fun i => f' (map (entry i) args)) (seq 0 (numel sh))) 0 = f' (map (entry i) args)) as En.
  { intros i Hi. rewrite (nth_indep _ 0 (f' (map (entry 0) args))) by (rewrite map_length, seq_length; exact Hi).
    rewrite (map_nth (fun i => f' (map (entry i) args))), seq_nth by exact Hi. reflexivity. }
  split.
  - intros [v [-> Hv]]. f_equal. apply (jvp_iff n f g j Hg Hj sh args) in Hv; [|exact Hc]. destruct Hv as [H1 [H2 H3]].
    apply arr_ext; cbn [a_sh a_dat]; [exact H1|rewrite map_length, seq_length; exact H2|].
    intros i Hi. rewrite En by lia. rewrite H2 in Hi. specialize (H3 i Hi). specialize (Hd i Hi). cbv zeta in Hd.
    apply is_derive_unique in H3. apply is_derive_unique in Hd. congruence.
  - intros ->. eexists. split; [reflexivity|]. apply (jvp_iff n f g j Hg Hj sh args); [exact Hc|].
    cbn [a_sh a_dat]. split; [reflexivity|]. split; [rewrite map_length, seq_length; reflexivity|].
    intros i Hi. rewrite En by exact Hi. apply Hd. exact Hi.
Qed.
(** Nested egrad gives higher and mixed derivatives: entry by entry in the mixed derivative of [f]. *)
Theorem C53_higher n f g js f' g' : elementwise n f g -> partials n f js f' -> egrads n g js g' -> elementwise n f' g'.
Proof.
  intros Hg Hp. revert g Hg. induction Hp as [f|f j js f1 f2 Hj H1 _ IH]; intros g Hg He; inversion He as [|? ? ? g1 ? Hg1 He' ]; subst; [exact Hg|].
  apply (IH g1); [|exact He']. intros sh args Hc. specialize (Hg1 sh args Hc).
  apply (C53_partial_derivatives n f g j f1 sh args) in Hg1; [injection Hg1 as Hg1; exact Hg1|exact Hg|exact Hj|exact Hc|].
  intros i Hi. apply H1. rewrite map_length. apply Hc.
Qed.
(** ... and such nested derivatives exist whenever the mixed derivative does. *)
Theorem C53_higher_exists n f g js f' : elementwise n f g -> partials n f js f' -> exists g', egrads n g js g' /\ elementwise n f' g'.
Proof.
  intros Hg Hp. revert g Hg. induction Hp as [f|f j js f1 f2 Hj H1 _ IH]; intros g Hg; [exists g; split; [constructor|exact Hg]|].
  pose (shape_of := fun args => fold_right (fun a s => match a with AArr x => if (List.length (a_sh x) =? 0)%nat then s else a_sh x | _ => s end) [] args).
  pose (g1 := fun args => let sh := shape_of args in Arr sh (map (fun i => f1 (map (entry i) args)) (seq 0 (numel sh)))).
  assert (forall sh args, conform n sh args -> shape_of args = sh) as Hs.
  { intros sh args [_ [HF [x [Hx Es]]]]. unfold shape_of. revert Hx. induction HF as [|a args [y [-> [W Hy]]] HF IH']; intros []; cbn.
    - inversion H; subst y. destruct sh as [|d sh]; cbn; [|rewrite Es; reflexivity].
      rewrite Es. cbn. clear -HF. induction HF as [|a args [z [-> [_ Hz]]] _ IH']; [reflexivity|]. cbn.
      destruct Hz as [->| ->]; cbn; exact IH'.
    - specialize (IH' H). destruct Hy as [->| ->]; cbn; [|exact IH']. destruct sh; cbn; [exact IH'|reflexivity]. }
  assert (elementwise n f1 g1) as Hg1 by (intros sh args Hc; unfold g1; rewrite (Hs sh args Hc); reflexivity).
  destruct (IH g1 Hg1) as [g' [He Hg']]. exists g'. split; [|exact Hg'].
  apply (egrads_cons n g j js g1); [|exact He]. intros sh args Hc.
  apply (C53_partial_derivatives n f g j f1 sh args); [exact Hg|exact Hj|exact Hc| |rewrite (Hg1 sh args Hc); reflexivity].
  intros i Hi. apply H1. rewrite map_length. apply Hc.
Qed.
(** egradRobust does the same on arrays. *)
Theorem C53_robust g j args r : List.Forall is_arr args -> is_egradRobust g j args r <-> is_egrad g j args r.
Proof.
  intros H. unfold is_egradRobust, is_egrad, egradRobust_tans, egrad_tans.
  rewrite tans_robust, tans_from by exact H. tauto.
Qed.
(** Dictionaries and Python numbers make egrad raise; egradRobust raises only on numbers. *)
Theorem C53_raises g j args : (exists a, In a args /\ ~ exists x, a = AArr x) -> forall r, is_egrad g j args r -> r = None.
Proof.
  intros [a [Ha Hn]] r. unfold is_egrad.
  replace (egrad_tans j args) with (@None (list arg)); [auto|]. unfold egrad_tans. generalize 0%nat.
  induction args as [|b args IH]; intros k; [destruct Ha|]. cbn [List.length seq combine mapM fst snd].
  destruct Ha as [->|Ha].
  - destruct a; [exfalso; apply Hn; eauto|reflexivity|reflexivity].
  - destruct b; try reflexivity. rewrite <- (IH Ha (S k)). reflexivity.
Qed.
Theorem C53_robust_raises g j args r : is_egradRobust g j args r -> (exists x, In (ANum x) args) -> r = None.
Proof.
  intros H [x Hx]. unfold is_egradRobust in H.
  replace (egradRobust_tans j args) with (@None (list arg)) in H; [exact H|]. clear H. unfold egradRobust_tans. generalize 0%nat.
  induction args as [|b args IH]; intros k; [destruct Hx|]. cbn [List.length seq combine mapM fst snd].
  destruct Hx as [->|Hx].
  - destruct (k =? j)%nat; reflexivity.
  - destruct (if (k =? j)%nat then onesRobust b else zerosRobust b); [|reflexivity]. rewrite <- (IH Hx (S k)). reflexivity.
Qed.

(** ** C62: an argument position that does not exist is not reported: the result is zero. *)
Theorem C62_no_such_argument g j args : List.Forall is_arr args -> (List.length args <= j)%nat -> wf_arr (g args) ->
  is_egrad g j args (Some (zeros (a_sh (g args)))).
Proof.
  intros HF Hj Hw. unfold is_egrad, egrad_tans. rewrite tans_from by exact HF. eexists. split; [reflexivity|].
  unfold is_jvp. cbn [zeros a_sh a_dat]. rewrite repeat_length. split; [reflexivity|]. split; [symmetry; exact Hw|].
  intros i Hi. rewrite nth_repeat.
  apply (is_derive_ext (fun _ => nth i (a_dat (g args)) 0)); [|apply (is_derive_const (nth i (a_dat (g args)) 0) 0)].
  intros t. rewrite along_from by exact HF. f_equal. f_equal. f_equal. clear -HF Hj.
  assert (forall k, (k + List.length args <= j)%nat -> args = map (fun p => moved j (fst p) t (snd p)) (combine (seq k (List.length args)) args)) as H; [|apply H; lia].
  clear Hj. induction HF as [|a args [x [-> _]] _ IH]; intros k Hk; [reflexivity|]. cbn [List.length] in *.
  cbn [seq combine map fst snd moved]. destruct (Nat.eqb_spec k j); [lia|]. rewrite <- IH by lia. destruct x; reflexivity.
Qed.

(** ** Cases *)
(** x * y^2 on a 2-vector and a number, differentiated in y and then in x *)
Definition ex_f (p : list R) : R := nth 0 p 0 * (nth 1 p 0) ^ 2.
Example C53_ex : partials 2 ex_f [1; 0]%nat (fun p => 2 * nth 1 p 0)
  /\ conform 2 [2%nat] [AArr (Arr [2%nat] [3; 4]); AArr (Arr [] [5])].
Proof.
  split.
  - econstructor; [lia| |econstructor; [lia| |constructor]].
    + instantiate (1 := fun p => 2 * nth 0 p 0 * nth 1 p 0). intros [|x [|y [|]]] E; try discriminate. unfold ex_f, put. cbn.
      auto_derive; [exact I|ring].
    + intros [|x [|y [|]]] E; try discriminate. unfold put. cbn. auto_derive; [exact I|ring].
  - split; [reflexivity|]. split.
    + repeat constructor; eexists; (split; [reflexivity|]); (split; [reflexivity|]); cbn; auto.
    + eexists. split; [left; reflexivity|reflexivity].
Qed.
Print Assumptions C52_values.
Print Assumptions C52_derivative.
Print Assumptions C52_jvp.
Print Assumptions C52_no_derivative_at_0.
Print Assumptions C53_partial_derivatives.
Print Assumptions C53_higher.
Print Assumptions C53_higher_exists.
Print Assumptions C53_robust.
Print Assumptions C53_raises.
Print Assumptions C53_robust_raises.
Print Assumptions C62_no_such_argument.
