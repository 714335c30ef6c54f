(** C98: egrad and egradRobust on arrays of any dtype. *)
From Coq Require Import Reals List Bool Arith String Lia Lra.
From Coquelicot Require Import Coquelicot.
From Verif Require Import Base ModelEgradDt SpecEgradDt.
Import ListNotations.
Local Open Scope C_scope.

Lemma leaf_ok_self x dt sh a : leaf_ok a (fill_ x dt sh) = true <-> has_derivatives (c_dt a) /\ dt = c_dt a.
Proof. unfold leaf_ok, has_derivatives. destruct a as [[] s l], dt; cbn; intuition congruence. Qed.

(** the tangents, when there are any *)
Lemma egrad_tans_some j args k tans :
  mapM (fun p : nat * carg => match snd p with
        | CA a => Some (CA (if (fst p =? j)%nat then fill_ 1 Float64 (c_sh a) else fill_ 0 Float64 (c_sh a)))
        | _ => None end) (combine (seq k (List.length args)) args) = Some tans ->
  forallb (fun p => arg_ok (fst p) (snd p)) (combine args tans) = true <-> List.Forall float64_array args.
Proof.
  revert k tans; induction args as [|a args IH]; intros k tans H.
  - injection H as <-. cbn. split; [constructor|reflexivity].
  - cbn [List.length seq combine mapM fst snd] in H.
    destruct a as [x|d|z]; [|discriminate|discriminate]. cbn [bind] in H.
    destruct (mapM _ _) as [ts|] eqn:E in H; [|discriminate]. injection H as <-.
    specialize (IH (S k) ts E). cbn [combine forallb fst snd arg_ok]. rewrite andb_true_iff, IH.
    assert (leaf_ok x (if (k =? j)%nat then fill_ 1 Float64 (c_sh x) else fill_ 0 Float64 (c_sh x)) = true <-> Float64 = c_dt x) as ->.
    { destruct (k =? j)%nat; rewrite leaf_ok_self; unfold has_derivatives; split; [intros [_ H]; exact H|intros <-|intros [_ H]; exact H|intros <-]; repeat split; discriminate. }
    split.
    + intros [H1 H2]. constructor; [exists x; split; [reflexivity|symmetry; exact H1]|exact H2].
    + intros H. inversion H as [|? ? [y [Ey Hy]] H2]; subst. injection Ey as ->. split; [symmetry; exact Hy|exact H2].
Qed.
Lemma egrad_tans_none j args k :
  mapM (fun p : nat * carg => match snd p with
        | CA a => Some (CA (if (fst p =? j)%nat then fill_ 1 Float64 (c_sh a) else fill_ 0 Float64 (c_sh a)))
        | _ => None end) (combine (seq k (List.length args)) args) = None -> ~ List.Forall float64_array args.
Proof.
  revert k; induction args as [|a args IH]; intros k H HF; [discriminate|].
  inversion HF as [|? ? [y [-> Hy]] H2]; subst. cbn [List.length seq combine mapM fst snd bind] in H.
  destruct (mapM _ _) eqn:E in H; [discriminate|]. exact (IH (S k) E H2).
Qed.

(** egrad works on float64 arrays and raises on everything else: float32, complex or integer
    arrays anywhere among the arguments, dictionaries, numbers. *)
Theorem C98_egrad_dtypes g j args r : is_cegrad g j args r -> (r <> None <-> List.Forall float64_array args).
Proof.
  unfold is_cegrad, c_egrad_tans. destruct (mapM _ _) as [tans|] eqn:E.
  - apply egrad_tans_some in E. unfold is_cjvp. destruct (forallb _ _).
    + intros [v [-> _]]. split; [intros _; apply E; reflexivity|discriminate].
    + intros ->. split; [congruence|]. intros H. apply E in H. discriminate.
  - apply egrad_tans_none in E. intros ->. split; [congruence|]. intros H; exfalso; exact (E H).
Qed.
Print Assumptions C98_egrad_dtypes.

Lemma robust_leaf x (d : list (string * carr)) :
  forallb (fun p : (string * carr) * (string * carr) => leaf_ok (snd (fst p)) (snd (snd p)))
    (combine d (map (fun p => (fst p, fill_ x (c_dt (snd p)) (c_sh (snd p)))) d)) = true <->
  (forall k a, In (k, a) d -> has_derivatives (c_dt a)).
Proof.
  induction d as [|[k a] d IH]; cbn [map combine forallb fst snd]; [split; [intros _ ? ? []|reflexivity]|].
  rewrite andb_true_iff, IH, leaf_ok_self. split.
  - intros [[H1 _] H2] k' a' [E|H]; [injection E as _ <-; exact H1|exact (H2 k' a' H)].
  - intros H. split; [split; [exact (H k a (or_introl eq_refl))|reflexivity]|intros k' a' Hin; exact (H k' a' (or_intror Hin))].
Qed.
Lemma robust_tans_some j args k tans :
  mapM (fun p : nat * carg => c_fillRobust (if (fst p =? j)%nat then 1 else 0) (snd p)) (combine (seq k (List.length args)) args) = Some tans ->
  forallb (fun p => arg_ok (fst p) (snd p)) (combine args tans) = true <-> List.Forall differentiable_arg args.
Proof.
  revert k tans; induction args as [|a args IH]; intros k tans H.
  - injection H as <-. cbn. split; [constructor|reflexivity].
  - cbn [List.length seq combine mapM fst snd] in H.
    assert (forall x t, c_fillRobust x a = Some t -> arg_ok a t = true <-> differentiable_arg a) as Ha.
    { intros x t. destruct a as [y|d|z]; intros E; [|cbn in E|discriminate E]; injection E as <-.
      - cbn [arg_ok differentiable_arg]. rewrite leaf_ok_self. tauto.
      - cbn [arg_ok differentiable_arg]. apply robust_leaf. }
    destruct (c_fillRobust _ a) as [t|] eqn:Et in H; [|discriminate]. cbn [bind] in H.
    destruct (mapM _ _) as [ts|] eqn:E in H; [|discriminate]. injection H as <-.
    specialize (IH (S k) ts E). cbn [combine forallb fst snd]. rewrite andb_true_iff, IH, (Ha _ _ Et).
    split; [intros [H1 H2]; constructor; assumption|intros H; inversion H; subst; split; assumption].
Qed.
Lemma robust_tans_none j args k :
  mapM (fun p : nat * carg => c_fillRobust (if (fst p =? j)%nat then 1 else 0) (snd p)) (combine (seq k (List.length args)) args) = None ->
  ~ List.Forall differentiable_arg args.
Proof.
  revert k; induction args as [|a args IH]; intros k H HF; [discriminate|].
  inversion HF as [|? ? H1 H2]; subst. cbn [List.length seq combine mapM fst snd] in H.
  destruct a as [y|d|z]; [| |destruct H1]; cbn [c_fillRobust bind] in H;
    (destruct (mapM _ _) eqn:E in H; [discriminate|]); exact (IH (S k) E H2).
Qed.

(** egradRobust works on arrays and dictionaries of arrays of every floating or complex type. *)
Theorem C98_robust_dtypes g j args r : is_cegradRobust g j args r -> (r <> None <-> List.Forall differentiable_arg args).
Proof.
  unfold is_cegradRobust, c_egradRobust_tans. destruct (mapM _ _) as [tans|] eqn:E.
  - apply robust_tans_some in E. unfold is_cjvp. destruct (forallb _ _).
    + intros [v [-> _]]. split; [intros _; apply E; reflexivity|discriminate].
    + intros ->. split; [congruence|]. intros H. apply E in H. discriminate.
  - apply robust_tans_none in E. intros ->. split; [congruence|]. intros H; exfalso; exact (E H).
Qed.
Print Assumptions C98_robust_dtypes.

(** ** Complex derivatives *)
Lemma norm_C_R (c : C) : @norm R_AbsRing C_R_NormedModule c = Cmod c.
Proof.
  unfold norm; cbn. unfold Cmod, prod_norm. f_equal. unfold norm; cbn. unfold abs; cbn.
  rewrite !Rmult_1_r, <- !Rabs_mult, !Rabs_pos_eq; [reflexivity| |]; apply Rle_0_sqr.
Qed.
Lemma minus_line (z : C) (t : R) : @minus C_AbsRing (z + RtoC t) z = RtoC t.
Proof. unfold minus, plus, opp; cbn. apply injective_projections; cbn; ring. Qed.
Lemma is_derive_line (f : C -> C) z l :
  @is_derive C_AbsRing (AbsRing_NormedModule C_AbsRing) f z l ->
  @is_derive R_AbsRing C_R_NormedModule (fun t : R => f (z + RtoC t)) 0%R l.
Proof.
  intros [_ H]. specialize (H z (fun P HP => HP)). split; [apply is_linear_scal_l|].
  intros x Hx. pose proof (@is_filter_lim_locally_unique R_AbsRing (AbsRing_NormedModule R_AbsRing) 0%R x Hx) as Ex. subst x.
  intros eps. specialize (H eps). destruct H as [d Hd].
  exists d. intros t Ht.
  specialize (Hd (z + RtoC t)).
  assert (ball z d (z + RtoC t)) as Hb.
  { clear Hd. unfold ball in Ht; cbn in Ht; unfold AbsRing_ball in Ht; cbn in Ht. unfold abs, minus, plus, opp in Ht; cbn in Ht.
    unfold ball; cbn. unfold AbsRing_ball. rewrite (minus_line z t). unfold abs; cbn. rewrite Cmod_R.
    replace t with (t + - 0)%R by apply Rplus_0_r || (rewrite Ropp_0; apply Rplus_0_r). exact Ht. }
  specialize (Hd Hb).
  replace (z + RtoC 0) with z by (apply injective_projections; cbn; ring).
  assert (Rle (Cmod (f (z + RtoC t) - f z - RtoC t * l)) (Rmult eps (Rabs t))) as Hd'.
  { clear Hb Hx Ht. revert Hd. generalize (f (z + RtoC t)). intros w Hd. rewrite <- Cmod_R, <- (minus_line z t). exact Hd. }
  rewrite norm_C_R.
  assert (Rle (Cmod (f (z + RtoC t) - f z - RtoC t * l)) (Rmult eps (Rabs (t - 0)))) as H2 by (rewrite Rminus_0_r; exact Hd').
  eapply Rle_trans; [|exact H2]. apply Req_le. f_equal. unfold minus, plus, opp, scal; cbn. unfold prod_plus, prod_opp, prod_scal; cbn.
  unfold scal; cbn. apply injective_projections; cbn; unfold mult, plus, opp; cbn; ring.
Qed.
Lemma is_derive_C_unique (f : R -> C) x (l l' : C) :
  @is_derive R_AbsRing C_R_NormedModule f x l -> @is_derive R_AbsRing C_R_NormedModule f x l' -> l = l'.
Proof.
  assert (forall (h : C -> R) v, @is_linear R_AbsRing C_R_NormedModule R_NormedModule h -> @is_derive R_AbsRing C_R_NormedModule f x v ->
    is_derive (fun t => h (f t)) x (h v)) as Hh.
  { intros h v Hl Hf. unfold is_derive in *.
    eapply filterdiff_ext_lin; [apply (filterdiff_comp' f h x _ h Hf); apply filterdiff_linear; exact Hl|].
    intros y; cbn. apply (@linear_scal _ C_R_NormedModule R_NormedModule h Hl). }
  intros H1 H2. apply injective_projections.
  - assert (E1 := is_derive_unique _ _ _ (Hh fst l is_linear_fst H1)). assert (E2 := is_derive_unique _ _ _ (Hh fst l' is_linear_fst H2)). congruence.
  - assert (E1 := is_derive_unique _ _ _ (Hh snd l is_linear_snd H1)). assert (E2 := is_derive_unique _ _ _ (Hh snd l' is_linear_snd H2)). congruence.
Qed.

Lemma nth_repeat_in (x : C) n i d : (i < n)%nat -> nth i (repeat x n) d = x.
Proof. revert i. induction n as [|n IH]; intros [|i] H; cbn; try lia; [reflexivity|apply IH; lia]. Qed.
Lemma numel_entries sh : c_numel sh = entries_of sh.
Proof. induction sh as [|k sh IH]; [reflexivity|]. change (k * c_numel sh = k * entries_of sh)%nat. now rewrite IH. Qed.
Lemma along_zero t a dt : c_wf a -> c_along t a (fill_ 0 dt (c_sh a)) = a.
Proof.
  destruct a as [d sh l]; unfold c_wf, c_along, fill_; cbn [c_dt c_sh c_dat]. rewrite <- numel_entries. intros H. f_equal.
  rewrite <- H. clear H. induction l as [|z l IH]; [reflexivity|]. cbn. rewrite IH. f_equal.
  apply injective_projections; cbn; ring.
Qed.
Lemma along_arg_zero t a v : wf_carg a -> c_fillRobust 0 a = Some v -> c_along_arg t a v = a.
Proof.
  destruct a as [x|d|z]; cbn; intros H E; [| |discriminate]; injection E as <-; cbn; f_equal.
  - apply along_zero; exact H.
  - induction d as [|[k y] d IH]; [reflexivity|]. cbn. f_equal; [f_equal; apply along_zero; apply (H k); left; reflexivity|].
    apply IH. intros k' x' Hin. apply (H k'). right; exact Hin.
Qed.
Lemma along_other t j args tans k : (forall i, (k <= i < k + List.length args)%nat -> i <> j) -> List.Forall wf_carg args ->
  mapM (fun p : nat * carg => c_fillRobust (if (fst p =? j)%nat then 1 else 0) (snd p)) (combine (seq k (List.length args)) args) = Some tans ->
  c_along_args t args tans = args.
Proof.
  revert k tans; induction args as [|a args IH]; intros k tans Hk HF H; [injection H as <-; reflexivity|].
  cbn [List.length seq combine mapM fst snd] in H. destruct (Nat.eqb_spec k j) as [E|_].
  { exfalso. apply (Hk k); [cbn; lia|exact E]. }
  destruct (c_fillRobust 0 a) as [v|] eqn:Ev; [|discriminate]. cbn [bind] in H.
  destruct (mapM _ _) as [ts|] eqn:E in H; [|discriminate]. injection H as <-.
  inversion HF as [|? ? H1 H2]; subst. unfold c_along_args. cbn [combine map fst snd]. f_equal; [exact (along_arg_zero t a v H1 Ev)|].
  apply (IH (S k)); [intros i Hi; apply Hk; cbn; lia|exact H2|exact E].
Qed.
Lemma along_put t j args tans k x : nth_error args j = Some (CA x) -> List.Forall wf_carg args ->
  mapM (fun p : nat * carg => c_fillRobust (if (fst p =? k + j)%nat then 1 else 0) (snd p)) (combine (seq k (List.length args)) args) = Some tans ->
  c_along_args t args tans = c_put j (c_along t x (fill_ 1 (c_dt x) (c_sh x))) args.
Proof.
  revert k j tans; induction args as [|a args IH]; intros k j tans Hj HF H; [destruct j; discriminate|].
  inversion HF as [|? ? H1 H2]; subst. cbn [List.length seq combine mapM fst snd] in H.
  destruct j as [|j]; cbn [nth_error] in Hj.
  - injection Hj as ->. replace (k + 0)%nat with k in H by lia. rewrite Nat.eqb_refl in H. cbn [c_fillRobust bind] in H.
    destruct (mapM _ _) as [ts|] eqn:E in H; [|discriminate]. injection H as <-.
    unfold c_put. cbn [firstn skipn app]. unfold c_along_args. cbn [combine map fst snd c_along_arg]. f_equal.
    apply (along_other t k args ts (S k)); [intros i Hi; lia|exact H2|exact E].
  - destruct (Nat.eqb_spec k (k + S j)) as [Ek|_]; [lia|].
    destruct (c_fillRobust 0 a) as [v|] eqn:Ev; [|discriminate]. cbn [bind] in H.
    destruct (mapM _ _) as [ts|] eqn:E in H; [|discriminate]. injection H as <-.
    unfold c_along_args. cbn [combine map fst snd]. unfold c_put. cbn [firstn skipn app]. f_equal; [exact (along_arg_zero t a v H1 Ev)|].
    replace (k + S j)%nat with (S k + j)%nat in E by lia. exact (IH (S k) j ts Hj H2 E).
Qed.

(** egradRobust of a function acting entry by entry on its [j]-th argument, by functions with complex
    derivatives, returns those derivatives and nothing else. *)
Theorem C98_complex_derivative g j args x (f : nat -> C -> C) (f' : nat -> C) r :
  nth_error args j = Some (CA x) -> List.Forall wf_carg args -> List.Forall differentiable_arg args ->
  entrywise g j args x f ->
  (forall i, (i < List.length (c_dat x))%nat -> @is_derive C_AbsRing (AbsRing_NormedModule C_AbsRing) (f i) (nth i (c_dat x) 0) (f' i)) ->
  is_cegradRobust g j args r <->
  exists v, r = Some v /\ c_sh v = c_sh x /\ c_dat v = map f' (seq 0 (List.length (c_dat x))).
Proof.
  intros Hj HF Hd Hg Hf.
  assert (c_put j x args = args) as Eput.
  { clear -Hj. unfold c_put. revert j Hj. induction args as [|a args IH]; intros [|j] H; try discriminate.
    - injection H as ->. reflexivity.
    - cbn. f_equal. exact (IH j H). }
  assert (wf_carg (CA x)) as Hx by (rewrite List.Forall_forall in HF; apply HF; exact (nth_error_In _ _ Hj)).
  unfold is_cegradRobust. destruct (c_egradRobust_tans j args) as [tans|] eqn:Et.
  2:{ exfalso. exact (robust_tans_none j args 0 Et Hd). }
  assert (Hok := proj2 (robust_tans_some j args 0 tans Et) Hd). unfold is_cjvp. rewrite Hok.
  destruct (Hg x eq_refl eq_refl eq_refl) as [Gs [Gl _]]. rewrite Eput in Gs, Gl.
  assert (forall i, (i < List.length (c_dat x))%nat ->
    @is_derive R_AbsRing C_R_NormedModule (fun t : R => nth i (c_dat (g (c_along_args t args tans))) 0) 0%R (f' i)) as HD.
  { intros i Hi. apply (is_derive_ext (fun t : R => f i (nth i (c_dat x) 0 + RtoC t))); [|apply is_derive_line, Hf, Hi].
    intros t. rewrite (along_put t j args tans 0 x Hj HF Et).
    set (w := c_along t x (fill_ 1 (c_dt x) (c_sh x))).
    assert (List.length (c_dat w) = List.length (c_dat x)) as Hw.
    { unfold w, c_along, fill_; cbn. rewrite map_length, combine_length, repeat_length. cbn in Hx. unfold c_wf in Hx. rewrite <- numel_entries in Hx. lia. }
    destruct (Hg w eq_refl eq_refl Hw) as [_ [_ H]]. rewrite (H i Hi). f_equal. symmetry. unfold w, c_along, fill_; cbn [c_dat].
    rewrite (nth_indep _ (RtoC 0) ((fun p : C * C => fst p + RtoC t * snd p) (RtoC 0, RtoC 0))) by (eapply Nat.lt_le_trans; [exact Hi|]; apply Nat.eq_le_incl; symmetry; exact Hw).
    rewrite (map_nth (fun p : C * C => fst p + RtoC t * snd p)). rewrite combine_nth by (rewrite repeat_length; exact Hx).
    cbn [fst snd]. rewrite nth_repeat_in by (cbn in Hx; unfold c_wf in Hx; rewrite <- numel_entries in Hx; lia). apply injective_projections; cbn; ring. }
  assert (forall i, (i < List.length (c_dat x))%nat -> nth i (map f' (seq 0 (List.length (c_dat x)))) 0 = f' i) as En.
  { intros i Hi. rewrite (nth_indep _ (RtoC 0) (f' 0%nat)) by (rewrite map_length, seq_length; exact Hi).
    rewrite map_nth, seq_nth by exact Hi. reflexivity. }
  split.
  - intros [v [-> [H1 [H2 H3]]]]. exists v. split; [reflexivity|]. split; [congruence|].
    apply (nth_ext _ _ (RtoC 0) (RtoC 0)); [rewrite map_length, seq_length; congruence|]. intros i Hi.
    rewrite En by congruence. apply (is_derive_C_unique _ 0%R _ _ (H3 i Hi)). apply HD. congruence.
  - intros [v [-> [H1 H2]]]. exists v. split; [reflexivity|]. split; [congruence|].
    split; [rewrite H2, map_length, seq_length; congruence|]. rewrite H2, map_length, seq_length. intros i Hi.
    rewrite En by exact Hi. apply HD; exact Hi.
Qed.
Print Assumptions C98_complex_derivative.

(** egrad raises on the same arguments as soon as one of them is complex: the complex differential
    equation of the test suite, which differentiates with egrad, cannot be solved. *)
Theorem C98_egrad_complex_refuted g args x : In (CA x) args -> c_dt x = Complex64 \/ c_dt x = Complex128 ->
  forall j r, is_cegrad g j args r -> r = None.
Proof.
  intros Hin Hc j r H. apply C98_egrad_dtypes in H. destruct r as [v|]; [|reflexivity]. exfalso.
  assert (Some v <> None) as Hn by discriminate. apply H in Hn. rewrite List.Forall_forall in Hn.
  destruct (Hn _ Hin) as [y [E Hy]]. injection E as <-. destruct Hc; congruence.
Qed.
Print Assumptions C98_egrad_complex_refuted.

(** A case: squares of the entries 3 and i; the derivative is 6 and 2i from egradRobust, an error from egrad. *)
Example C98_case :
  let x := CArr Complex128 [2%nat] [RtoC 3; Ci] in
  let g := fun args => match args with CA a :: _ => CArr (c_dt a) (c_sh a) (map (fun z => z * z) (c_dat a)) | _ => CArr Float64 [] [] end in
  (forall r, is_cegradRobust g 0 [CA x] r -> exists v, r = Some v /\ c_dat v = [2 * RtoC 3; 2 * Ci]) /\
  (forall r, is_cegrad g 0 [CA x] r -> r = None).
Proof.
  intros x g. split; intros r H.
  - apply (C98_complex_derivative g 0 [CA x] x (fun _ z => z * z) (fun i => 2 * nth i (c_dat x) 0)) in H.
    + destruct H as [v [-> [_ E]]]. exists v. split; [reflexivity|exact E].
    + reflexivity.
    + constructor; [reflexivity|constructor].
    + constructor; [split; discriminate|constructor].
    + intros w Hw Hs Hl. unfold c_put, g; cbn. split; [exact Hs|]. split; [rewrite map_length; exact Hl|]. intros i Hi.
      rewrite (nth_indep _ (RtoC 0) ((fun z : C => z * z) (RtoC 0))) by (rewrite map_length, Hl; exact Hi).
      apply (map_nth (fun z : C => z * z)).
    + intros i _. set (z := nth i (c_dat x) 0).
      replace (2 * z) with (@plus C_AbsRing (@mult C_AbsRing one z) (@mult C_AbsRing z one)) by (clearbody z; destruct z as [a b]; apply injective_projections; cbn; ring).
      apply (@is_derive_mult C_AbsRing (fun z => z) (fun z => z) z one one); [apply (@is_derive_id C_AbsRing)|apply (@is_derive_id C_AbsRing)|intros; apply Cmult_comm].
  - apply (C98_egrad_complex_refuted g [CA x] x) in H; [exact H|left; reflexivity|right; reflexivity].
Qed.
