(** [H] on both backends: full matrices, column removal, the Fourier rows. *)
From Coq Require Import Reals Arith Lia Lra List Bool ZArith Sorted Permutation.
From Coquelicot Require Import Coquelicot.
From Verif Require Import Base ProofBase Numbers ModelBFPy ModelBFCpp ProofTab ProofBFPy ProofBFCpp SpecBasis.
Import ListNotations.
Open Scope R_scope.

(** ** Fourier columns *)
Definition fscol (k d : nat) (z : R) : R :=
  match k with
  | O => match d with O => 1 | _ => 0 end
  | _ => let g := INR ((k + 1) / 2) in
         let ev := (k mod 2 =? 0)%nat in
         match (d mod 4)%nat with
         | O => g ^ d * (if ev then cos (g * z) else sin (g * z))
         | 1%nat => g ^ d * (if ev then - sin (g * z) else cos (g * z))
         | 2%nat => g ^ d * (if ev then - cos (g * z) else - sin (g * z))
         | _ => g ^ d * (if ev then sin (g * z) else - cos (g * z))
         end
  end.

Lemma mod4_succ d : ((S d) mod 4 = match d mod 4 with 0 => 1 | 1 => 2 | 2 => 3 | _ => 0 end)%nat.
Proof.
  pose proof (Nat.div_mod_eq d 4) as Hd. pose proof (Nat.mod_upper_bound d 4 ltac:(lia)) as Hr.
  set (q := (d / 4)%nat) in *. set (r := (d mod 4)%nat) in *.
  destruct r as [|[|[|[|r]]]]; try lia; rewrite Hd.
  - replace (S (4 * q + 0)) with (1 + q * 4)%nat by lia. rewrite Nat.mod_add by lia. reflexivity.
  - replace (S (4 * q + 1)) with (2 + q * 4)%nat by lia. rewrite Nat.mod_add by lia. reflexivity.
  - replace (S (4 * q + 2)) with (3 + q * 4)%nat by lia. rewrite Nat.mod_add by lia. reflexivity.
  - replace (S (4 * q + 3)) with (0 + (q + 1) * 4)%nat by lia. rewrite Nat.mod_add by lia. reflexivity.
Qed.

Lemma mod4_lt d : (d mod 4 < 4)%nat. Proof. apply Nat.mod_upper_bound. lia. Qed.

Lemma fscol_deriv k d z : is_derive (fscol k d) z (fscol k (S d) z).
Proof.
  destruct k as [|k].
  - cbn. apply is_derive_Reals. destruct d; apply derivable_pt_lim_const.
  - unfold fscol. rewrite mod4_succ. pose proof (mod4_lt d) as Hd.
    set (g := INR ((S k + 1) / 2)). set (ev := ((S k) mod 2 =? 0)%nat).
    destruct (d mod 4)%nat as [|[|[|[|r]]]]; try lia; destruct ev; cbn [pow];
      auto_derive; trivial; ring.
Qed.

Definition fs_ok_row (r : nat -> R -> nat -> option (buf R)) : Prop :=
  forall m z d, (1 <= m)%nat ->
  exists b, r m z d = Some b /\ blen b = m /\ holds b m (fun k => fscol k d z).

Lemma py_fs_ok : fs_ok_row (py_fs_hint ROps RFun).
Proof.
  intros m z d Hm. unfold py_fs_hint.
  assert (Hinit : forall v, exists b, bwr (bfill m (o0 ROps)) 0 v = Some b /\ blen b = m /\ bcell b 0%nat = Some v).
  { intros v. rewrite bwr_in by (cbn; lia). eexists; split; [reflexivity|]. split; reflexivity. }
  assert (Hloop : forall (W : nat -> R) b, blen b = m -> bcell b 0%nat = Some (fscol 0 d z) ->
     (forall k, (1 <= k)%nat -> W k = fscol k d z) ->
     exists b', for_ 1 m (fun k F => bwr F k (W k)) b = Some b' /\ blen b' = m /\
        holds b' m (fun k => fscol k d z)).
  { intros W b Hl H0 HW.
    destruct (for_row m 1 m 0 (fun k => fscol k d z) (fun k F => bwr F k (W k)) b) as (b' & E & Hl' & Hh');
      [lia|lia|exact Hl| | |].
    - intros [|k] Hk; [exact H0|lia].
    - intros k b' Hk Hl' _. rewrite Nat.add_0_r, HW by lia. reflexivity.
    - exists b'. rewrite Nat.add_0_r in Hh'. repeat split; assumption. }
  destruct (Nat.eqb_spec d 0) as [->|Hd].
  - destruct (Hinit (o1 ROps)) as (b & E & Hl & H0). rewrite E; cbn [bind].
    apply Hloop; [exact Hl|exact H0|].
    intros [|k] Hk; [lia|]. unfold fscol. cbn [Nat.modulo Nat.divmod fst snd Nat.sub].
    change (0 mod 4)%nat with 0%nat. cbv iota.
    cbn [pow RFun fcos fsin ROps onat omul]. destruct (_ =? 0)%nat; ring.
  - destruct (Hinit (o0 ROps)) as (b & E & Hl & H0). rewrite E; cbn [bind].
    assert (H0' : bcell b 0%nat = Some (fscol 0 d z)) by (rewrite H0; destruct d; [lia|reflexivity]).
    pose proof (mod4_lt d) as Hd4.
    destruct (Nat.eqb_spec (d mod 4) 0) as [E0|N0];
      [|destruct (Nat.eqb_spec (d mod 4) 1) as [E1|N1];
        [|destruct (Nat.eqb_spec (d mod 4) 2) as [E2|N2]]];
      apply Hloop; try assumption; intros [|k] Hk; try lia; unfold fscol.
    + rewrite E0, !opow_R. cbn [RFun fcos fsin ROps onat omul oopp]. destruct (S k mod 2 =? 0)%nat; ring.
    + rewrite E1, !opow_R. cbn [RFun fcos fsin ROps onat omul oopp]. destruct (S k mod 2 =? 0)%nat; ring.
    + rewrite E2, !opow_R. cbn [RFun fcos fsin ROps onat omul oopp]. destruct (S k mod 2 =? 0)%nat; ring.
    + replace (d mod 4)%nat with 3%nat by lia. rewrite !opow_R.
      cbn [RFun fcos fsin ROps onat omul oopp]. destruct (S k mod 2 =? 0)%nat; ring.
Qed.

Lemma cpp_fs_loop_ok m d x zs n even odd dark : (1 <= m)%nat -> pts x zs n ->
  cols dark n m 1 (fun j k => fscol k d (zs j)) ->
  (forall k z, (1 <= k)%nat -> (if (k mod 2 =? 0)%nat then even (INR ((k + 1) / 2)) z
       else odd (INR ((k + 1) / 2)) z) = fscol k d z) ->
  exists b, cpp_fs_loop ROps m x n even odd dark = Some b /\ cols b n m m (fun j k => fscol k d (zs j)).
Proof.
  intros Hm Hx Hb HW. unfold cpp_fs_loop.
  destruct (for_cols m n 1 m 0 (fun j k => fscol k d (zs j))
    (fun j k dark => let g := onat ROps ((j + 1) / 2) in xk <- brd x k ;;
       bwr dark (m * k + j)%nat (if (j mod 2 =? 0)%nat then even g xk else odd g xk)) dark)
    as (b & E & H); [lia|lia|exact Hb| |].
  - intros k j b' Hk Hj Hb'. cbv zeta. prd Hx. rewrite Nat.add_0_r.
    cbn [ROps onat]. rewrite HW by lia. reflexivity.
  - exists b. rewrite Nat.add_0_r in H. split; assumption.
Qed.

Lemma cpp_fs_ok m d x zs n dark : (1 <= m)%nat -> pts x zs n -> blen dark = (m * n)%nat ->
  exists b, cpp_fs_hint ROps RFun m d x n dark = Some b /\ cols b n m m (fun j k => fscol k d (zs j)).
Proof.
  intros Hm Hx Hl. unfold cpp_fs_hint.
  assert (Hinit : forall v, v = fscol 0 d 0 -> exists b, for_ 0 n (fun k dark => bwr dark (m * k)%nat v) dark = Some b /\
      cols b n m 1 (fun j k => fscol k d (zs j))).
  { intros v Hv. apply (for_cols1 m n 0 (fun j k => fscol k d (zs j))); [lia|apply cols_0, Hl|].
    intros j b' Hj _. rewrite Nat.add_0_r. f_equal. exact Hv. }
  destruct (Nat.eqb_spec d 0) as [->|Hd].
  - destruct (Hinit (o1 ROps) eq_refl) as (b & E & Hb). rewrite E; cbn [bind].
    apply (cpp_fs_loop_ok m 0 x zs n _ _ b Hm Hx Hb).
    intros [|k] z Hk; [lia|]. unfold fscol. change (0 mod 4)%nat with 0%nat. cbv iota.
    cbn [pow RFun fcos fsin ROps onat omul]. destruct (_ =? 0)%nat; ring.
  - destruct (Hinit (o0 ROps)) as (b & E & Hb); [destruct d; [lia|reflexivity]|]. rewrite E; cbn [bind].
    pose proof (mod4_lt d) as Hd4.
    destruct (Nat.eqb_spec (d mod 4) 0) as [E0|N0];
      [|destruct (Nat.eqb_spec (d mod 4) 1) as [E1|N1];
        [|destruct (Nat.eqb_spec (d mod 4) 2) as [E2|N2]]];
      apply (cpp_fs_loop_ok m d x zs n _ _ b Hm Hx Hb); intros [|k] z Hk; try lia; unfold fscol.
    + rewrite E0, !opow_R. cbn [RFun fcos fsin ROps onat omul oopp]. destruct (S k mod 2 =? 0)%nat; ring.
    + rewrite E1, !opow_R. cbn [RFun fcos fsin ROps onat omul oopp]. destruct (S k mod 2 =? 0)%nat; ring.
    + rewrite E2, !opow_R. cbn [RFun fcos fsin ROps onat omul oopp]. destruct (S k mod 2 =? 0)%nat; ring.
    + replace (d mod 4)%nat with 3%nat by lia. rewrite !opow_R.
      cbn [RFun fcos fsin ROps onat omul oopp]. destruct (S k mod 2 =? 0)%nat; ring.
Qed.

(** ** All families *)
Definition col (f : fam) (k d : nat) (z : R) : R :=
  match f with FS => fscol k d z | _ => ftab f k d z end.

Lemma col_deriv f k d z : is_derive (col f k d) z (col f k (S d) z).
Proof. destruct f; first [apply fscol_deriv | apply tab_deriv]. Qed.

Lemma py_hint_row_ok f m z d : (1 <= m)%nat ->
  py_hint_row ROps RFun f m z d = Some (map (fun k => col f k d z) (seq 0 m)).
Proof.
  intros Hm. unfold py_hint_row.
  assert (H : forall (r : option (buf R)) G, (exists b, r = Some b /\ blen b = m /\ holds b m G) ->
     (b <- r ;; bto_list b) = Some (map G (seq 0 m))).
  { intros r G (b & -> & Hl & Hh). cbn [bind]. rewrite <- Hl. apply bto_list_holds. rewrite Hl; exact Hh. }
  destruct f; apply H.
  - apply py_cp_ok, Hm.
  - apply py_lep_ok, Hm.
  - apply py_lap_ok, Hm.
  - apply py_hoppro_ok, Hm.
  - apply py_hopphy_ok, Hm.
  - apply py_fs_ok, Hm.
Qed.

(** what the Python [_Hint] of a basis must return *)
Definition py_hint_spec (m : nat) (hint : list R -> nat -> option (mat R)) (G : nat -> nat -> R -> R) : Prop :=
  forall zs d, hint zs d = Some (Mat (length zs) m (map (fun z => map (fun k => G k d z) (seq 0 m)) zs)).
(** what the C++ [Hint] of a basis must leave in its output block *)
Definition cpp_hint_spec (m : nat) (hint : nat -> buf R -> nat -> buf R -> option (buf R))
    (G : nat -> nat -> R -> R) : Prop :=
  forall d x zs n dark, pts x zs n -> blen dark = (m * n)%nat ->
  exists b, hint d x n dark = Some b /\ cols b n m m (fun j k => G k d (zs j)).

Lemma py_hint_ok f m : (1 <= m)%nat -> py_hint_spec m (py_hint ROps RFun f m) (col f).
Proof.
  intros Hm zs d. unfold py_hint.
  rewrite (mapM_some_map _ (fun z => map (fun k => col f k d z) (seq 0 m))); [reflexivity|].
  intros z _. apply py_hint_row_ok, Hm.
Qed.

Lemma cpp_hint_ok f m : (1 <= m)%nat -> cpp_hint_spec m (cpp_hint ROps RFun f m) (col f).
Proof.
  intros Hm d x zs n dark Hx Hl. destruct f; cbn [cpp_hint].
  - apply cpp_cp_ok; assumption.
  - apply cpp_lep_ok; assumption.
  - apply cpp_lap_ok; assumption.
  - apply cpp_hoppro_ok; assumption.
  - apply cpp_hopphy_ok; assumption.
  - apply cpp_fs_ok; assumption.
Qed.

(** the full matrix both backends must return *)
Definition full_mat (B : basis (T:=R)) (G : nat -> nat -> R -> R) (xs : list R) (d : nat) : mat R :=
  Mat (length xs) (b_m B)
    (map (fun x => map (fun k => G k d ((x - b_x0 B) * b_c B + b_z0 B) * b_c B ^ d) (seq 0 (b_m B))) xs).

Lemma py_H_full hint G B xs d : py_hint_spec (b_m B) hint G ->
  py_H_with ROps hint B xs d true = Some (full_mat B G xs d).
Proof.
  intros H. unfold py_H_with. rewrite H. cbn [bind negb andb].
  unfold mat_scale, full_mat. cbn [mr mc md]. rewrite map_length, !map_map. do 2 f_equal.
  apply map_ext. intros x. rewrite map_map. apply map_ext. intros k.
  rewrite opow_R. reflexivity.
Qed.

(** *** columns kept *)
Definition keptc (nC : list Z) (m : nat) : list nat := filter (fun j => negb (in_nC nC j)) (seq 0 m).

Lemma in_nC_spec nC j : in_nC nC j = true <-> In (Z.of_nat j) nC.
Proof.
  unfold in_nC. rewrite existsb_exists. split.
  - intros (z & Hz & He). apply Z.eqb_eq in He. subst; exact Hz.
  - intros H. exists (Z.of_nat j). split; [exact H|apply Z.eqb_refl].
Qed.

Lemma keptc_in nC m k : In k (keptc nC m) <-> (k < m)%nat /\ ~ In (Z.of_nat k) nC.
Proof.
  unfold keptc. rewrite filter_In, in_seq, negb_true_iff, <- not_true_iff_false, in_nC_spec. intuition lia.
Qed.

Lemma keptc_S nC m : keptc nC (S m) = (keptc nC m ++ if in_nC nC m then [] else [m])%list.
Proof.
  unfold keptc. rewrite seq_S, filter_app. cbn. destruct (in_nC nC m); reflexivity.
Qed.

Lemma keptc_sorted nC m : StronglySorted lt (keptc nC m).
Proof.
  unfold keptc. generalize 0%nat as s. induction m as [|m IH]; intros s; cbn; [constructor|].
  destruct (negb (in_nC nC s)).
  - constructor; [apply IH|]. apply Forall_forall. intros k Hk.
    apply filter_In in Hk as [Hk _]. apply in_seq in Hk. lia.
  - apply IH.
Qed.

Lemma filter_len_compl {X} (p : X -> bool) l :
  (length (filter p l) + length (filter (fun x => negb (p x)) l) = length l)%nat.
Proof. induction l as [|x l IH]; cbn; [reflexivity|]. destruct (p x); cbn; lia. Qed.

Lemma keptc_length nC m : valid_nC nC m -> length (keptc nC m) = (m - length nC)%nat.
Proof.
  intros [Hnd Hr]. unfold keptc.
  pose proof (filter_len_compl (in_nC nC) (seq 0 m)) as H. rewrite seq_length in H.
  assert (Hp : length (filter (in_nC nC) (seq 0 m)) = length nC).
  { rewrite <- (map_length Z.of_nat). apply Permutation_length, NoDup_Permutation.
    - apply FinFun.Injective_map_NoDup; [intros a b; lia|]. apply NoDup_filter, seq_NoDup.
    - exact Hnd.
    - intros z. rewrite in_map_iff. split.
      + intros (k & <- & Hk). apply filter_In in Hk as [_ Hk]. apply in_nC_spec, Hk.
      + intros Hz. specialize (Hr z Hz). exists (Z.to_nat z). split; [lia|].
        apply filter_In. split; [apply in_seq; lia|]. apply in_nC_spec.
        replace (Z.of_nat (Z.to_nat z)) with z by lia. exact Hz. }
  lia.
Qed.

Lemma keptc_length_le nC m j : (j <= m)%nat -> (length (keptc nC j) <= length (keptc nC m))%nat.
Proof.
  intros Hj. replace m with (j + (m - j))%nat by lia.
  unfold keptc. rewrite seq_app, filter_app, app_length. lia.
Qed.

Lemma keptc_nth nC m j : (j < m)%nat -> in_nC nC j = false ->
  nth (length (keptc nC j)) (keptc nC m) 0%nat = j.
Proof.
  intros Hj Hn. replace m with (S j + (m - S j))%nat by lia.
  unfold keptc at 2. rewrite seq_app, filter_app. fold (keptc nC (S j)).
  rewrite keptc_S, Hn, <- app_assoc. cbn [app].
  rewrite app_nth2 by lia. rewrite Nat.sub_diag. reflexivity.
Qed.

(** the constrained matrix both backends must return *)
Definition part_mat (B : basis (T:=R)) (G : nat -> nat -> R -> R) (xs : list R) (d : nat) : mat R :=
  Mat (length xs) (length (keptc (b_nC B) (b_m B)))
    (map (fun x => map (fun k => G k d ((x - b_x0 B) * b_c B + b_z0 B) * b_c B ^ d)
        (keptc (b_nC B) (b_m B))) xs).

Lemma drop_cols_seq {T} (idx : list nat) (g : nat -> T) s m :
  drop_cols idx s (map g (seq s m)) = map g (filter (fun k => negb (existsb (Nat.eqb k) idx)) (seq s m)).
Proof.
  revert s; induction m as [|m IH]; intros s; cbn; [reflexivity|].
  destruct (existsb (Nat.eqb s) idx); cbn; rewrite IH; reflexivity.
Qed.

Lemma repeat_seq {T} (v : T) s m : repeat v m = map (fun _ => v) (seq s m).
Proof. revert s; induction m as [|m IH]; intros s; cbn; [reflexivity|]. rewrite (IH (S s)). reflexivity. Qed.

Lemma np_delete_ok nC m r rows (M : mat R) :
  (forall i, In i nC -> (0 <= i < Z.of_nat m)%Z) -> M = Mat r m rows ->
  (forall row, In row rows -> exists g, row = map g (seq 0 m)) ->
  np_delete_cols M nC = Some (Mat r (length (keptc nC m))
     (map (fun row => map (fun k => nth k row 0) (keptc nC m)) rows)).
Proof.
  intros Hr -> Hrows. unfold np_delete_cols. cbn [mc mr md].
  rewrite (mapM_some_map _ Z.to_nat).
  2:{ intros i Hi. specialize (Hr i Hi). unfold np_index.
      destruct (Z.leb_spec (- Z.of_nat m) i); [|lia]. destruct (Z.ltb_spec i (Z.of_nat m)); [|lia].
      cbn [andb]. destruct (Z.ltb_spec i 0); [lia|]. reflexivity. }
  cbn [bind].
  assert (Hk : forall s, filter (fun k => negb (existsb (Nat.eqb k) (map Z.to_nat nC))) (seq s m)
                 = filter (fun j => negb (in_nC nC j)) (seq s m)).
  { intros s. apply filter_ext_in. intros k _. f_equal. unfold in_nC.
    apply eq_true_iff_eq. rewrite !existsb_exists. split.
    - intros (q & Hq & He). apply Nat.eqb_eq in He; subst q. apply in_map_iff in Hq as (z & <- & Hz).
      exists z. split; [exact Hz|]. apply Z.eqb_eq. specialize (Hr z Hz). lia.
    - intros (z & Hz & He). apply Z.eqb_eq in He. exists k. split; [|apply Nat.eqb_refl].
      apply in_map_iff. exists z. split; [lia|exact Hz]. }
  f_equal. f_equal.
  - rewrite (repeat_seq 0%nat 0), drop_cols_seq, map_length, Hk. reflexivity.
  - apply map_ext_in. intros row Hrow. destruct (Hrows row Hrow) as (g & ->).
    rewrite drop_cols_seq, Hk. fold (keptc nC m). apply map_ext_in.
    intros k Hin. apply keptc_in in Hin as [Hin _].
    rewrite (nth_indep _ 0 (g 0%nat)) by (rewrite map_length, seq_length; lia).
    rewrite map_nth, seq_nth by lia. reflexivity.
Qed.

Lemma keptc_nil m : keptc [] m = seq 0 m.
Proof.
  unfold keptc. generalize 0%nat as s. induction m as [|m IH]; intros s; [reflexivity|].
  cbn. f_equal. apply IH.
Qed.

Lemma some_inj {X} (a b : X) : Some a = Some b -> a = b.
Proof. congruence. Qed.

Lemma py_H_part hint G B xs d : py_hint_spec (b_m B) hint G ->
  (forall i, In i (b_nC B) -> (0 <= i < Z.of_nat (b_m B))%Z) ->
  py_H_with ROps hint B xs d false = Some (part_mat B G xs d).
Proof.
  intros H Hr. pose proof (py_H_full hint G B xs d H) as Hf.
  unfold py_H_with in *. rewrite H in *. cbn [bind negb andb] in *.
  destruct (Nat.ltb_spec 0 (length (b_nC B))) as [Hn|Hn].
  - apply some_inj in Hf. rewrite Hf. unfold full_mat.
    rewrite (np_delete_ok (b_nC B) (b_m B) (length xs)
       (map (fun x => map (fun k => G k d ((x - b_x0 B) * b_c B + b_z0 B) * b_c B ^ d) (seq 0 (b_m B))) xs)
       _ Hr eq_refl).
    + unfold part_mat. f_equal. f_equal. rewrite map_map. apply map_ext. intros x.
      apply map_ext_in. intros k Hk. apply keptc_in in Hk as [Hk _].
      set (g := fun k : nat => G k d ((x - b_x0 B) * b_c B + b_z0 B) * b_c B ^ d).
      change (nth k (map g (seq 0 (b_m B))) 0 = g k).
      rewrite (nth_indep _ 0 (g 0%nat)) by (rewrite map_length, seq_length; lia).
      rewrite map_nth, seq_nth by lia. reflexivity.
    + intros row Hrow. apply in_map_iff in Hrow as (x & <- & _). eexists; reflexivity.
  - rewrite Hf. destruct (b_nC B) as [|z l] eqn:E; [|cbn in Hn; lia].
    unfold part_mat, full_mat. rewrite E, keptc_nil, seq_length. reflexivity.
Qed.

(** *** C++ *)
Lemma cpp_map_points_ok B (x : buf R) xs n : pts x xs n ->
  exists z, cpp_map_points ROps B x n = Some z /\
    pts z (fun j => (xs j - b_x0 B) * b_c B + b_z0 B) n.
Proof.
  intros Hx. unfold cpp_map_points.
  destruct (for_row n 0 n 0 (fun j => (xs j - b_x0 B) * b_c B + b_z0 B)
     (fun k z => xk <- brd x k ;; bwr z k
        (oadd ROps (omul ROps (osub ROps xk (b_x0 B)) (b_c B)) (b_z0 B))) (bnew n)) as (z & E & Hl & Hh);
    [lia|lia|reflexivity| | |].
  - intros k Hk; lia.
  - intros k b' Hk Hl' _. prd Hx. rewrite Nat.add_0_r. reflexivity.
  - exists z. rewrite Nat.add_0_r in Hh. split; [exact E|split; assumption].
Qed.

Lemma cpp_emit_full nC m n mOut s dark F V : cols dark n m m V -> blen F = (m * n)%nat ->
  exists b, cpp_emit ROps nC m n mOut s true dark F = Some b /\ cols b n m m (fun j k => V j k * s).
Proof.
  intros Hd Hl. unfold cpp_emit.
  destruct (for_cols m n 0 m 0 (fun j k => V j k * s)
     (fun j k F => v <- brd dark (m * k + j)%nat ;; bwr F (m * k + j)%nat (omul ROps v s)) F)
    as (b & E & H); [lia|lia|apply cols_0, Hl| |].
  - intros k j b' Hk Hj Hb'. crd Hd. rewrite Nat.add_0_r. reflexivity.
  - exists b. rewrite Nat.add_0_r in H. split; assumption.
Qed.

Lemma cpp_emit_part nC m n s dark F V : valid_nC nC m ->
  cols dark n m m V -> blen F = (length (keptc nC m) * n)%nat ->
  exists b, cpp_emit ROps nC m n (length (keptc nC m)) s false dark F = Some b /\
    cols b n (length (keptc nC m)) (length (keptc nC m)) (fun j i => V j (nth i (keptc nC m) 0%nat) * s).
Proof.
  intros Hv Hd Hl. unfold cpp_emit. set (mo := length (keptc nC m)) in *.
  set (W := fun j i => V j (nth i (keptc nC m) 0%nat) * s).
  destruct (for_inv (fun j (st : nat * buf R) => fst st = length (keptc nC j) /\
       cols (snd st) n mo (length (keptc nC j)) W)
     (fun j (st : nat * buf R) => let (i, F) := st in
           if in_nC nC j then Some (i, F)
           else F <- for_ 0 n (fun k F => v <- brd dark (m * k + j)%nat ;;
                       bwr F (mo * k + i)%nat (omul ROps v s)) F ;;
                Some (S i, F)) 0 m (0%nat, F)) as ([i b] & E & Hi & Hb).
  - lia.
  - split; [reflexivity|]. apply cols_0, Hl.
  - intros j [i b] Hj [Hi Hb]. cbn [fst snd] in Hi, Hb. subst i.
    destruct (in_nC nC j) eqn:Ein.
    + eexists; split; [reflexivity|]. rewrite keptc_S, Ein, app_nil_r. split; [reflexivity|exact Hb].
    + assert (Hlt : (length (keptc nC j) < mo)%nat).
      { pose proof (keptc_length_le nC m (S j) ltac:(lia)) as H.
        rewrite keptc_S, Ein, app_length in H. cbn in H. unfold mo. lia. }
      destruct (for_cols1 mo n (length (keptc nC j)) W
         (fun k F => v <- brd dark (m * k + j)%nat ;;
                       bwr F (mo * k + length (keptc nC j))%nat (omul ROps v s)) b) as (b' & E & Hb');
        [exact Hlt|exact Hb| |].
      * intros k b' Hk _. crd Hd. unfold W. rewrite keptc_nth by (lia || exact Ein). reflexivity.
      * rewrite E; cbn [bind]. eexists; split; [reflexivity|].
        rewrite keptc_S, Ein, app_length. cbn [length fst snd].
        replace (length (keptc nC j) + 1)%nat with (S (length (keptc nC j))) by lia.
        split; [reflexivity|exact Hb'].
  - rewrite E; cbn [bind fst snd] in *. exists b. split; [reflexivity|exact Hb].
Qed.

Lemma cols_bmat {T} (b : buf T) n m V : cols b n m m V -> bmat b n m (fun j k => Some (V j k)).
Proof. intros [Hl H]; split; [exact Hl|exact H]. Qed.

Lemma pts_bof (xs : list R) : pts (bof xs) (fun j => nth j xs 0) (length xs).
Proof.
  split; [reflexivity|]. intros k Hk. cbn. apply nth_error_nth'. exact Hk.
Qed.

(** [cpp_H_mat] with an arbitrary [Hint] *)
Definition cpp_H_mat_with hint (B : basis (T:=R)) (xs : list R) (d : nat) (full : bool) : option (mat R) :=
  r <- cpp_H_with ROps hint B (bof xs) (length xs) d full ;;
  let '(n, mOut, F) := r in
  rows <- buf_matrix F n mOut ;;
  Some (Mat n mOut rows).

Lemma rows_of_points {Y} (f : R -> Y) xs :
  map (fun j => f (nth j xs 0)) (seq 0 (length xs)) = map f xs.
Proof. apply (map_seq_nth f xs 0). Qed.

Lemma cpp_H_full hint G B xs d : cpp_hint_spec (b_m B) hint G ->
  cpp_H_mat_with hint B xs d true = Some (full_mat B G xs d).
Proof.
  intros H. unfold cpp_H_mat_with, cpp_H_with. cbn [negb andb].
  destruct (cpp_map_points_ok B (bof xs) _ _ (pts_bof xs)) as (z & Ez & Hz). rewrite Ez; cbn [bind].
  destruct (H d z _ (length xs) (bnew (length xs * b_m B)) Hz) as (dk & Ed & Hd); [cbn; lia|].
  rewrite Ed; cbn [bind].
  edestruct (cpp_emit_full (b_nC B) (b_m B) (length xs) (b_m B) (opow ROps (b_c B) d) dk
     (bnew (b_m B * length xs)) _ Hd) as (F & EF & HF); [reflexivity|].
  rewrite EF; cbn [bind].
  rewrite (buf_matrix_bmat F (length xs) (b_m B) _ (cols_bmat _ _ _ _ HF)). cbn [bind].
  unfold full_mat. do 2 f_equal. rewrite opow_R.
  rewrite <- (rows_of_points (fun x => map (fun k => G k d ((x - b_x0 B) * b_c B + b_z0 B) * b_c B ^ d)
                 (seq 0 (b_m B)))). reflexivity.
Qed.

Lemma cpp_H_part hint G B xs d : cpp_hint_spec (b_m B) hint G -> valid_nC (b_nC B) (b_m B) ->
  cpp_H_mat_with hint B xs d false = Some (part_mat B G xs d).
Proof.
  intros H Hv. unfold cpp_H_mat_with, cpp_H_with. cbn [negb andb].
  pose proof (keptc_length _ _ Hv) as Hk.
  pose proof (filter_len_compl (in_nC (b_nC B)) (seq 0 (b_m B))) as Hc. rewrite seq_length in Hc.
  assert (Hle : (length (b_nC B) <= b_m B)%nat).
  { destruct Hv as [Hnd Hr]. rewrite <- (seq_length (b_m B) 0), <- (map_length Z.of_nat).
    apply NoDup_incl_length; [exact Hnd|]. intros z Hz. specialize (Hr z Hz).
    apply in_map_iff. exists (Z.to_nat z). split; [lia|]. apply in_seq. lia. }
  destruct (Nat.ltb_spec (b_m B) (length (b_nC B))) as [Hlt|_]; [lia|]. rewrite <- Hk.
  destruct (cpp_map_points_ok B (bof xs) _ _ (pts_bof xs)) as (z & Ez & Hz). rewrite Ez; cbn [bind].
  destruct (H d z _ (length xs) (bnew (length xs * b_m B)) Hz) as (dk & Ed & Hd); [cbn; lia|].
  rewrite Ed; cbn [bind].
  edestruct (cpp_emit_part (b_nC B) (b_m B) (length xs) (opow ROps (b_c B) d) dk
     (bnew (length (keptc (b_nC B) (b_m B)) * length xs)) _ Hv Hd) as (F & EF & HF); [reflexivity|].
  rewrite EF; cbn [bind].
  rewrite (buf_matrix_bmat F (length xs) _ _ (cols_bmat _ _ _ _ HF)). cbn [bind].
  unfold part_mat. do 2 f_equal. rewrite opow_R.
  rewrite <- (rows_of_points (fun x => map (fun k => G k d ((x - b_x0 B) * b_c B + b_z0 B) * b_c B ^ d)
                 (keptc (b_nC B) (b_m B)))).
  apply map_ext. intros j.
  apply (map_seq_nth (fun k => G k d ((nth j xs 0 - b_x0 B) * b_c B + b_z0 B) * b_c B ^ d)
          (keptc (b_nC B) (b_m B)) 0%nat).
Qed.

Lemma cpp_H_mat_eq f B xs d full :
  cpp_H_mat ROps RFun f B xs d full = cpp_H_mat_with (cpp_hint ROps RFun f (b_m B)) B xs d full.
Proof. reflexivity. Qed.

(** ** consequences *)
Lemma nth_error_map_seq {Y} (g : nat -> Y) m k : nth_error (map g (seq 0 m)) k =
  if (k <? m)%nat then Some (g k) else None.
Proof.
  destruct (Nat.ltb_spec k m) as [Hk|Hk].
  - rewrite nth_error_map, (nth_error_nth' _ 0%nat) by (rewrite seq_length; exact Hk).
    cbn. rewrite seq_nth by exact Hk. reflexivity.
  - apply nth_error_None. rewrite map_length, seq_length. exact Hk.
Qed.

Lemma full_mat_ent B G xs d j k : ment (full_mat B G xs d) j k =
  match nth_error xs j with
  | Some x => if (k <? b_m B)%nat then Some (G k d ((x - b_x0 B) * b_c B + b_z0 B) * b_c B ^ d) else None
  | None => None end.
Proof.
  unfold ment, full_mat. cbn [md]. rewrite nth_error_map.
  destruct (nth_error xs j) as [x|]; cbn [option_map]; [|reflexivity].
  apply (nth_error_map_seq (fun k => G k d ((x - b_x0 B) * b_c B + b_z0 B) * b_c B ^ d)).
Qed.

Lemma full_mat_shaped B G xs d : shaped (full_mat B G xs d) (length xs) (b_m B).
Proof.
  repeat split; cbn [mr mc md full_mat]; [apply map_length|].
  intros row Hr. apply in_map_iff in Hr as (x & <- & _). rewrite map_length. apply seq_length.
Qed.

Lemma full_mat_derivs (H : list R -> nat -> option (mat R)) B G :
  (forall k d z, is_derive (G k d) z (G k (S d) z)) ->
  (forall xs d, H xs d = Some (full_mat B G xs d)) -> derivative_matrices H (b_m B).
Proof.
  intros HG HH xs d. exists (full_mat B G xs d). split; [apply HH|]. split; [apply full_mat_shaped|].
  intros k Hk. exists (fun t => G k 0%nat ((t - b_x0 B) * b_c B + b_z0 B)). split.
  - intros t. exists (full_mat B G [t] 0). split; [apply HH|]. rewrite full_mat_ent. cbn [nth_error].
    destruct (Nat.ltb_spec k (b_m B)); [|lia]. cbn [pow]. rewrite Rmult_1_r. reflexivity.
  - intros j x Hj. exists (G k d ((x - b_x0 B) * b_c B + b_z0 B) * b_c B ^ d). split.
    + rewrite full_mat_ent, Hj. destruct (Nat.ltb_spec k (b_m B)); [reflexivity|lia].
    + apply (affine_chain (G k)). apply HG.
Qed.

Lemma part_mat_removed B G xs d :
  columns_removed (b_m B) (b_nC B) (full_mat B G xs d) (part_mat B G xs d).
Proof.
  exists (keptc (b_nC B) (b_m B)). split; [apply keptc_sorted|]. split; [apply keptc_in|]. split.
  - repeat split; cbn [mr mc md part_mat full_mat]; [apply map_length|].
    intros row Hr. apply in_map_iff in Hr as (x & <- & _). apply map_length.
  - intros j i. unfold ment at 1. cbn [md part_mat]. rewrite nth_error_map.
    destruct (nth_error xs j) as [x|] eqn:Ex; cbn [option_map].
    + rewrite nth_error_map. destruct (nth_error (keptc (b_nC B) (b_m B)) i) as [k|] eqn:Ek; cbn [option_map]; [|reflexivity].
      rewrite full_mat_ent, Ex. apply nth_error_In, keptc_in in Ek as [Hk _].
      destruct (Nat.ltb_spec k (b_m B)); [reflexivity|lia].
    + destruct (nth_error (keptc (b_nC B) (b_m B)) i); [|reflexivity].
      rewrite full_mat_ent, Ex. reflexivity.
Qed.

Lemma fam_init_m f x0 xf nC m : b_m (fam_init ROps RFun f x0 xf nC m) = m.
Proof. destruct f; reflexivity. Qed.
Lemma fam_init_nC f x0 xf nC m : b_nC (fam_init ROps RFun f x0 xf nC m) = nC.
Proof. destruct f; reflexivity. Qed.

Lemma H1_full be f x0 xf nC m xs d : (1 <= m)%nat ->
  H1 be f x0 xf nC m xs d true = Some (full_mat (fam_init ROps RFun f x0 xf nC m) (col f) xs d).
Proof.
  intros Hm. destruct be; cbn [H1].
  - apply py_H_full. rewrite fam_init_m. apply py_hint_ok, Hm.
  - rewrite cpp_H_mat_eq. apply cpp_H_full. rewrite fam_init_m. apply cpp_hint_ok, Hm.
Qed.

Lemma H1_part be f x0 xf nC m xs d : (1 <= m)%nat -> valid_nC nC m ->
  H1 be f x0 xf nC m xs d false = Some (part_mat (fam_init ROps RFun f x0 xf nC m) (col f) xs d).
Proof.
  intros Hm Hv. destruct be; cbn [H1].
  - apply py_H_part; rewrite fam_init_m; [apply py_hint_ok, Hm|]. rewrite fam_init_nC. apply Hv.
  - rewrite cpp_H_mat_eq. apply cpp_H_part; rewrite fam_init_m; [apply cpp_hint_ok, Hm|].
    rewrite fam_init_nC. exact Hv.
Qed.

Lemma H1_derivs be f x0 xf nC m : (1 <= m)%nat ->
  derivative_matrices (fun xs d => H1 be f x0 xf nC m xs d true) m.
Proof.
  intros Hm.
  pose proof (full_mat_derivs (fun xs d => H1 be f x0 xf nC m xs d true)
    (fam_init ROps RFun f x0 xf nC m) (col f)) as H. rewrite fam_init_m in H.
  apply H; [apply col_deriv|]. intros; apply H1_full, Hm.
Qed.

Lemma H1_removed be f x0 xf nC m xs d : (1 <= m)%nat -> valid_nC nC m ->
  exists M Mc, H1 be f x0 xf nC m xs d true = Some M /\ H1 be f x0 xf nC m xs d false = Some Mc /\
    columns_removed m nC M Mc /\ mc Mc = (m - length nC)%nat.
Proof.
  intros Hm Hv. eexists; eexists. split; [apply H1_full, Hm|]. split; [apply H1_part; assumption|].
  split.
  - pose proof (part_mat_removed (fam_init ROps RFun f x0 xf nC m) (col f) xs d) as H.
    rewrite fam_init_m, fam_init_nC in H. exact H.
  - cbn [mc part_mat]. rewrite fam_init_m, fam_init_nC. apply keptc_length, Hv.
Qed.

Lemma H1_backends f x0 xf nC m xs d full : (1 <= m)%nat -> valid_nC nC m ->
  exists M, H1 Py f x0 xf nC m xs d full = Some M /\ H1 Cpp f x0 xf nC m xs d full = Some M.
Proof.
  intros Hm Hv. destruct full; eexists.
  - split; apply H1_full; assumption.
  - split; apply H1_part; assumption.
Qed.
