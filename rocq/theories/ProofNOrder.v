(** Integer orders, n-dimensional. *)
From Coq Require Import Reals Arith Lia Lra List Bool ZArith Permutation.
From Coquelicot Require Import Coquelicot.
From Verif Require Import Base ProofBase Numbers ModelBFPy ModelBFCpp ProofTab ProofBFPy ProofBFCpp SpecBasis
  ProofH ModelND SpecND ProofND ProofND2 ModelELM ModelOrder SpecOrder ProofOrder ModelNOrder SpecNOrder.
Import ListNotations.
Open Scope R_scope.

(** ** One dimension: which orders are answered, and with what *)
Definition answered (lim : nat) (f : fam) (m : nat) (d : Z) : Prop := f = FS \/ (m <= 2)%nat \/ (0 <= d <= Z.of_nat lim)%Z.
Lemma answered_dec lim f m d : answered lim f m d \/ (f <> FS /\ (3 <= m)%nat /\ out_of_reach lim d).
Proof.
  unfold answered, out_of_reach. destruct (fam_eq_dec f FS) as [->|Hf]; [left; left; reflexivity|].
  destruct (le_lt_dec m 2); [left; right; left; assumption|].
  destruct (Z_le_dec 0 d), (Z_le_dec d (Z.of_nat lim)); try (left; right; right; lia); right; repeat split; try assumption; lia.
Qed.
Definition zcol (be : backend) (f : fam) (d : Z) (a : nat) (z : R) : R :=
  match f with FS => fsz (rem_of be d) d a z | _ => col f a (Z.to_nat d) z end.

Lemma py_row_z lim f m z d : (1 <= m)%nat -> answered lim f m d ->
  py_hint_row_z ROps RFun lim f m z d = Some (map (fun a => zcol Py f d a z) (seq 0 m)).
Proof.
  intros Hm Ha. destruct (fam_eq_dec f FS) as [->|Hf]; [apply (py_fsz_ok m z d Hm lim)|].
  assert (Ez : forall a, zcol Py f d a z = col f a (Z.to_nat d) z) by (intros a; destruct f; try reflexivity; congruence).
  rewrite (map_ext _ _ Ez). rewrite <- (py_hint_row_ok f m z (Z.to_nat d) Hm).
  destruct Ha as [Ha|[Ha|Ha]]; [congruence| |].
  - unfold py_hint_row_z, py_hint_row.
    assert (Em : ((m =? 1) || (m =? 2))%nat = true) by (destruct (Nat.eqb_spec m 1), (Nat.eqb_spec m 2); try lia; reflexivity).
    rewrite Em. destruct f; try congruence; reflexivity.
  - rewrite <- (Z2Nat.id d) at 1 by lia. apply py_row_nat; [exact Hm|]. right; right. lia.
Qed.
Lemma cpp_row_z lim f m d x zs n dark : (1 <= m)%nat -> answered lim f m d -> pts x zs n -> blen dark = (m * n)%nat ->
  exists b, cpp_hint_z ROps RFun lim f m d x n dark = Some b /\ cols b n m m (fun j k => zcol Cpp f d k (zs j)).
Proof.
  intros Hm Ha Hx Hl. destruct (fam_eq_dec f FS) as [->|Hf]; [apply cpp_fsz_ok; assumption|].
  destruct (cpp_hint_ok f m Hm (Z.to_nat d) x zs n dark Hx Hl) as (b & Eb & Hb). exists b. split.
  - rewrite <- Eb. destruct Ha as [Ha|[Ha|Ha]]; [congruence| |].
    + unfold cpp_hint_z.
      assert (Em : ((m =? 1) || (m =? 2))%nat = true) by (destruct (Nat.eqb_spec m 1), (Nat.eqb_spec m 2); try lia; reflexivity).
      rewrite Em. destruct f; try congruence; reflexivity.
    + rewrite <- (Z2Nat.id d) at 1 by lia. apply cpp_hint_nat; [exact Hm|]. right; right. lia.
  - destruct f; try congruence; exact Hb.
Qed.
Lemma py_row_z_none lim f m z d : f <> FS -> (3 <= m)%nat -> out_of_reach lim d -> py_hint_row_z ROps RFun lim f m z d = None.
Proof.
  intros Hf Hm Hd.
  assert (Em : ((m =? 1) || (m =? 2))%nat = false) by (destruct (Nat.eqb_spec m 1), (Nat.eqb_spec m 2); try lia; reflexivity).
  unfold py_hint_row_z. rewrite Em. destruct f; try congruence;
    (match goal with |- (b <- (F <- ?a ;; _) ;; _) = _ => destruct a end; cbn [bind]; [rewrite climb_none by exact Hd; reflexivity|reflexivity]).
Qed.
Lemma cpp_row_z_none lim f m d x n dark : f <> FS -> (3 <= m)%nat -> out_of_reach lim d -> cpp_hint_z ROps RFun lim f m d x n dark = None.
Proof.
  intros Hf Hm Hd.
  assert (Em : ((m =? 1) || (m =? 2))%nat = false) by (destruct (Nat.eqb_spec m 1), (Nat.eqb_spec m 2); try lia; reflexivity).
  unfold cpp_hint_z. rewrite Em. destruct f; try congruence;
    (match goal with |- (F <- ?a ;; _) = _ => destruct a end; cbn [bind]; [apply climb_none; exact Hd|reflexivity]).
Qed.
Lemma H1z_answered lim be f x0 xf nC m xs d : (1 <= m)%nat -> answered lim f m d ->
  H1z lim be f x0 xf nC m xs d true = Some (zmat (fam_init ROps RFun f x0 xf nC m) (zcol be f d) (opowz ROps (speed f x0 xf) d) xs).
Proof.
  intros Hm Ha. rewrite <- (speed_c f x0 xf nC m). set (B := fam_init ROps RFun f x0 xf nC m).
  assert (EB : b_m B = m) by apply fam_init_m. destruct be; cbn [H1z]; fold B.
  - apply py_Hz_full. intros zs. rewrite EB. unfold py_hint_z.
    rewrite (mapM_some_map _ (fun z => map (fun k => zcol Py f d k z) (seq 0 m))); [reflexivity|]. intros z _. apply py_row_z; assumption.
  - apply cpp_Hz_full. rewrite EB. intros x zs n dark Hx Hl. apply cpp_row_z; assumption.
Qed.
Lemma H1z_answered_iff lim be f x0 xf nC m d t : (1 <= m)%nat -> (H1z lim be f x0 xf nC m [t] d true <> None <-> answered lim f m d).
Proof.
  intros Hm. destruct (answered_dec lim f m d) as [Ha|(Hf & H3 & Hd)].
  - rewrite H1z_answered by assumption. split; [intros _; exact Ha|discriminate].
  - rewrite H1z_none by (assumption || discriminate). split; [congruence|]. intros [Ha|[Ha|Ha]]; [congruence|lia|destruct Hd; lia].
Qed.

(** ** The matrix *)
Definition zdcol (be : backend) (f : fam) (x0 xf : list R) (k : nat) (t : R) (d : Z) (a : nat) : R :=
  zcol be f d a ((t - nth k x0 0) * nd_ci f x0 xf k + nd_z0 f) * opowz ROps (nd_ci f x0 xf k) d.
Definition zterm (be : backend) (f : fam) (x0 xf : list R) (dim : nat) (X : nat -> R) (d : list Z) (v : list nat) : R :=
  prodn dim (fun k => zdcol be f x0 xf k (X k) (nth k d 0%Z) (nth k v 0%nat)).
Definition nz_mat (be : backend) (f : fam) (dim : nat) (x0 xf : list R) (nC : mat Z) (m : nat) (x : mat R) (d : list Z)
    (full : bool) : mat R :=
  let idx := idxs dim m (md nC) full in
  Mat (mc x) (length idx)
    (map (fun j => map (zterm be f x0 xf dim (fun k => nth j (nth k (md x) []) 0) d) idx) (seq 0 (mc x))).
Definition all_answered (lim : nat) (f : fam) (m dim : nat) (d : list Z) : Prop :=
  forall k, (k < dim)%nat -> answered lim f m (nth k d 0%Z).

Lemma py_nHz_ok lim f dim x0 xf nC m B x d full n : n_args f dim x0 xf nC m -> nb_ok f dim x0 xf nC m B ->
  shaped x dim n -> (dim <= length d)%nat -> all_answered lim f m dim d ->
  py_nHz ROps RFun lim f B x d full = Some (nz_mat Py f dim x0 xf nC m x d full).
Proof.
  intros (Hf & Hd & Hm & H0 & Hxf & HC) HB Hx Hdl Hans. unfold py_nHz.
  pose proof Hx as (Hx1 & Hx2 & Hx3 & Hx4).
  rewrite (nbo_dim _ _ _ _ _ _ _ HB), Hx1, Nat.eqb_refl.
  pose proof (nbo_num _ _ _ _ _ _ _ HB full) as Hnum. unfold advertised in Hnum. rewrite Hnum.
  erewrite mapM_some_map; [reflexivity|]. intros j Hj%in_seq.
  assert (Ecol : mapM (fun r => nth_error r j) (md x) = Some (map (fun r => nth j r 0) (md x))).
  { apply mapM_some_map. intros r Hr. apply nth_error_nth'. rewrite Hx4 by exact Hr. lia. }
  rewrite Ecol. cbn [bind].
  set (X := fun k => nth j (nth k (md x) []) 0).
  assert (Ez : py_nd_z ROps B (map (fun r => nth j r 0) (md x)) =
    map (fun k => (X k - nth k x0 0) * nd_ci f x0 xf k + nd_z0 f) (seq 0 dim)).
  { unfold py_nd_z. rewrite (nbo_x0 _ _ _ _ _ _ _ HB), (nbo_c _ _ _ _ _ _ _ HB), (nbo_z0 _ _ _ _ _ _ _ HB).
    apply nth_error_ext. intros i. rewrite nth_error_map_seq, nth_error_map.
    destruct (Nat.ltb_spec i dim) as [Hi|Hi].
    - rewrite (proj2 (nth_error_combine _ _ i (X i, (nth i x0 0, nd_ci f x0 xf i)))); [reflexivity|].
      cbn [fst snd]. split.
      + rewrite nth_error_map, (nth_error_nth' _ []) by lia. reflexivity.
      + apply nth_error_combine. cbn [fst snd]. split; [apply nth_error_nth'; lia|apply nth_error_nd_c, Hi].
    - destruct (nth_error (combine _ _) i) eqn:E; [|reflexivity].
      match type of E with nth_error ?l _ = _ => assert (Hlt : (i < length l)%nat) by (apply nth_error_Some; congruence) end.
      rewrite combine_length, map_length in Hlt. lia. }
  rewrite Ez.
  assert (ET : py_nd_Tz ROps RFun lim f B (map (fun k => (X k - nth k x0 0) * nd_ci f x0 xf k + nd_z0 f) (seq 0 dim)) d =
    Some (map (fun k => map (fun a => zdcol Py f x0 xf k (X k) (nth k d 0%Z) a) (seq 0 m)) (seq 0 dim))).
  { unfold py_nd_Tz. rewrite (nbo_dim _ _ _ _ _ _ _ HB), (nbo_c _ _ _ _ _ _ _ HB), (nbo_m _ _ _ _ _ _ _ HB).
    apply mapM_some_map. intros k Hk%in_seq.
    rewrite nth_error_map_seq. destruct (Nat.ltb_spec k dim); [|lia]. cbn [bind].
    rewrite (nth_error_nth' d 0%Z) by lia. cbn [bind].
    rewrite nth_error_nd_c by lia. cbn [bind]. rewrite py_row_z by (exact Hm || (apply Hans; lia)). cbn [bind].
    rewrite map_map. reflexivity. }
  rewrite ET. cbn [bind].
  erewrite (py_nd_row_ok f dim x0 xf nC m B full _ (fun k a => zdcol Py f x0 xf k (X k) (nth k d 0%Z) a) Hd HB).
  - reflexivity.
  - rewrite map_length, seq_length. reflexivity.
  - intros k a Hk Ha. eexists. rewrite nth_error_map_seq. destruct (Nat.ltb_spec k dim); [|lia]. split; [reflexivity|].
    rewrite nth_error_map_seq. destruct (Nat.ltb_spec a m); [reflexivity|lia].
Qed.

Lemma cpp_nd_Tz_ok lim f dim x0 xf nC m B z n (Zp : nat -> nat -> R) d :
  n_args f dim x0 xf nC m -> nb_ok f dim x0 xf nC m B -> cols z dim n n Zp -> all_answered lim f m dim d ->
  exists Tb, cpp_nd_Tz ROps RFun lim f B z n d = Some Tb /\ blen Tb = (n * m * dim)%nat /\
    tab_ok Tb dim n m (fun k h a => zcol Cpp f (nth k d 0%Z) a (Zp k h) * opowz ROps (nd_ci f x0 xf k) (nth k d 0%Z)).
Proof.
  intros (Hf & Hd & Hm & H0 & Hxf & HC) HB Hz Hans. unfold cpp_nd_Tz.
  rewrite (nbo_dim _ _ _ _ _ _ _ HB), (nbo_m _ _ _ _ _ _ _ HB), (nbo_c _ _ _ _ _ _ _ HB).
  set (t := fun k h a => zcol Cpp f (nth k d 0%Z) a (Zp k h) * opowz ROps (nd_ci f x0 xf k) (nth k d 0%Z)).
  match goal with |- context [for_ 0 dim ?b ?s] => 
    destruct (for_inv (fun k (st : buf R * buf R) => blen (fst st) = (m * n)%nat /\ blen (snd st) = (n * m * dim)%nat /\
      forall k' h a, (k' < k)%nat -> (h < n)%nat -> (a < m)%nat ->
        bcell (snd st) (m * n * k' + (m * h + a))%nat = Some (t k' h a)) b 0%nat dim s) as ([dk Tb] & E & _ & HlT & HT) end.
  - lia.
  - cbn. split; [lia|]. split; [reflexivity|lia].
  - intros k [dk Tb] Hk (Hld & HlT & HT). cbn [fst snd] in *.
    unfold bsub at 1. destruct Hz as [Hzl Hz].
    destruct (Nat.leb_spec (k * n + n) (blen z)) as [_|Hbad]; [|rewrite Hzl in Hbad; nia]. cbn [bind].
    rewrite nth_error_nd_c by lia. cbn [bind].
    destruct (cpp_row_z lim f m (nth k d 0%Z) (Buf n (fun i => bcell z (k * n + i)%nat)) (Zp k) n dk Hm (Hans k ltac:(lia)))
      as (dk' & Ed & Hdk).
    { split; [reflexivity|]. intros j Hj; cbn. rewrite <- (Hz k j) by lia. f_equal. lia. }
    { exact Hld. }
    rewrite Ed. cbn [bind]. change ((if (length d <=? k)%nat then o1 ROps else opowz ROps (nd_ci f x0 xf k) (nth k d 0%Z)))
      with (if (length d <=? k)%nat then 1 else opowz ROps (nd_ci f x0 xf k) (nth k d 0%Z)).
    assert (Emul : (if (length d <=? k)%nat then 1 else opowz ROps (nd_ci f x0 xf k) (nth k d 0%Z)) =
                   opowz ROps (nd_ci f x0 xf k) (nth k d 0%Z)).
    { destruct (Nat.leb_spec (length d) k) as [Hle|Hle]; [rewrite nth_overflow by exact Hle; reflexivity|].
      reflexivity. }
    rewrite Emul.
    destruct (for_inv (fun j Tb' => blen Tb' = (n * m * dim)%nat /\
       (forall k' h a, (k' < k)%nat -> (h < n)%nat -> (a < m)%nat ->
          bcell Tb' (m * n * k' + (m * h + a))%nat = Some (t k' h a)) /\
       forall h a, (h < n)%nat -> (a < m)%nat -> (m * h + a < j)%nat ->
          bcell Tb' (m * n * k + (m * h + a))%nat = Some (t k h a))
      (fun j Tb => v <- brd dk' j ;; bwr Tb (j + k * m * n)%nat (omul ROps v (opowz ROps (nd_ci f x0 xf k) (nth k d 0%Z))))
      0 (n * m) Tb) as (Tb' & E & HlT' & HT' & HT'').
    + lia.
    + split; [exact HlT|]. split; [exact HT|lia].
    + intros j Tb' Hj (HlT' & HT' & HT'').
      assert (Hex : exists h a, j = (m * h + a)%nat /\ (a < m)%nat /\ (h < n)%nat).
      { pose proof (Nat.div_mod j m ltac:(lia)) as Hja. pose proof (Nat.mod_upper_bound j m ltac:(lia)) as Ha.
        exists (j / m)%nat, (j mod m)%nat. split; [exact Hja|]. split; [exact Ha|]. nia. }
      destruct Hex as (h & a & -> & Ha & Hh).
      rewrite (cols_rd _ _ _ _ _ _ _ Hdk) by lia. cbn [bind].
      assert (Hb1 : (m * n * k + m * n <= m * n * dim)%nat) by nia.
      assert (Hcm : (k * m * n = m * n * k)%nat) by ring.
      assert (Hcm2 : (n * m * dim = m * n * dim)%nat) by ring.
      rewrite bwr_in by (rewrite HlT'; lia).
      eexists; split; [reflexivity|]. split; [exact HlT'|]. split.
      * intros k' h' a' Hk' Hh' Ha'; cbn.
        assert (Hb2 : (m * n * k' + m * n <= m * n * k)%nat) by nia.
        assert (Hb3 : (m * h' + a' < m * n)%nat) by nia.
        destruct (Nat.eqb_spec (m * n * k' + (m * h' + a')) (m * h + a + k * m * n)); [lia|]. apply HT'; assumption.
      * intros h' a' Hh' Ha' Hlt; cbn.
        destruct (Nat.eqb_spec (m * n * k + (m * h' + a')) (m * h + a + k * m * n)) as [He|He].
        -- assert (He2 : (m * h' + a' = m * h + a)%nat) by lia. apply idx_inj in He2 as [-> ->]; [|lia|lia]. reflexivity.
        -- apply HT''; lia.
    + rewrite E. cbn [bind]. eexists; split; [reflexivity|]. cbn [fst snd].
      split; [apply Hdk|]. split; [exact HlT'|]. intros k' h a Hk' Hh Ha.
      destruct (Nat.eq_dec k' k) as [->|]; [apply HT''; [exact Hh|exact Ha|nia]|apply HT'; lia].
  - rewrite E. cbn [bind snd]. exists Tb. split; [reflexivity|]. split; [exact HlT|exact HT].
Qed.

Lemma cpp_nHintz_ok lim f dim x0 xf nC m B (xb : buf R) n (X : nat -> nat -> R) d full F :
  n_args f dim x0 xf nC m -> nb_ok f dim x0 xf nC m B ->
  (forall k j, (k < dim)%nat -> (j < n)%nat -> brd xb (k * n + j)%nat = Some (X k j)) ->
  all_answered lim f m dim d ->
  let idx := idxs dim m (md nC) full in
  blen F = (length idx * n)%nat ->
  exists F', cpp_nHintz ROps RFun lim f B xb n d (length idx) F full = Some F' /\
    cols F' n (length idx) (length idx) (fun j i => zterm Cpp f x0 xf dim (fun k => X k j) d (nth i idx [])).
Proof.
  intros Hargs HB Hx Hans idx HF. pose proof Hargs as (Hf & Hd & Hm & _). unfold cpp_nHintz.
  rewrite (nbo_dim _ _ _ _ _ _ _ HB). destruct dim as [|dim]; [lia|].
  destruct (cpp_nd_z_ok _ _ _ _ _ _ _ xb n X Hargs HB Hx) as (z & Ez & Hz). rewrite Ez. cbn [bind].
  destruct (cpp_nd_Tz_ok lim _ _ _ _ _ _ _ z n _ d Hargs HB Hz Hans) as (Tb & ET & HlT & HT). rewrite ET. cbn [bind].
  set (t := fun k h a => zdcol Cpp f x0 xf k (X k h) (nth k d 0%Z) a).
  change (tab_ok Tb (S dim) n m t) in HT.
  set (nb := length idx) in *.
  destruct (for_inv (fun k b' => blen b' = (nb * n)%nat /\ forall i, (i < k)%nat -> bcell b' i = Some 1)
     (fun k F => bwr F k (o1 ROps)) 0 (n * nb) F) as (F1 & E1 & Hl1 & HF1).
  { lia. } { split; [exact HF|lia]. }
  { intros k b' Hk [Hl' H']. rewrite bwr_in by (rewrite Hl'; lia).
    eexists; split; [reflexivity|]. split; [exact Hl'|]. intros i Hi; cbn.
    destruct (Nat.eqb_spec i k); [reflexivity|apply H'; lia]. }
  rewrite E1. cbn [bind].
  rewrite (nbo_m _ _ _ _ _ _ _ HB).
  assert (Hinit : bmat F1 n nb (fun j k => Some 1)).
  { split; [exact Hl1|]. intros j k Hj Hk. apply HF1. nia. }
  pose proof (nbo_flat _ _ _ _ _ _ _ HB) as Hflat.
  set (p := py_keep m (md nC) full) in *.
  set (V := fun j v => prodn (S dim) (fun l => t l j (nth l v 0%nat))).
  (* any leaf that agrees on the vectors met *)
  set (act := fun v (st : buf R * nat) => let (out, count) := st in
     if p v then out <- cpp_nd_mult ROps B n nb Tb (bof v) count out ;; Some (out, S count) else Some (out, count)).
  assert (Hfold : forall l c o, (forall v, In v l -> In v (vecs m (S dim))) ->
    (c + length (filter p l) <= nb)%nat ->
    forall G, (forall j k, (c <= k)%nat -> G j k = 1) -> bmat o n nb (fun j k => Some (G j k)) ->
    exists o', foldM act l (o, c) = Some (o', (c + length (filter p l))%nat) /\
      bmat o' n nb (fun j k => Some (if (k <? c)%nat then G j k else
         match nth_error (filter p l) (k - c) with Some v => V j v | None => 1 end))).
  { induction l as [|v l IH]; intros c o Hin Hc G HG Ho; cbn [foldM filter].
    - exists o. cbn [length]. rewrite Nat.add_0_r. split; [reflexivity|].
      eapply bmat_ext; [exact Ho|]. intros j k _ _; cbv beta.
      destruct (Nat.ltb_spec k c); [reflexivity|]. rewrite HG by lia. destruct (k - c)%nat; reflexivity.
    - cbn [filter] in Hc.
      assert (Eact : act v (o, c) = if p v then out <- cpp_nd_mult ROps B n nb Tb (bof v) c o ;; Some (out, S c)
                                    else Some (o, c)) by reflexivity.
      rewrite Eact. clear Eact. destruct (p v) eqn:Ep; cbn [bind].
      + cbn [length] in Hc.
        destruct (cpp_nd_mult_ok f (S dim) x0 xf nC m B n nb Tb t (bof v) v c o G HB HlT HT) as (o1 & Eo & Ho1).
        * split; reflexivity.
        * apply Hin; left; reflexivity.
        * lia.
        * exact Ho.
        * intros j. apply HG; lia.
        * rewrite Eo. cbn [bind].
          destruct (IH (S c) o1 (fun v H => Hin v (or_intror H)) ltac:(lia)
             (fun j k => if (k =? c)%nat then V j v else G j k)) as (o2 & E2 & Ho2).
          -- intros j k Hk. destruct (Nat.eqb_spec k c); [lia|apply HG; lia].
          -- exact Ho1.
          -- exists o2. rewrite E2. cbn [length]. split; [do 2 f_equal; lia|].
             eapply bmat_ext; [exact Ho2|]. intros j k _ Hk; cbv beta. f_equal.
             destruct (Nat.ltb_spec k (S c)), (Nat.ltb_spec k c), (Nat.eqb_spec k c); try lia; try reflexivity.
             ++ subst. rewrite Nat.sub_diag. reflexivity.
             ++ replace (k - c)%nat with (S (k - S c)) by lia. reflexivity.
      + apply IH; auto. intros w Hw; apply Hin; right; exact Hw. }
  destruct (Hfold (vecs m (S dim)) 0%nat F1 (fun v H => H)) with (G := fun (_ _ : nat) => 1) as (o' & Ef & Ho').
  { cbn. unfold nb, idx, idxs. fold p. lia. } { reflexivity. } { exact Hinit. }
  destruct (nrec_run m (fun vec (st : buf R * nat) =>
             let (out, count) := st in
             k <- cpp_keep (S dim) m (nb_numC B) (nb_flat B) full vec ;;
             if (k : bool) then
               out <- cpp_nd_mult ROps B n nb Tb vec count out ;;
               Some (out, S count)
             else Some (out, count)) act dim (bnew (S dim)) (F1, 0%nat)
     (o', (0 + length (filter p (vecs m (S dim))))%nat)) as (v' & E).
  - intros b v [out c] Hl Hv. rewrite (cpp_keep_ok _ _ _ _ _ _ _ _ Hl Hv Hflat). cbn [bind]. unfold act. fold p.
    destruct (p v); [|reflexivity].
    assert (Em : cpp_nd_mult ROps B n nb Tb b c out = cpp_nd_mult ROps B n nb Tb (bof v) c out); [|rewrite Em; reflexivity].
    unfold cpp_nd_mult. rewrite (nbo_dim _ _ _ _ _ _ _ HB).
    assert (Hrd : forall l, brd b l = brd (bof v) l).
    { intros l. unfold brd. destruct Hv as [Hbl Hbc]. cbn [bof blen bcell]. rewrite Hbl.
      destruct (Nat.ltb_spec l (length v)); [apply Hbc; assumption|reflexivity]. }
    apply for_ext. intros h o3. apply for_ext. intros l o2. rewrite Hrd. reflexivity.
  - reflexivity.
  - exact Ef.
  - rewrite E. cbn [bind fst snd]. exists o'. split; [reflexivity|]. destruct Ho' as [Hol Hoc].
    split; [exact Hol|]. intros j i Hj Hi. rewrite Hoc by assumption. cbn [Nat.ltb Nat.leb]. rewrite Nat.sub_0_r.
    change (filter p (vecs m (S dim))) with idx. rewrite (nth_error_nth' idx [] Hi). reflexivity.
Qed.

Lemma cpp_nHz_ok lim f dim x0 xf nC m B x d full n : n_args f dim x0 xf nC m -> nb_ok f dim x0 xf nC m B ->
  shaped x dim n -> all_answered lim f m dim d -> cpp_nHz ROps RFun lim f B x d full = Some (nz_mat Cpp f dim x0 xf nC m x d full).
Proof.
  intros Hargs HB Hx Hans. unfold cpp_nHz.
  pose proof (nbo_num _ _ _ _ _ _ _ HB full) as Hnum. unfold advertised in Hnum. rewrite Hnum.
  pose proof Hx as (_ & Hn & _). rewrite Hn.
  set (idx := idxs dim m (md nC) full).
  destruct (cpp_nHintz_ok lim f dim x0 xf nC m B (bof (concat (md x))) n (fun k j => nth j (nth k (md x) []) 0) d full
     (bnew (length idx * n)) Hargs HB) as (F & EF & HF).
  - intros k j Hk Hj. apply (shaped_flat x dim n); assumption.
  - exact Hans.
  - reflexivity.
  - fold idx in EF, HF. rewrite EF. cbn [bind].
    rewrite (buf_matrix_bmat F n _ _ (cols_bmat _ _ _ _ HF)). cbn [bind].
    unfold nz_mat. fold idx. rewrite Hn. do 2 f_equal. apply map_ext. intros j.
    apply (map_seq_nth (zterm Cpp f x0 xf dim (fun k => nth j (nth k (md x) []) 0) d) idx []).
Qed.

Lemma Hnz_ok lim be f dim x0 xf nC m B x d full n : n_args f dim x0 xf nC m -> nb_ok f dim x0 xf nC m B ->
  shaped x dim n -> given be dim d -> all_answered lim f m dim d ->
  Hnz lim be f B x d full = Some (nz_mat be f dim x0 xf nC m x d full).
Proof.
  intros Hargs HB Hx Ho Ha. unfold Hnz, nd_Hz. destruct be.
  - destruct Ho as [|Ho]; [discriminate|]. apply (py_nHz_ok _ _ _ _ _ _ _ _ _ _ _ n); assumption.
  - apply (cpp_nHz_ok _ _ _ _ _ _ _ _ _ _ _ n); assumption.
Qed.
Lemma nz_mat_ent be f dim x0 xf nC m x d full j i : ment (nz_mat be f dim x0 xf nC m x d full) j i =
  if (j <? mc x)%nat then
    match nth_error (idxs dim m (md nC) full) i with
    | Some v => Some (zterm be f x0 xf dim (fun k => nth j (nth k (md x) []) 0) d v)
    | None => None
    end
  else None.
Proof.
  unfold ment, nz_mat. cbn [md]. rewrite nth_error_map_seq.
  destruct (j <? mc x)%nat; [|reflexivity]. rewrite nth_error_map.
  destruct (nth_error (idxs dim m (md nC) full) i); reflexivity.
Qed.
Lemma nz_mat_shaped be f dim x0 xf nC m x d full :
  shaped (nz_mat be f dim x0 xf nC m x d full) (mc x) (length (idxs dim m (md nC) full)).
Proof.
  repeat split; cbn [mr mc md nz_mat].
  - rewrite map_length. apply seq_length.
  - intros row Hr. apply in_map_iff in Hr as (j & <- & _). apply map_length.
Qed.
Lemma nd_ci_speed f x0 xf k : bounded f -> nd_ci f x0 xf k = speed f (nth k x0 0) (nth k xf 0).
Proof. intros Hf. unfold nd_ci, nd_z0, nd_zf, speed. destruct Hf as [->|[->| ->]]; unfold Rdiv; ring. Qed.
Lemma zdcol_entry lim be f x0 xf m k t d a : bounded f -> (a < m)%nat -> answered lim f m (nth k d 0%Z) ->
  result_entry (along lim be f x0 xf m d k t) 0 a (zdcol be f x0 xf k t (nth k d 0%Z) a).
Proof.
  intros Hf Ha Hans. unfold along, result_entry. eexists. split; [apply H1z_answered; [lia|exact Hans]|].
  rewrite zmat_ent. cbn [nth_error]. rewrite fam_init_m. destruct (Nat.ltb_spec a m); [|lia]. f_equal.
  unfold zdcol. rewrite (nd_ci_speed f x0 xf k Hf). rewrite speed_c. unfold nd_z0. destruct Hf as [->|[->| ->]]; reflexivity.
Qed.
Lemma nz_products lim be f dim x0 xf nC m x d full n : n_args f dim x0 xf nC m -> shaped x dim n -> all_answered lim f m dim d ->
  products lim be f x0 xf m dim (idxs dim m (md nC) full) x d n (nz_mat be f dim x0 xf nC m x d full).
Proof.
  intros (Hf & Hd & Hm & H0 & Hxf & HC) Hx Ha. pose proof Hx as (_ & Hn & _). split; [rewrite <- Hn; apply nz_mat_shaped|].
  intros i v j Hi Hj. exists (fun k => zdcol be f x0 xf k (nth j (nth k (md x) []) 0) (nth k d 0%Z) (nth k v 0%nat)). split.
  - intros k Hk. destruct (shaped_ent x dim n k j 0 Hx Hk Hj) as (row & Er & _ & He).
    eexists. split; [unfold ment; rewrite Er; exact He|]. apply zdcol_entry; [exact Hf| |apply Ha, Hk].
    apply (vecs_nth m dim); [exact Hk|]. apply nth_error_In in Hi. unfold idxs in Hi. apply filter_In in Hi. apply Hi.
  - rewrite nz_mat_ent, Hi, Hn. destruct (Nat.ltb_spec j n); [reflexivity|lia].
Qed.

(** ** Orders out of reach in some dimension *)
Lemma mapM_none {X Y} (g : X -> option Y) l x : In x l -> g x = None -> mapM g l = None.
Proof.
  induction l as [|y l IH]; [easy|]. intros [->|H] Hx; cbn [mapM]; [rewrite Hx; reflexivity|].
  rewrite (IH H Hx). destruct (g y); reflexivity.
Qed.
Lemma for_none {S} (body : nat -> S -> option S) n k s : (k < n)%nat -> (forall s, body k s = None) -> for_ 0 n body s = None.
Proof.
  intros Hk Hb. unfold for_. rewrite Nat.sub_0_r.
  assert (G : forall n lo s, (lo <= k < lo + n)%nat -> iter_ n lo body s = None).
  { clear n Hk s. induction n as [|n IH]; intros lo s H; [lia|]. cbn [iter_]. destruct (Nat.eq_dec lo k) as [->|].
    - rewrite Hb. reflexivity.
    - destruct (body lo s); cbn [bind]; [apply IH; lia|reflexivity]. }
  apply G. lia.
Qed.
Lemma Hnz_none lim be f dim x0 xf nC m B x d full n k : n_args f dim x0 xf nC m -> nb_ok f dim x0 xf nC m B ->
  shaped x dim (S n) -> (k < dim)%nat -> f <> FS -> (3 <= m)%nat -> out_of_reach lim (nth k d 0%Z) ->
  Hnz lim be f B x d full = None.
Proof.
  intros Hargs HB Hx Hk Hf Hm Hd. unfold Hnz, nd_Hz. destruct be.
  - unfold py_nHz. destruct (mr x =? nb_dim B)%nat; [|reflexivity].
    rewrite (mapM_none _ _ 0%nat); [reflexivity| |].
    + apply in_seq. destruct Hx as (_ & -> & _). lia.
    + destruct (mapM _ (md x)) as [xj|]; [|reflexivity]. cbn [bind]. unfold py_nd_Tz. rewrite (mapM_none _ _ k); [reflexivity| |].
      * apply in_seq. rewrite (nbo_dim _ _ _ _ _ _ _ HB). lia.
      * destruct (nth_error _ k) as [zk|]; [|reflexivity]. cbn [bind]. destruct (nth_error d k) as [dk|] eqn:Ed; [|reflexivity]. cbn [bind].
        rewrite (nth_error_nth _ _ 0%Z Ed) in Hd. destruct (nth_error (nb_c B) k) as [ck|]; [|reflexivity]. cbn [bind].
        rewrite (nbo_m _ _ _ _ _ _ _ HB), py_row_z_none by assumption. reflexivity.
  - unfold cpp_nHz, cpp_nHintz. destruct (nb_dim B) as [|dim'] eqn:Edim; [reflexivity|].
    destruct (cpp_nd_z ROps B _ _) as [z|]; [|reflexivity]. cbn [bind]. unfold cpp_nd_Tz. rewrite (for_none _ _ k); [reflexivity| |].
    + rewrite (nbo_dim _ _ _ _ _ _ _ HB). exact Hk.
    + intros [dk Tb]. destruct (bsub _ _ _) as [zk|]; [|reflexivity]. cbn [bind]. destruct (nth_error (nb_c B) k) as [ck|]; [|reflexivity]. cbn [bind].
      rewrite (nbo_m _ _ _ _ _ _ _ HB), cpp_row_z_none by assumption. reflexivity.
Qed.

(** natural orders: ModelND.v's answers *)
Lemma zcol_nat be f d a z : zcol be f (Z.of_nat d) a z = col f a d z.
Proof.
  destruct f; cbn [zcol]; rewrite ?Nat2Z.id; try reflexivity.
  assert (Er : rem_of be (Z.of_nat d) = Z.of_nat (d mod 4)) by (destruct be; cbn [rem_of]; [apply mod_nat|apply rem_nat]).
  rewrite Er. cbn [col]. unfold fsz, fscol. destruct a as [|a].
  - destruct d; reflexivity.
  - rewrite opowz_nat, opow_R. destruct (tests_nat (d mod 4)) as (-> & -> & ->).
    destruct (d mod 4)%nat as [|[|[|r]]]; reflexivity.
Qed.
Lemma Hnz_nat lim be f dim x0 xf nC m B x d full n : n_args f dim x0 xf nC m -> nb_ok f dim x0 xf nC m B ->
  shaped x dim n -> orders_ok be dim d -> (forall k, (k < dim)%nat -> f = FS \/ m <= 2 \/ nth k d 0 <= lim)%nat ->
  Hnz lim be f B x (map Z.of_nat d) full = Hn be f B x d full.
Proof.
  intros Hargs HB Hx Ho Hl.
  assert (En : forall k, nth k (map Z.of_nat d) 0%Z = Z.of_nat (nth k d 0%nat)) by (intros k; apply (map_nth Z.of_nat d 0%nat)).
  rewrite (Hnz_ok lim be f dim x0 xf nC m B x _ full n), (Hn_ok be f dim x0 xf nC m B x d full n); try assumption.
  - f_equal. unfold nz_mat, nd_mat. f_equal. apply map_ext. intros j. apply map_ext. intros v. unfold zterm, ndterm. apply prodn_ext. intros k Hk.
    unfold zdcol, ndcol. rewrite En, zcol_nat, opowz_nat, opow_R. reflexivity.
  - unfold given. rewrite map_length. exact Ho.
  - intros k Hk. unfold answered. rewrite En. destruct (Hl k Hk) as [H|[H|H]]; [left; exact H|right; left; exact H|right; right; lia].
Qed.
Lemma one_point_shaped dim X : shaped (one_point dim X) dim 1.
Proof.
  repeat split; cbn; [rewrite map_length; apply seq_length|]. intros row Hr. apply in_map_iff in Hr as (k & <- & _). reflexivity.
Qed.
Lemma nz_partials lim be f dim x0 xf nC m full : n_args f dim x0 xf nC m ->
  exists B, mkn be f x0 xf nC m = Some B /\
  partial_matrices (fun x d => Hnz lim be f B x (map Z.of_nat d) full) dim (advertised B full)
    (fun d => orders_ok be dim d /\ forall k, (k < dim)%nat -> (f = FS \/ m <= 2 \/ nth k d 0 <= lim)%nat).
Proof.
  intros Hargs. destruct (mkn_ok be _ _ _ _ _ _ Hargs) as (B & EB & HB). exists B. split; [exact EB|].
  destruct (c22 be f dim x0 xf nC m full Hargs) as (B' & EB' & H). rewrite EB in EB'. injection EB' as <-.
  intros i Hi. destruct (H i Hi) as (y & Hy & Hd). exists y. split.
  - intros X. destruct (Hy X) as (M0 & E0 & V0). exists M0. split; [|exact V0].
    rewrite (Hnz_nat lim be f dim x0 xf nC m B _ _ full 1); try assumption; [apply one_point_shaped|right; rewrite repeat_length; lia|].
    intros k Hk. rewrite nth_repeat. right; right. lia.
  - intros d [Ho Hl]. destruct (Hd d Ho) as (g & Hg & HM). exists g. split; [exact Hg|].
    intros n x j X Hx Hj HX. destruct (HM n x j X Hx Hj HX) as (M & EM & VM). exists M. split; [|exact VM].
    rewrite (Hnz_nat lim be f dim x0 xf nC m B x d full n); assumption.
Qed.

Lemma prodn_div n F G : prodn n (fun k => F k / G k) = prodn n F / prodn n G.
Proof. induction n as [|n IH]; cbn [prodn]; [field|]. rewrite IH. unfold Rdiv. rewrite Rinv_mult. ring. Qed.
Lemma nth_map_opp ns k : nth k (map (fun n => (- Z.of_nat n)%Z) ns) 0%Z = (- Z.of_nat (nth k ns 0%nat))%Z.
Proof. exact (map_nth (fun n => (- Z.of_nat n)%Z) ns 0%nat k). Qed.
Lemma prodn_ones n : prodn n (fun _ => 1) = 1.
Proof. induction n as [|n IH]; cbn [prodn]; [reflexivity|]. rewrite IH. ring. Qed.
Lemma prodn_first n F : (forall k, (1 <= k < S n)%nat -> F k = 1) -> prodn (S n) F = F 0%nat.
Proof.
  intros H. induction n as [|n IH]; [cbn; ring|]. change (prodn (S n) F * F (S n) = F 0%nat). rewrite IH, (H (S n)) by (lia || (intros; apply H; lia)). ring.
Qed.
