(** The multivariate class: collocation grid and constraint specifications. *)
From Coq Require Import Reals Arith Lia Lra List Bool ZArith Permutation.
From Coquelicot Require Import Coquelicot.
From Verif Require Import Base ProofBase Numbers ModelBFPy ModelBFCpp ProofTab ProofBFPy ProofBFCpp SpecBasis
  ProofH ModelELM SpecELM ProofELM ModelND SpecND ProofND ProofND2 ModelNELM SpecNELM ProofNELM ProofNELM2
  ModelUtfc SpecUtfc ProofUtfc ModelMtfc SpecMtfc ProofMtfc.
Import ListNotations.
Open Scope R_scope.

(** ** C19: index arithmetic *)
Lemma natprod_product l : natprod l = product l.
Proof. reflexivity. Qed.
Lemma product_app l l' : product (l ++ l') = (product l * product l')%nat.
Proof. induction l as [|a l IH]; cbn [app product]; [lia|]. rewrite IH. lia. Qed.
Lemma product_split n k a : nth_error n k = Some a -> product n = (product (firstn k n) * (a * stride n k))%nat.
Proof.
  intros H. unfold stride. revert n H. induction k as [|k IH]; intros [|b n] H; try discriminate.
  - cbn in H. injection H as ->. cbn [firstn skipn product]. lia.
  - cbn [nth_error] in H. cbn [firstn product]. rewrite (IH n H). cbn [skipn]. lia.
Qed.
Lemma nth_error_concat_map {X} (P : nat) (l : list X) : (1 <= P)%nat -> forall i,
  nth_error (concat (map (fun v => repeat v P) l)) i = nth_error l (i / P).
Proof.
  intros HP. induction l as [|v l IH]; intros i; cbn [map concat].
  - destruct i, (_ / P)%nat; reflexivity.
  - destruct (Nat.lt_ge_cases i P) as [Hi|Hi].
    + rewrite nth_error_app1 by (rewrite repeat_length; exact Hi). rewrite Nat.div_small by exact Hi. cbn.
      apply nth_error_repeat. exact Hi.
    + rewrite nth_error_app2 by (rewrite repeat_length; exact Hi). rewrite repeat_length, IH.
      replace i with ((i - P) + 1 * P)%nat at 2 by lia. rewrite Nat.div_add by lia. rewrite Nat.add_1_r. reflexivity.
Qed.
Lemma nth_error_concat_repeat {X} (l : list X) : forall s i, (i < s * length l)%nat ->
  nth_error (concat (repeat l s)) i = nth_error l (i mod length l).
Proof.
  induction s as [|s IH]; intros i Hi; [lia|]. cbn [repeat concat].
  destruct (Nat.lt_ge_cases i (length l)) as [Hl|Hl].
  - rewrite nth_error_app1 by exact Hl. rewrite Nat.mod_small by exact Hl. reflexivity.
  - rewrite nth_error_app2 by exact Hl. rewrite IH by lia. f_equal.
    replace i with ((i - length l) + 1 * length l)%nat at 2 by lia. rewrite Nat.mod_add by lia. reflexivity.
Qed.
Lemma length_concat_repeat {X} (l : list X) s : length (concat (repeat l s)) = (s * length l)%nat.
Proof. induction s as [|s IH]; [reflexivity|]. cbn [repeat concat]. rewrite app_length, IH. lia. Qed.
Lemma length_concat_map {X} P (l : list X) : length (concat (map (fun v => repeat v P) l)) = (length l * P)%nat.
Proof. induction l as [|v l IH]; [reflexivity|]. cbn [map concat]. rewrite app_length, repeat_length, IH. cbn. lia. Qed.
Lemma spread_ok {X} (axis l : list X) P S : mtfc_spread axis P S = Some l ->
  length l = (S * (length axis * P))%nat /\
  forall i, (i < length l)%nat -> nth_error l i = nth_error axis ((i / P) mod length axis).
Proof.
  unfold mtfc_spread. destruct (Nat.eqb_spec P 0) as [|HP]; [discriminate|]. intros E. apply some_inj in E. subst l.
  rewrite length_concat_repeat, length_concat_map. split; [reflexivity|]. intros i Hi.
  rewrite nth_error_concat_repeat; rewrite length_concat_map; [|exact Hi]. rewrite nth_error_concat_map by lia. f_equal.
  assert (length axis <> 0)%nat by (intros H0; rewrite H0 in Hi; lia).
  rewrite (Nat.mul_comm (length axis)), Nat.mod_mul_r by lia.
  rewrite (Nat.mul_comm P), Nat.div_add by lia. rewrite Nat.div_small by (apply Nat.mod_upper_bound; exact HP). reflexivity.
Qed.

(** the digits of a number in the mixed radix [n] *)
Lemma digits_unique n : forall i j, (i < product n)%nat -> (j < product n)%nat ->
  (forall k a, nth_error n k = Some a -> (i / stride n k) mod a = (j / stride n k) mod a) -> i = j.
Proof.
  induction n as [|b n IH]; intros i j Hi Hj H; cbn [product] in *; [lia|].
  assert (HP : product n <> 0%nat) by (intros H0; rewrite H0 in Hi; lia).
  pose proof (H 0%nat b eq_refl) as H0. unfold stride in H0. cbn [skipn] in H0.
  rewrite !Nat.mod_small in H0 by (apply Nat.div_lt_upper_bound; lia).
  assert (Hm : i mod product n = j mod product n).
  { apply IH; try (apply Nat.mod_upper_bound; exact HP). intros k a Hk.
    specialize (H (S k) a Hk). unfold stride in *. cbn [skipn] in H.
    assert (Hd : forall i, (i mod product n / product (skipn (S k) n)) mod a = (i / product (skipn (S k) n)) mod a).
    { clear - Hk HP. intros i. rewrite (product_split n k a Hk) in *. unfold stride in *.
      set (q := product (firstn k n)) in *. set (s := product (skipn (S k) n)) in *.
      assert (s <> 0 /\ a <> 0 /\ q <> 0)%nat as (Hs & Ha & Hq) by (repeat split; intros E; rewrite E in HP; lia).
      replace (q * (a * s))%nat with (s * (a * q))%nat by lia. rewrite Nat.mod_mul_r by (try apply Nat.neq_mul_0; auto).
      rewrite (Nat.mul_comm s), Nat.div_add by exact Hs. rewrite Nat.div_small by (apply Nat.mod_upper_bound; exact Hs).
      rewrite Nat.add_0_l. rewrite Nat.mod_mul_r by assumption. rewrite (Nat.mul_comm a), Nat.mod_add by exact Ha.
      apply Nat.mod_mod, Ha. }
    rewrite !Hd. exact H. }
  rewrite (Nat.div_mod i (product n) HP), (Nat.div_mod j (product n) HP), H0, Hm. reflexivity.
Qed.
Lemma digits_exist n : forall a : nat -> nat, (forall k b, nth_error n k = Some b -> (a k < b)%nat) ->
  exists i, (i < product n)%nat /\ forall k b, nth_error n k = Some b -> (i / stride n k) mod b = a k.
Proof.
  induction n as [|c n IH]; intros a Ha.
  - exists 0%nat. split; [cbn; lia|]. intros [|k] b H; discriminate.
  - destruct (IH (fun k => a (S k))) as (i & Hi & Hd). { intros k b H. apply (Ha (S k) b H). }
    pose proof (Ha 0%nat c eq_refl) as H0. exists (i + a 0%nat * product n)%nat. split; [cbn; nia|].
    intros [|k] b Hk; unfold stride; cbn [skipn].
    + cbn in Hk. injection Hk as ->. rewrite Nat.div_add by lia. rewrite Nat.div_small by exact Hi. apply Nat.mod_small, H0.
    + cbn [nth_error] in Hk. rewrite <- (Hd k b Hk). unfold stride. rewrite (product_split n k b Hk). unfold stride.
      set (s := product (skipn (S k) n)). set (q := product (firstn k n)).
      assert (s <> 0%nat). { intros E. rewrite (product_split n k b Hk) in Hi. unfold stride in Hi. fold s in Hi. rewrite E in Hi. lia. }
      assert (b <> 0%nat). { pose proof (Ha (S k) b Hk). lia. }
      replace (a 0 * (q * (b * s)))%nat with ((a 0 * q * b) * s)%nat by lia. rewrite Nat.div_add by assumption.
      apply Nat.mod_add. assumption.
Qed.

(** ** C19: the points *)
Lemma c_of be bs nC deg dim x0 xf B z0 zf : length x0 = dim -> length xf = dim ->
  msetup be bs nC deg dim x0 xf = Some (B, z0, zf) ->
  nb_c B = nd_c ROps z0 zf x0 xf /\ offeredm bs /\
  match bs with MB FS => z0 = - PI /\ zf = PI | MB _ => z0 = - (1) /\ zf = 1 | ME _ => z0 = 0 /\ zf = 1 end.
Proof.
  intros H0 Hf. destruct bs as [f|f]; cbn [msetup].
  - destruct (mtfc_prod_nC dim deg nC) as [M|]; [|discriminate]. cbn [bind]. unfold nd_init.
    destruct (nd_dom ROps RFun f) as [zz|] eqn:Ez; [|discriminate]. cbn [bind].
    assert (Hz : offeredm (MB f) /\ match f with FS => zz = (- PI, PI) | _ => zz = (- (1), 1) end).
    { destruct f; cbn in Ez; try discriminate; apply some_inj in Ez; subst zz; cbn; auto. }
    assert (Hc : forall B, match be with Py => py_nd_init ROps x0 xf M (deg + 1) (fst zz) (snd zz)
               | Cpp => cpp_nd_init ROps x0 xf M (deg + 1) (fst zz) (snd zz) end = Some B -> nb_c B = nd_c ROps (fst zz) (snd zz) x0 xf).
    { clear - H0 Hf. intros B. destruct be; unfold py_nd_init, cpp_nd_init.
      - destruct (_ && _)%bool; [|discriminate]. destruct (py_num _ _ _ false); [|discriminate]. cbn [bind].
        destruct (py_num _ _ _ true); [|discriminate]. cbn [bind]. intros E; apply some_inj in E; subst. reflexivity.
      - destruct (_ && _)%bool; [|discriminate]. destruct (cpp_num _ _ _ _ false); [|discriminate]. cbn [bind].
        destruct (cpp_num _ _ _ _ true); [|discriminate]. cbn [bind]. intros E; apply some_inj in E; subst B. cbn [nb_c].
        rewrite firstn_all2 by lia. reflexivity. }
    destruct (match be with Py => _ | Cpp => _ end) as [B'|]; [|discriminate]. cbn [bind]. intros E. apply some_inj in E.
    injection E as <- <- <-. split; [apply Hc; reflexivity|]. split; [apply Hz|]. destruct Hz as [_ Hz].
    destruct f; subst zz; cbn; auto.
  - destruct (mtfc_elm_nC nC) as [l|]; [|discriminate]. cbn [bind].
    destruct (deg <? length l)%nat; [discriminate|]. destruct (existsb _ l); [discriminate|].
    assert (Hc : forall B, nelm_init ROps be x0 xf l (deg + 1) = Some B -> nb_c B = nd_c ROps 0 1 x0 xf).
    { clear - H0 Hf. intros B. destruct be; cbn [nelm_init]; unfold py_nelm_init, cpp_nelm_init.
      - destruct (_ && _)%bool; [|discriminate]. intros E; apply some_inj in E; subst. reflexivity.
      - destruct (_ && _)%bool; [|discriminate]. intros E; apply some_inj in E; subst B. cbn [nb_c].
        rewrite firstn_all2 by lia. reflexivity. }
    destruct (nelm_init ROps be x0 xf l (deg + 1)) as [B'|]; [|discriminate]. cbn [bind]. intros E. apply some_inj in E.
    injection E as <- <- <-. split; [apply Hc; reflexivity|]. cbn. auto.
Qed.
Lemma axis_ok bs x00 z0 zf nk axis x0k xfk : offeredm bs ->
  match bs with MB FS => z0 = - PI /\ zf = PI | MB _ => z0 = - (1) /\ zf = 1 | ME _ => z0 = 0 /\ zf = 1 end ->
  x0k <> xfk -> mtfc_axis ROps RFun bs (Some x00) z0 zf nk = Some axis ->
  map (fun z => (z - z0) / ((zf - z0) / (xfk - x0k)) + x0k) axis = map (point_rulem bs x0k xfk (nk - 1)) (seq 0 nk).
Proof.
  intros Ho Hz Hx. assert (Hx' : xfk - x0k <> 0) by lra.
  assert (Hlin : zf - z0 <> 0 -> map (fun z => (z - z0) / ((zf - z0) / (xfk - x0k)) + x0k) (linspace ROps z0 zf nk) = map (equispaced x0k xfk (nk - 1)) (seq 0 nk)).
  { intros Hne. destruct nk as [|[|j]].
    - reflexivity.
    - cbn. f_equal. unfold equispaced. cbn [INR]. unfold Rdiv. ring.
    - rewrite linspace_R by lia. rewrite map_map. apply map_ext. intros k. unfold equispaced.
      replace (S (S j) - 1)%nat with (S j) by lia. assert (INR (S j) <> 0) by (apply not_0_INR; lia). field. repeat split; assumption. }
  assert (Hcos : z0 = - (1) -> zf = 1 -> forall j, map (fun z => (z - z0) / ((zf - z0) / (xfk - x0k)) + x0k)
      (map (fun I => cos (PI * (INR (S j) - I) / INR (S j))) (linspace ROps (0 * x00) (INR (S j)) (S (S j)))) =
      map (cgl x0k xfk (S (S j) - 1)) (seq 0 (S (S j)))).
  { intros -> -> j. rewrite linspace_R by lia. rewrite !map_map. apply map_ext. intros k.
    assert (INR (S j) <> 0) by (apply not_0_INR; lia).
    replace (0 * x00 + INR k * ((INR (S j) - 0 * x00) / INR (S j))) with (INR k) by (field; assumption).
    rewrite cos_pts by lia. unfold cgl. replace (S (S j) - 1)%nat with (S j) by lia. field. repeat split; lra. }
  pose proof PI_RGT_0 as HPI.
  destruct bs as [[]|f]; cbn [offeredm] in Ho; try (exfalso; intuition discriminate); cbn [mtfc_axis bind point_rulem];
    destruct Hz as [Hz0 Hzf].
  - destruct nk as [|[|j]]; [|discriminate|]; intros E; apply some_inj in E; subst axis; [reflexivity|].
    exact (Hcos Hz0 Hzf j).
  - destruct nk as [|[|j]]; [|discriminate|]; intros E; apply some_inj in E; subst axis; [reflexivity|].
    exact (Hcos Hz0 Hzf j).
  - intros E; apply some_inj in E; subst axis. apply Hlin. lra.
  - intros E; apply some_inj in E; subst axis. apply Hlin. lra.
Qed.
Lemma axis_length bs x00 z0 zf nk axis : mtfc_axis ROps RFun bs x00 z0 zf nk = Some axis -> length axis = nk.
Proof.
  assert (Hlin : forall a b k, length (linspace ROps a b k) = k).
  { intros a b [|[|k]]; cbn [linspace]; try reflexivity. rewrite map_length, seq_length. reflexivity. }
  destruct bs as [[]|f]; cbn [mtfc_axis]; try (intros E; apply some_inj in E; subst axis; apply Hlin);
    (destruct x00; [|discriminate]; cbn [bind]; destruct nk as [|[|j]]; [|discriminate|]; intros E; apply some_inj in E; subst axis;
     [reflexivity|]; rewrite map_length; apply Hlin).
Qed.
Lemma mapM_seq_nth {X} (F : nat -> option X) n l : mapM F (seq 0 n) = Some l ->
  length l = n /\ forall k, (k < n)%nat -> exists v, nth_error l k = Some v /\ F k = Some v.
Proof.
  intros H. assert (G : forall n s l, mapM F (seq s n) = Some l -> length l = n /\
     forall k, (k < n)%nat -> exists v, nth_error l k = Some v /\ F (s + k)%nat = Some v).
  { clear. induction n as [|n IH]; intros s l H; cbn in H.
    - apply some_inj in H. subst l. split; [reflexivity|]. intros; lia.
    - destruct (F s) as [v|] eqn:Ev; [|discriminate]. cbn [bind] in H.
      destruct (mapM F (seq (S s) n)) as [l'|] eqn:El; [|discriminate]. cbn [bind] in H. apply some_inj in H. subst l.
      destruct (IH _ _ El) as [H1 H2]. split; [cbn; lia|]. intros [|k] Hk.
      + exists v. rewrite Nat.add_0_r. auto.
      + destruct (H2 k) as (v' & ? & E'); [lia|]. exists v'. replace (s + S k)%nat with (S s + k)%nat by lia. auto. }
  destruct (G n 0%nat l H) as [H1 H2]. split; [exact H1|exact H2].
Qed.

Lemma c19 be bs n nC deg dim x0 xf w b u : mkm be bs n nC deg dim x0 xf w b = Some u ->
  (forall k, (k < dim)%nat -> nth k x0 0 <> nth k xf 0) ->
  m_N u = product n /\ length (m_x u) = dim /\
  forall k, (k < dim)%nat -> exists row, nth_error (m_x u) k = Some row /\ length row = product n /\
    forall i, (i < product n)%nat -> nth_error row i =
      Some (point_rulem bs (nth k x0 0) (nth k xf 0) (nth k n 0%nat - 1) ((i / stride n k) mod nth k n 0%nat)).
Proof.
  intros Hu Hx. apply mkm_inv in Hu as (HnL & _ & H0 & Hf & B & z0 & zf & z & xp & Es & Ep & ->). cbn [m_N m_x].
  split; [reflexivity|]. destruct (c_of be bs nC deg dim x0 xf B z0 zf H0 Hf Es) as (Hc & Ho & Hz).
  unfold mtfc_points in Ep. rewrite HnL in Ep.
  match type of Ep with bind (mapM ?F _) _ = _ => set (FZ := F) in Ep end.
  destruct (mapM FZ (seq 0 dim)) as [z'|] eqn:Ez; [|discriminate]. cbn [bind] in Ep.
  match type of Ep with bind (mapM ?F _) _ = _ => set (FX := F) in Ep end.
  destruct (mapM FX (seq 0 dim)) as [x'|] eqn:Ex; [|discriminate]. cbn [bind] in Ep. apply some_inj in Ep. injection Ep as <- <-.
  destruct (mapM_seq_nth _ _ _ Ez) as [Hlz Hzk]. destruct (mapM_seq_nth _ _ _ Ex) as [Hlx Hxk].
  split; [exact Hlx|]. intros k Hk. destruct (Hxk k Hk) as (row & Er & Fr). exists row. split; [exact Er|].
  destruct (Hzk k Hk) as (zr & Ezr & Fz).
  assert (En : nth_error n k = Some (nth k n 0%nat)) by (apply nth_error_nth'; lia).
  assert (E0 : nth_error x0 k = Some (nth k x0 0)) by (apply nth_error_nth'; lia).
  assert (Ec : nth_error (nb_c B) k = Some ((zf - z0) / (nth k xf 0 - nth k x0 0))).
  { rewrite Hc. unfold nd_c. rewrite nth_error_map. rewrite (proj2 (nth_error_combine _ _ k (nth k x0 0, nth k xf 0))); [reflexivity|].
    split; apply nth_error_nth'; lia. }
  unfold FX in Fr. rewrite Ezr, Ec, E0 in Fr. cbn [bind] in Fr. apply some_inj in Fr. subst row.
  unfold FZ in Fz. rewrite En in Fz. cbn [bind] in Fz.
  assert (Hhd : exists x00, nth_error x0 0 = Some x00). { destruct x0; cbn in *; [lia|eauto]. }
  destruct Hhd as (x00 & Eh). rewrite Eh in Fz.
  destruct (mtfc_axis ROps RFun bs (Some x00) z0 zf (nth k n 0%nat)) as [axis|] eqn:Eax; [|discriminate]. cbn [bind] in Fz.
  pose proof (axis_length _ _ _ _ _ _ Eax) as Hal.
  destruct (spread_ok _ _ _ _ Fz) as [Hsl Hsi]. rewrite Hal in Hsl, Hsi.
  assert (Hlen : length zr = product n). { rewrite Hsl, (product_split n k _ En). reflexivity. }
  rewrite map_length. split; [exact Hlen|]. intros i Hi. rewrite nth_error_map, Hsi by lia.
  change (natprod (skipn (S k) n)) with (stride n k).
  pose proof (axis_ok bs x00 z0 zf (nth k n 0%nat) axis (nth k x0 0) (nth k xf 0) Ho Hz (Hx k Hk) Eax) as Hmap.
  apply (f_equal (fun l => nth_error l ((i / stride n k) mod nth k n 0%nat))) in Hmap.
  rewrite nth_error_map in Hmap. etransitivity; [exact Hmap|]. rewrite nth_error_map_seq.
  assert (nth k n 0%nat <> 0%nat). { intros E. rewrite (product_split n k _ En), E in Hi. lia. }
  destruct (Nat.ltb_spec ((i / stride n k) mod nth k n 0%nat) (nth k n 0%nat)) as [|Hge]; [reflexivity|].
  pose proof (Nat.mod_upper_bound (i / stride n k) (nth k n 0%nat) H). lia.
Qed.
Lemma c19_once n (a : nat -> nat) : (forall k b, nth_error n k = Some b -> (a k < b)%nat) ->
  exists i, ((i < product n)%nat /\ forall k b, nth_error n k = Some b -> (i / stride n k) mod b = a k) /\
  forall j, (j < product n)%nat /\ (forall k b, nth_error n k = Some b -> (j / stride n k) mod b = a k) -> j = i.
Proof.
  intros Ha. destruct (digits_exist n a Ha) as (i & Hi & Hd). exists i. split; [split; assumption|].
  intros j (Hj & Hdj). apply (digits_unique n); [exact Hj|exact Hi|]. intros k b Hk. rewrite (Hdj k b Hk), (Hd k b Hk). reflexivity.
Qed.
(** the points themselves: every combination occurs exactly once *)
Lemma rulem_inj bs x0 xf n i j : x0 < xf -> (i <= n)%nat -> (j <= n)%nat ->
  point_rulem bs x0 xf n i = point_rulem bs x0 xf n j -> i = j.
Proof.
  intros Hx Hi Hj.
  assert (E : exists ub, point_rulem bs = point_rule ub).
  { destruct bs as [f|f]; [exists (UB f)|exists (UE f)]; [destruct f|]; reflexivity. }
  destruct E as (ub & ->). intros H. destruct (Nat.lt_trichotomy i j) as [L|[L|L]]; [|exact L|].
  - pose proof (rule_incr ub x0 xf n i j Hx L Hj). lra.
  - pose proof (rule_incr ub x0 xf n j i Hx L Hi). lra.
Qed.
Lemma c19_exactly be bs n nC deg dim x0 xf w b u (a : nat -> nat) : mkm be bs n nC deg dim x0 xf w b = Some u ->
  (forall k, (k < dim)%nat -> nth k x0 0 < nth k xf 0) ->
  (forall k, (k < dim)%nat -> (a k < nth k n 0%nat)%nat) ->
  let here i := (i < m_N u)%nat /\ forall k, (k < dim)%nat ->
    ment (Mat dim (m_N u) (m_x u)) k i = Some (point_rulem bs (nth k x0 0) (nth k xf 0) (nth k n 0%nat - 1) (a k)) in
  exists i, here i /\ forall j, here j -> j = i.
Proof.
  intros Hu Hx Ha. destruct (c19 be bs n nC deg dim x0 xf w b u Hu) as (HN & HL & Hrow). { intros k Hk. specialize (Hx k Hk). lra. }
  assert (HnL : length n = dim) by (apply mkm_inv in Hu; apply Hu). rewrite HN.
  destruct (c19_once n a) as (i & (Hi & Hd) & Hun).
  { intros k b' Hk. assert (k < dim)%nat by (rewrite <- HnL; apply nth_error_Some; congruence).
    rewrite <- (nth_error_nth n k 0%nat Hk). apply Ha. assumption. }
  exists i. cbn zeta. split.
  - split; [exact Hi|]. intros k Hk. destruct (Hrow k Hk) as (row & Er & _ & He). unfold ment. cbn [md]. rewrite Er. cbn [bind].
    rewrite He by exact Hi. rewrite (Hd k (nth k n 0%nat)) by (apply nth_error_nth'; lia). reflexivity.
  - intros j (Hj & Hjp). apply Hun. split; [exact Hj|]. intros k b' Hk.
    assert (Hkd : (k < dim)%nat) by (rewrite <- HnL; apply nth_error_Some; congruence).
    pose proof (nth_error_nth n k 0%nat Hk) as Eb. rewrite <- Eb.
    specialize (Hjp k Hkd). destruct (Hrow k Hkd) as (row & Er & _ & He). unfold ment in Hjp. cbn [md] in Hjp. rewrite Er in Hjp. cbn [bind] in Hjp.
    rewrite He in Hjp by exact Hj. apply some_inj in Hjp. pose proof (Ha k Hkd).
    pose proof (Nat.mod_upper_bound (j / stride n k) (nth k n 0%nat)).
    apply (rulem_inj _ _ _ _ _ _ (Hx k Hkd)) in Hjp; [exact Hjp|lia|lia].
Qed.

(** ** C26 *)
Lemma ent_row_names mx e i : ~ singleton e -> In (Z.of_nat i) (ent_row mx e) <-> names e i.
Proof.
  intros Hs. unfold ent_row.
  assert (Hrep : forall k, ~ In (Z.of_nat i) (repeat (-1)%Z k)). { intros k H. apply repeat_spec in H. lia. }
  destruct e as [z|l]; cbn [ent_flat names].
  - rewrite in_app_iff, in_map_iff. split.
    + intros [(k & E & Hk%in_seq)|H]; [lia|]. exfalso. eapply Hrep, H.
    + intros H. left. exists i. split; [reflexivity|]. apply in_seq. lia.
  - destruct l as [|a [|a' l]]; [..|].
    + cbn [app]. split; [intros H; exfalso; eapply Hrep, H|intros []].
    + exfalso. apply Hs. exists a. reflexivity.
    + rewrite in_app_iff. split; [intros [H|H]; [exact H|exfalso; eapply Hrep, H]|auto].
Qed.
Lemma ent_max_count e : ~ singleton e -> ent_max (ent_flat e) = count e.
Proof.
  intros Hs. destruct e as [z|[|a [|a' l]]]; cbn [ent_flat ent_max count]; try reflexivity. exfalso. apply Hs. exists a. reflexivity.
Qed.
Lemma nc_max_le es d : (0 <= d)%Z -> (nc_max es <= d)%Z <-> forall e, In e es -> (ent_max (ent_flat e) <= d)%Z.
Proof.
  intros Hd. unfold nc_max.
  assert (G : forall es acc, (fold_left (fun mx e => if Z.ltb mx (ent_max (ent_flat e)) then ent_max (ent_flat e) else mx) es acc <= d)%Z
     <-> (acc <= d)%Z /\ forall e, In e es -> (ent_max (ent_flat e) <= d)%Z).
  { clear. induction es as [|e es IH]; intros acc; cbn [fold_left].
    - split; [intros H; split; [exact H|intros _ []]|tauto].
    - rewrite IH. cbn [In]. split.
      + intros [H1 H2]. destruct (Z.ltb_spec acc (ent_max (ent_flat e))).
        * split; [lia|]. intros e' [<-|H']; [exact H1|apply H2, H'].
        * split; [exact H1|]. intros e' [<-|H']; [lia|apply H2, H'].
      + intros [H1 H2]. split; [|intros e' H'; apply H2; right; exact H'].
        destruct (Z.ltb_spec acc (ent_max (ent_flat e))); [apply H2; left; reflexivity|exact H1]. }
  rewrite G. tauto.
Qed.
Lemma entries_rows dim deg nC es : entries nC es -> mtfc_prod_nC dim deg nC = mtfc_rows dim deg es.
Proof. destruct nC; cbn [entries mtfc_prod_nC]; try tauto; intros ->; reflexivity. Qed.
Lemma mapM_total {X Y} (F : X -> option Y) l : (forall x, In x l -> exists y, F x = Some y) -> exists r, mapM F l = Some r.
Proof.
  induction l as [|a l IH]; intros H; [exists []; reflexivity|].
  destruct (H a (or_introl eq_refl)) as (y & E). destruct IH as (r & Er); [intros x Hx; apply H; right; exact Hx|].
  exists (y :: r). cbn. rewrite E. cbn [bind]. rewrite Er. reflexivity.
Qed.
Lemma product_pos l : (forall k, (k < length l)%nat -> (1 <= nth k l 0)%nat) -> (1 <= product l)%nat.
Proof.
  induction l as [|a l IH]; intros H; cbn [product]; [lia|].
  pose proof (H 0%nat ltac:(cbn; lia)) as H0. cbn in H0.
  assert (1 <= product l)%nat. { apply IH. intros k Hk. apply (H (S k)). cbn. lia. } nia.
Qed.
Lemma points_total bs n x0 z0 zf c : length x0 = length n -> length c = length n ->
  (forall k, (k < length n)%nat -> (2 <= nth k n 0)%nat) ->
  exists zx, mtfc_points ROps RFun bs n (Some x0) z0 zf c x0 = Some zx.
Proof.
  intros H0 Hc Hn. unfold mtfc_points.
  match goal with |- exists zx, bind (mapM ?F _) _ = _ => set (FZ := F); destruct (mapM_total FZ (seq 0 (length n))) as (z & Ez) end.
  { intros k Hk%in_seq. unfold FZ. rewrite (nth_error_nth' n 0%nat) by lia. cbn [bind].
    assert (Eh : exists x00, nth_error x0 0 = Some x00). { destruct x0; cbn in *; [lia|eauto]. } destruct Eh as (x00 & ->).
    specialize (Hn k ltac:(lia)) as Hk2.
    assert (Eax : exists axis, mtfc_axis ROps RFun bs (Some x00) z0 zf (nth k n 0%nat) = Some axis).
    { destruct bs as [[]|]; cbn [mtfc_axis bind]; destruct (nth k n 0%nat) as [|[|j]]; try lia; eexists; reflexivity. }
    destruct Eax as (axis & ->). cbn [bind]. unfold mtfc_spread.
    assert (natprod (skipn (S k) n) <> 0%nat).
    { rewrite natprod_product. assert (1 <= product (skipn (S k) n))%nat; [|lia]. apply product_pos. intros i Hi.
      rewrite skipn_length in Hi. specialize (Hn (S k + i)%nat ltac:(lia)).
      assert (Es : nth i (skipn (S k) n) 0%nat = nth (S k + i) n 0%nat).
      { rewrite <- (firstn_skipn (S k) n) at 2. rewrite app_nth2; rewrite firstn_length_le by lia; [|lia]. f_equal. lia. }
      rewrite Es. lia. }
    destruct (Nat.eqb_spec (natprod (skipn (S k) n)) 0); [contradiction|]. eexists; reflexivity. }
  rewrite Ez. cbn [bind]. destruct (mapM_seq_nth _ _ _ Ez) as [Hlz _].
  match goal with |- exists zx, bind (mapM ?F _) _ = _ => set (FX := F); destruct (mapM_total FX (seq 0 (length n))) as (x & Ex) end.
  { intros k Hk%in_seq. unfold FX. rewrite (nth_error_nth' z []) by lia. cbn [bind]. rewrite (nth_error_nth' c 0) by lia. cbn [bind].
    rewrite (nth_error_nth' x0 0) by lia. eexists; reflexivity. }
  rewrite Ex. eexists; reflexivity.
Qed.
Lemma mkm_intro be bs n nC deg dim x0 xf w b B z0 zf zx :
  length n = dim -> (Z.of_nat (natprod n) < 2147483648)%Z -> length x0 = dim -> length xf = dim ->
  msetup be bs nC deg dim x0 xf = Some (B, z0, zf) -> mtfc_points ROps RFun bs n (Some x0) z0 zf (nb_c B) x0 = Some zx ->
  mkm be bs n nC deg dim x0 xf w b = Some (Mtfc n (natprod n) dim be bs B w b (fst zx) (snd zx)).
Proof.
  intros Hn Hp H0 Hf Es Ep. unfold mkm, mtfc_init. rewrite Hn, Nat.eqb_refl, H0, Hf, Nat.eqb_refl. cbn [negb andb].
  destruct (Z.ltb_spec (Z.of_nat (natprod n)) 2147483648) as [_|]; [|lia]. cbn [negb].
  change (match bs with
   | MB f => nC0 <- mtfc_prod_nC dim deg nC;; zz <- nd_dom ROps RFun f;;
             B <- nd_init ROps RFun be f x0 xf nC0 (deg + 1);; Some (B, fst zz, snd zz)
   | ME _ => nC0 <- mtfc_elm_nC nC;;
             (if (deg <? length nC0)%nat then None
              else if existsb (fun i : Z => (i <? 0)%Z) nC0 then None
              else B <- nelm_init ROps be x0 xf nC0 (deg + 1);; Some (B, o0 ROps, o1 ROps))
   end) with (msetup be bs nC deg dim x0 xf).
  rewrite Es. cbn [bind]. rewrite Ep. reflexivity.
Qed.

Lemma nd_c_length z0 zf (x0 xf : list R) : length xf = length x0 -> length (nd_c ROps z0 zf x0 xf) = length x0.
Proof. intros H. unfold nd_c. rewrite map_length, combine_length. lia. Qed.

Section C26.
Variable jvpn : (list R -> R) -> list R -> list R -> R.
Hypothesis Hj : jvpn_ok jvpn.
Lemma c26_accept be f n nC es deg dim x0 xf w b :
  offeredm (MB f) -> (1 <= dim)%nat -> length n = dim -> length x0 = dim -> length xf = dim ->
  (Z.of_nat (product n) < 2147483648)%Z -> (forall k, (k < dim)%nat -> (2 <= nth k n 0)%nat) ->
  entries nC es -> length es = dim -> (forall e, In e es -> ~ singleton e /\ (count e <= Z.of_nat deg)%Z) ->
  exists u, mkm be (MB f) n nC deg dim x0 xf w b = Some u /\
  forall full, exists idx, NoDup idx /\ (forall v, In v idx <-> remains deg es full v) /\
    mtfc_num u full = length idx /\
    columns_are (fun x d => mtfc_H ROps RFun jvpn u (md x) d full) be f x0 xf (S deg) dim idx.
Proof.
  intros Ho Hdim Hn H0 Hf Hp Hn2 He Hes Hent.
  assert (Hrows : mtfc_rows dim deg es = Some (Mat dim (Z.to_nat (nc_max es)) (map (ent_row (Z.to_nat (nc_max es))) es))).
  { unfold mtfc_rows. rewrite Hes, Nat.eqb_refl. destruct (Z.ltb_spec (Z.of_nat deg) (nc_max es)) as [Hlt|]; [|reflexivity]. exfalso.
    assert (nc_max es <= Z.of_nat deg)%Z; [|lia]. apply nc_max_le; [lia|]. intros e Hin. rewrite ent_max_count by (apply Hent, Hin).
    apply Hent, Hin. }
  set (M := Mat dim (Z.to_nat (nc_max es)) (map (ent_row (Z.to_nat (nc_max es))) es)) in *.
  pose proof (rows_shaped _ _ _ _ Hrows) as HM.
  assert (Hsh : argsm (MB f) nC deg dim x0 xf w b).
  { split; [exact Hdim|]. destruct nC; try exact I. destruct He. }
  assert (Hargs : n_args f dim x0 xf M (S deg)).
  { split; [|split; [exact Hdim|split; [lia|split; [exact H0|split; [exact Hf|exact HM]]]]].
    unfold bounded. cbn in Ho. tauto. }
  destruct (mkn_ok be _ _ _ _ _ _ Hargs) as (B & EB & HB).
  assert (Ez : nd_dom ROps RFun f = Some (nd_z0 f, nd_zf f)).
  { cbn in Ho. destruct Ho as [->|[->| ->]]; reflexivity. }
  assert (Es : msetup be (MB f) nC deg dim x0 xf = Some (B, nd_z0 f, nd_zf f)).
  { cbn [msetup]. rewrite (entries_rows _ _ _ _ He), Hrows. cbn [bind]. rewrite Ez. cbn [bind]. unfold mkn in EB.
    rewrite Nat.add_1_r, EB. reflexivity. }
  destruct (c_of be (MB f) nC deg dim x0 xf B _ _ H0 Hf Es) as (Hc & _ & _).
  destruct (points_total (MB f) n x0 (nd_z0 f) (nd_zf f) (nb_c B)) as (zx & Ep).
  { lia. } { rewrite Hc, nd_c_length; lia. } { intros k Hk. apply Hn2. lia. }
  pose proof (mkm_intro be (MB f) n nC deg dim x0 xf w b B _ _ zx Hn Hp H0 Hf Es Ep) as Hu.
  eexists. split; [exact Hu|]. intros full. exists (idxs dim (S deg) (md M) full). split; [apply idxs_nodup|]. split.
  { intros v. rewrite idxs_in by (try lia; exact HM). unfold admissible, remains. rewrite Hes.
    replace (S deg - 1)%nat with deg by lia.
    assert (Hiff : (exists k row a, nth_error (md M) k = Some row /\ nth_error v k = Some a /\ ~ In (Z.of_nat a) row) <->
                   exists k e a, nth_error es k = Some e /\ nth_error v k = Some a /\ ~ names e a).
    { cbn [M md]. split.
      - intros (k & row & a & Er & Ev & Hni). rewrite nth_error_map in Er. destruct (nth_error es k) as [e|] eqn:Ee; [|discriminate].
        injection Er as <-. exists k, e, a. split; [exact Ee|]. split; [exact Ev|]. rewrite <- ent_row_names; [exact Hni|].
        apply Hent. apply nth_error_In with k. exact Ee.
      - intros (k & e & a & Ee & Ev & Hni). exists k, (ent_row (Z.to_nat (nc_max es)) e), a. rewrite nth_error_map, Ee.
        split; [reflexivity|]. split; [exact Ev|]. rewrite ent_row_names; [exact Hni|]. apply Hent. apply nth_error_In with k. exact Ee. }
    tauto. }
  split. { unfold mtfc_num. cbn [m_B]. apply (nbo_num _ _ _ _ _ _ _ HB full). }
  intros N x d Hx Hd.
  pose proof (ProofMtfc.mH jvpn Hj be (MB f) n nC deg dim x0 xf w b _ Hu Hsh d full N x (conj Hd I) Hx) as EH.
  cbn zeta in EH. eexists. split; [exact EH|].
  assert (EK : mK (MB f) dim deg nC full = idxs dim (S deg) (md M) full).
  { unfold mK. rewrite (entries_rows _ _ _ _ He), Hrows. reflexivity. }
  rewrite EK. split; [apply mmat_shaped|]. intros i v j Hi Hjn.
  exists (fun k => ndcol f x0 xf k (xat x j k) (nth k d 0%nat) (nth k v 0%nat)). split.
  - intros k Hk. destruct (shaped_ent x dim N k j 0 Hx Hk Hjn) as (row & Er & _ & Hent').
    eexists. split; [unfold ment; rewrite Er; exact Hent'|].
    assert (Exat : xat x j k = nth j (nth k (md x) []) 0) by reflexivity.
    rewrite Exat. rewrite (nth_error_nth _ _ [] Er). 
    apply ndcol_entry; [apply Hargs|].
    apply (vecs_nth (S deg) dim); [exact Hk|]. apply nth_error_In in Hi. unfold idxs in Hi. apply filter_In in Hi. apply Hi.
  - rewrite mmat_ent, Hi by exact Hjn. reflexivity.
Qed.
End C26.

Lemma c26_reject_product be f n nC deg dim x0 xf w b :
  (exists z, nC = MInt z) \/
  (exists es, entries nC es /\ (length es <> dim \/ exists e, In e es /\ ~ singleton e /\ (Z.of_nat deg < count e)%Z)) \/
  (exists M, nC = MJax2 M /\ mr M <> dim) ->
  mkm be (MB f) n nC deg dim x0 xf w b = None.
Proof.
  intros H. destruct (mkm be (MB f) n nC deg dim x0 xf w b) as [u|] eqn:Hu; [exfalso|reflexivity].
  apply mkm_inv in Hu as (_ & _ & _ & _ & B & z0 & zf & z & x & Es & _). cbn [msetup] in Es.
  assert (Hno : mtfc_prod_nC dim deg nC = None); [|rewrite Hno in Es; discriminate].
  destruct H as [(q & ->)|[(es & He & H)|(M & -> & HM)]]; [reflexivity| |].
  - rewrite (entries_rows _ _ _ _ He). unfold mtfc_rows. destruct (Nat.eqb_spec (length es) dim) as [Hl|]; [|reflexivity].
    destruct (Z.ltb_spec (Z.of_nat deg) (nc_max es)) as [|Hle]; [reflexivity|].
    destruct H as [H|(e & Hin & Hs & Hc)]; [contradiction|].
    apply nc_max_le with (e := e) in Hle; [|lia|exact Hin]. rewrite ent_max_count in Hle by exact Hs. lia.
  - cbn. destruct (Nat.eqb_spec (mr M) dim); [contradiction|reflexivity].
Qed.
Lemma elm_names_list nC l : elm_names nC l -> mtfc_elm_nC nC = Some l.
Proof.
  destruct nC; cbn [elm_names mtfc_elm_nC]; try tauto.
  - intros ->. reflexivity.
  - intros ->. reflexivity.
  - intros ->. rewrite mapM_ent_int. reflexivity.
Qed.
Lemma c26_reject_elm be f n nC l deg dim x0 xf w b : elm_names nC l ->
  (deg < length l)%nat \/ (exists i, In i l /\ (i < 0)%Z) -> mkm be (ME f) n nC deg dim x0 xf w b = None.
Proof.
  intros He H. destruct (mkm be (ME f) n nC deg dim x0 xf w b) as [u|] eqn:Hu; [exfalso|reflexivity].
  apply mkm_inv in Hu as (_ & _ & _ & _ & B & z0 & zf & z & x & Es & _). cbn [msetup] in Es.
  rewrite (elm_names_list _ _ He) in Es. cbn [bind] in Es. destruct (Nat.ltb_spec deg (length l)) as [|Hl]; [discriminate|].
  destruct (existsb (fun i => (i <? 0)%Z) l) eqn:Ex; [discriminate|].
  destruct H as [H|(i & Hi & Hneg)]; [lia|].
  assert (existsb (fun i => (i <? 0)%Z) l = true); [|congruence]. apply existsb_exists. exists i. split; [exact Hi|]. apply Z.ltb_lt, Hneg.
Qed.
Lemma c26_accept_elm jvpn be f n nC l deg dim x0 xf w b : jvpn_ok jvpn ->
  (1 <= dim)%nat -> length n = dim -> length x0 = dim -> length xf = dim -> length w = (dim * S deg)%nat -> length b = S deg ->
  (forall i, (i < dim)%nat -> nth i x0 0 <> nth i xf 0) ->
  (Z.of_nat (product n) < 2147483648)%Z -> (forall k, (k < dim)%nat -> (2 <= nth k n 0)%nat) ->
  elm_names nC l -> valid_nC l (S deg) -> (length l <= deg)%nat ->
  exists u, mkm be (ME f) n nC deg dim x0 xf w b = Some u /\
  forall N x d, shaped x dim N -> canm be (ME f) dim d -> exists M Mc,
    mtfc_H ROps RFun jvpn u (md x) d true = Some M /\ mtfc_H ROps RFun jvpn u (md x) d false = Some Mc /\
    columns_removed (S deg) l M Mc /\ mc Mc = (S deg - length l)%nat.
Proof.
  intros Hj Hdim Hn H0 Hf Hw Hb Hne Hp Hn2 He Hv Hl.
  pose proof (elm_names_list _ _ He) as El.
  assert (Hargs : ne_args dim (S deg) w b x0 xf) by (repeat split; assumption).
  destruct (nelm_init_ok be dim (S deg) w b x0 xf l Hargs (or_introl Hv)) as (B & EB & HB).
  assert (Es : msetup be (ME f) nC deg dim x0 xf = Some (B, 0, 1)).
  { cbn [msetup]. rewrite El. cbn [bind]. destruct (Nat.ltb_spec deg (length l)); [lia|].
    assert (existsb (fun i => (i <? 0)%Z) l = false) as ->.
    { destruct (existsb _ l) eqn:Ex; [|reflexivity]. apply existsb_exists in Ex as (i & Hi & Hneg). apply Z.ltb_lt in Hneg.
      apply (proj2 Hv) in Hi. lia. }
    rewrite Nat.add_1_r, EB. reflexivity. }
  destruct (c_of be (ME f) nC deg dim x0 xf B _ _ H0 Hf Es) as (Hc & _ & _).
  destruct (points_total (ME f) n x0 0 1 (nb_c B)) as (zx & Ep).
  { lia. } { rewrite Hc, nd_c_length; lia. } { intros k Hk. apply Hn2. lia. }
  pose proof (mkm_intro be (ME f) n nC deg dim x0 xf w b B _ _ zx Hn Hp H0 Hf Es Ep) as Hu.
  eexists. split; [exact Hu|]. intros N x d Hx Hcan.
  assert (Ha : argsm (ME f) nC deg dim x0 xf w b).
  { split; [exact Hdim|]. split; [exact Hw|]. split; [exact Hb|]. split; [exact Hne|].
    destruct nC; cbn [elm_names] in He; try exact I.
    - subst. exact Hv.
    - exists l. auto. }
  pose proof (fun full => ProofMtfc.mH jvpn Hj be (ME f) n nC deg dim x0 xf w b _ Hu Ha d full N x Hcan Hx) as EH. cbn zeta in EH.
  eexists. eexists. split; [apply EH|]. split; [apply EH|].
  assert (EK : forall full, mK (ME f) dim deg nC full = map (fun k => [k]) (kk l (S deg) full)) by (intros full; unfold mK; rewrite El; reflexivity).
  rewrite !EK. split.
  - exists (keptc l (S deg)). split; [apply keptc_sorted|]. split; [intros k; rewrite keptc_in; tauto|]. split.
    + pose proof (mmat_shaped (ME f) dim deg x0 xf w b (map (fun k => [k]) (kk l (S deg) false)) d N x) as Hs.
      rewrite map_length in Hs. exact Hs.
    + intros j a. destruct (Nat.lt_ge_cases j N) as [Hjn|Hjn].
      * rewrite mmat_ent by exact Hjn. cbn [kk]. rewrite nth_error_map. destruct (nth_error (keptc l (S deg)) a) as [k|] eqn:E; [|reflexivity].
        apply nth_error_In, keptc_in in E as [Hk _]. rewrite mmat_ent by exact Hjn. rewrite nth_error_map.
        rewrite (nth_error_nth' _ 0%nat) by (rewrite seq_length; exact Hk). rewrite seq_nth by exact Hk. reflexivity.
      * assert (G : forall KK a, ment (mmat (ME f) dim deg x0 xf w b KK d N x) j a = None).
        { intros K a'. unfold ment, mmat. cbn [md]. rewrite nth_error_map_seq. destruct (Nat.ltb_spec j N); [lia|reflexivity]. }
        rewrite G. destruct (nth_error (keptc l (S deg)) a); [rewrite G|]; reflexivity.
  - cbn [mc mmat kk]. rewrite map_length. rewrite (ne_valid_kept l (S deg)) by (left; exact Hv). unfold ne_numC.
    destruct l as [|z l']; [reflexivity|]. cbn [existsb].
    assert (Z.eqb z (-1) = false) as ->. { apply Z.eqb_neq. pose proof (proj2 Hv z (or_introl eq_refl)). lia. } reflexivity.
Qed.

(** a list with one entry is read as a count *)
Lemma c26_singleton be f n es k a deg dim x0 xf w b : nth_error es k = Some (EList [a]) ->
  mkm be (MB f) n (MList es) deg dim x0 xf w b =
  mkm be (MB f) n (MList (firstn k es ++ EInt a :: skipn (S k) es)) deg dim x0 xf w b.
Proof.
  intros Hk. set (es' := firstn k es ++ EInt a :: skipn (S k) es).
  assert (Hflat : map ent_flat es' = map ent_flat es).
  { subst es'. clear - Hk. revert es Hk. induction k as [|k IH]; intros [|e es] Hk; try discriminate.
    - cbn in Hk. injection Hk as ->. reflexivity.
    - cbn [nth_error] in Hk. cbn [firstn skipn app map]. f_equal. apply IH, Hk. }
  assert (Hrows : mtfc_rows dim deg es = mtfc_rows dim deg es').
  { unfold mtfc_rows. rewrite <- (map_length ent_flat es), <- Hflat, map_length.
    assert (Hmax : nc_max es = nc_max es').
    { unfold nc_max.
      assert (G : forall l acc, fold_left (fun mx e => if Z.ltb mx (ent_max (ent_flat e)) then ent_max (ent_flat e) else mx) l acc =
        fold_left (fun mx e => if Z.ltb mx (ent_max e) then ent_max e else mx) (map ent_flat l) acc).
      { clear. induction l as [|e l IH]; intros acc; [reflexivity|]. cbn. apply IH. }
      rewrite !G, Hflat. reflexivity. }
    rewrite Hmax. assert (Hrow : forall mx, map (ent_row mx) es = map (ent_row mx) es').
    { intros mx. transitivity (map (fun l => (match l with [n] => map Z.of_nat (seq 0 (Z.to_nat n)) | l => l end) ++
          repeat (-1)%Z (mx - length (match l with [n] => map Z.of_nat (seq 0 (Z.to_nat n)) | l => l end))) (map ent_flat es)).
      - rewrite map_map. apply map_ext. intros e. unfold ent_row. destruct (ent_flat e) as [|q [|]]; reflexivity.
      - rewrite <- Hflat, map_map. apply map_ext. intros e. unfold ent_row. destruct (ent_flat e) as [|q [|]]; reflexivity. }
    rewrite Hrow. reflexivity. }
  unfold mkm, mtfc_init. cbn [mtfc_prod_nC]. rewrite Hrows. reflexivity.
Qed.
Lemma c26_singleton_wrong jvpn be : jvpn_ok jvpn -> exists u, mkm be (MB CP) [2%nat] (MList [EList [2%Z]]) 3 1 [0] [1] [] [] = Some u /\
  ~ exists idx, (forall v, In v idx <-> remains 3 [EList [2%Z]] false v) /\
     columns_are (fun x d => mtfc_H ROps RFun jvpn u (md x) d false) be CP [0] [1] 4 1 idx.
Proof.
  intros Hj. destruct (c26_accept jvpn Hj be CP [2%nat] (MList [EInt 2]) [EInt 2] 3 1 [0] [1] [] []) as (u & Hu & HH).
  - cbn. auto.
  - lia.
  - reflexivity.
  - reflexivity.
  - reflexivity.
  - cbn. lia.
  - intros k Hk. destruct k; cbn; lia.
  - reflexivity.
  - reflexivity.
  - intros e [<-|[]]. cbn. split; [intros (q & Hq); discriminate|lia].
  - exists u. split; [rewrite (c26_singleton be CP [2%nat] [EList [2%Z]] 0 2%Z) by reflexivity; exact Hu|].
    intros (idx & Hin & Hcol). destruct (HH false) as (idx' & Hnd & Hin' & _ & Hcol').
    destruct (Hcol 1%nat (Mat 1 1 [[0]]) [0%nat]) as (M & EM & HM & _); [repeat split; intros r [<-|[]]; reflexivity|reflexivity|].
    destruct (Hcol' 1%nat (Mat 1 1 [[0]]) [0%nat]) as (M' & EM' & HM' & _); [repeat split; intros r [<-|[]]; reflexivity|reflexivity|].
    rewrite EM in EM'. apply some_inj in EM'. subst M'. destruct HM as (_ & HM & _). destruct HM' as (_ & HM' & _).
    assert (Hlen : length idx = length idx') by congruence.
    assert (H3 : (3 <= length idx)%nat).
    { apply (NoDup_incl_length (l := [[0]; [1]; [3]]%nat)).
      - repeat constructor; cbn; intuition discriminate.
      - intros v Hv. apply Hin. cbn in Hv. repeat split.
        + intuition (subst; reflexivity).
        + destruct Hv as [<-|[<-|[<-|[]]]]; cbn; lia.
        + right. destruct Hv as [<-|[<-|[<-|[]]]]; exists 0%nat; do 2 eexists; (split; [reflexivity|split; [reflexivity|]]); cbn; intros [H|[]]; lia. }
    assert (H2 : (length idx' <= 2)%nat).
    { apply (NoDup_incl_length (l' := [[2]; [3]]%nat)); [exact Hnd|]. intros v Hv. apply Hin' in Hv as (Hl & Hs & [H|(k & e & a & Ee & Ev & Hno)]); [discriminate|].
      destruct k as [|k]; [|destruct k; discriminate]. cbn in Ee. injection Ee as <-.
      destruct v as [|c [|]]; try discriminate. cbn in Ev. injection Ev as ->. cbn in Hno, Hs. cbn.
      assert (a = 2 \/ a = 3)%nat as [->| ->] by lia; auto. }
    lia.
Qed.
(** entries of a list are not checked against the degree *)
Lemma c26_range jvpn be f deg : jvpn_ok jvpn -> offeredm (MB f) -> (2 <= deg)%nat -> exists u,
  mkm be (MB f) [2%nat] (MList [EList [Z.of_nat deg + 1; -5]%Z]) deg 1 [0] [1] [] [] = Some u.
Proof.
  intros Hj Ho Hd.
  destruct (c26_accept jvpn Hj be f [2%nat] (MList [EList [Z.of_nat deg + 1; -5]%Z]) [EList [Z.of_nat deg + 1; -5]%Z] deg 1 [0] [1] [] [])
    as (u & Hu & _); try reflexivity; try exact Ho; try lia.
  - intros [|k] Hk; cbn; lia.
  - intros e [<-|[]]. split; [intros (q & Hq); discriminate|cbn [count length]; lia].
  - exists u. exact Hu.
Qed.
