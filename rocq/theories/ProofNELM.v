(** Proofs about the n-dimensional ELM bases. *)
From Coq Require Import List Arith ZArith Bool Reals Lra Lia Permutation.
From Coquelicot Require Import Coquelicot.
From Verif Require Import Base Numbers ModelBFPy ModelBFCpp SpecBasis ProofBase ProofTab ProofBFCpp ProofH
  ModelELM SpecELM ProofELM ModelND SpecND ProofND ProofND2 ModelNELM SpecNELM.
Import ListNotations.
Open Scope R_scope.

(** ** loops *)
Lemma for_acc {S} (F : nat -> S) body n : (forall k, (k < n)%nat -> body k (F k) = Some (F (1 + k)%nat)) ->
  for_ 0 n body (F 0%nat) = Some (F n).
Proof.
  intros H. destruct (for_inv (fun k s => s = F k) body 0 n (F 0%nat)) as (s' & E & ->).
  - lia.
  - reflexivity.
  - intros k s Hk ->. exists (F (1 + k)%nat). split; [apply H; lia|reflexivity].
  - exact E.
Qed.

Lemma sumn_ext n F G : (forall i, (i < n)%nat -> F i = G i) -> sumn n F = sumn n G.
Proof. induction n as [|n IH]; intros H; cbn; [reflexivity|]. rewrite IH, H by (intros; try apply H; lia). reflexivity. Qed.
Lemma prodn_mul n F G : prodn n (fun i => F i * G i) = prodn n F * prodn n G.
Proof. induction n as [|n IH]; cbn; [ring|]. rewrite IH. ring. Qed.
Lemma prodn_1 n F : (forall i, (i < n)%nat -> F i = 1) -> prodn n F = 1.
Proof. induction n as [|n IH]; intros H; cbn; [reflexivity|]. rewrite IH, H by (intros; try apply H; lia). ring. Qed.
Lemma prodn_more a b F : (forall i, (a <= i < a + b)%nat -> F i = 1) -> prodn (a + b) F = prodn a F.
Proof.
  induction b as [|b IH]; intros H; [rewrite Nat.add_0_r; reflexivity|].
  rewrite Nat.add_succ_r. cbn [prodn]. rewrite IH, H by (intros; try apply H; lia). ring.
Qed.
Lemma prodn_orders dim d (a : nat -> R) : (length d <= dim)%nat ->
  prodn (length d) (fun i => a i ^ nth i d 0%nat) = prodn dim (fun i => a i ^ nth i d 0%nat).
Proof.
  intros H. replace dim with (length d + (dim - length d))%nat by lia. rewrite prodn_more; [reflexivity|].
  intros i Hi. rewrite nth_overflow by lia. reflexivity.
Qed.

Lemma sum_firstn_S d i : (i < length d)%nat -> list_sum (firstn (1 + i) d) = (list_sum (firstn i d) + nth i d 0)%nat.
Proof.
  revert i; induction d as [|a d IH]; intros i Hi; [cbn in Hi; lia|].
  destruct i as [|i].
  - cbn. lia.
  - change (firstn (1 + S i) (a :: d)) with (a :: firstn (1 + i) d). change (firstn (S i) (a :: d)) with (a :: firstn i d).
    rewrite !lsum_cons, IH by (cbn in Hi; lia). cbn [nth]. lia.
Qed.

(** ** the entry both backends must compute *)
Definition rG (s : nat) (u : R) : R :=
  match s with O => if Rlt_dec 0 u then u else 0 | 1%nat => if Rlt_dec 0 u then 1 else 0 | _ => 0 end.
Definition nG (f : elm) (s : nat) (u : R) : R := match f with ReLU => rG s u | _ => gact f s u end.
Definition nci (x0 xf : list R) (i : nat) : R := (1 - 0) / (nth i xf 0 - nth i x0 0).
Definition nu (dim m : nat) (w b : list R) (k : nat) (Z : nat -> R) : R :=
  sumn dim (fun i => nth (i * m + k) w 0 * Z i) + nth k b 0.
Definition nent f dim m w b (c : nat -> R) (d : list nat) (k : nat) (Z : nat -> R) : R :=
  prodn dim (fun i => c i ^ nth i d 0%nat) * prodn dim (fun i => nth (i * m + k) w 0 ^ nth i d 0%nat)
  * nG f (list_sum d) (nu dim m w b k Z).

Section Cpp.
Context (dim m : nat) (w b : list R) (c : nat -> R) (cl : list R) (d : list nat).
Context (Hw : length w = (dim * m)%nat) (Hb : length b = m) (Hd : (length d <= dim)%nat).
Context (Hc : cl = map c (seq 0 dim)).

Lemma cl_nth i : (i < dim)%nat -> nth_error cl i = Some (c i).
Proof. intros Hi. rewrite Hc, nth_error_map_seq. apply Nat.ltb_lt in Hi. rewrite Hi. reflexivity. Qed.
Lemma w_rd i k : (i < dim)%nat -> (k < m)%nat -> brd (bof w) (i * m + k) = Some (nth (i * m + k) w 0).
Proof. intros Hi Hk. apply (wrd w (dim * m)); [exact Hw|nia]. Qed.

Definition zbuf (zb : buf R) (n : nat) (Z : nat -> nat -> R) : Prop :=
  forall i j, (i < dim)%nat -> (j < n)%nat -> brd zb (i * n + j) = Some (Z i j).

Lemma dot_ok zb n Z j k : zbuf zb n Z -> (j < n)%nat -> (k < m)%nat ->
  cpp_ne_dot ROps dim m n (bof w) zb j k = Some (sumn dim (fun i => nth (i * m + k) w 0 * Z i j)).
Proof.
  intros Hz Hj Hk. unfold cpp_ne_dot.
  apply (for_acc (fun i => sumn i (fun i => nth (i * m + k) w 0 * Z i j))).
  intros i Hi. rewrite w_rd by assumption. rewrite Hz by assumption. reflexivity.
Qed.
Lemma ord_ok : cpp_ne_ord ROps cl d = Some (list_sum d, prodn dim (fun i => c i ^ nth i d 0%nat)).
Proof.
  unfold cpp_ne_ord. rewrite <- (prodn_orders dim d c Hd).
  replace (list_sum d) with (list_sum (firstn (length d) d)) by (rewrite firstn_all; reflexivity).
  apply (for_acc (fun i => (list_sum (firstn i d), prodn i (fun i => c i ^ nth i d 0%nat)))).
  intros i Hi. rewrite (nth_error_nth' d 0%nat) by exact Hi. rewrite cl_nth by lia. cbn [bind fst snd].
  rewrite sum_firstn_S by exact Hi. rewrite opow_R. reflexivity.
Qed.
Lemma wpow_ok k : (k < m)%nat ->
  cpp_ne_wpow ROps m (bof w) d k = Some (prodn dim (fun i => nth (i * m + k) w 0 ^ nth i d 0%nat)).
Proof.
  intros Hk. unfold cpp_ne_wpow. rewrite <- (prodn_orders dim d (fun i => nth (i * m + k) w 0) Hd).
  apply (for_acc (fun i => prodn i (fun i => nth (i * m + k) w 0 ^ nth i d 0%nat))).
  intros i Hi. rewrite w_rd by lia. rewrite (nth_error_nth' d 0%nat) by exact Hi. cbn [bind]. rewrite opow_R. reflexivity.
Qed.

Lemma nsigmoid_case_ok s g : cpp_nsigmoid_case ROps s = Some g -> forall v, g v = hev (dpoly sq s) v.
Proof.
  intros Hf v.
  do 9 (destruct s as [|s]; [try discriminate Hf; cbn [cpp_nsigmoid_case] in Hf; apply some_inj in Hf; subst g;
    litR; match goal with |- context [dpoly sq ?n] => let v := eval vm_compute in (dpoly sq n) in
      change (dpoly sq n) with v end; cbn [hev]; ring|]).
  discriminate Hf.
Qed.
Lemma ntanh_case_ok s g : cpp_ntanh_case ROps s = Some g -> forall v, g v = hev (dpoly tq s) v.
Proof.
  intros Hf v.
  do 9 (destruct s as [|s]; [try discriminate Hf; cbn [cpp_ntanh_case] in Hf; apply some_inj in Hf; subst g;
    litR; match goal with |- context [dpoly tq ?n] => let v := eval vm_compute in (dpoly tq n) in
      change (dpoly tq n) with v end; cbn [hev]; ring|]).
  discriminate Hf.
Qed.
Lemma nswish_case_ok s g : cpp_nswish_case ROps s = Some g ->
  forall v z, g v z = INR s * hev (dpoly sq (pred s)) v + z * hev (dpoly sq s) v.
Proof.
  intros Hf v z.
  do 9 (destruct s as [|s]; [try discriminate Hf; cbn [cpp_nswish_case] in Hf; apply some_inj in Hf; subst g;
    litR; cbn [pred]; repeat match goal with |- context [hev (dpoly sq ?n)] => let v := eval vm_compute in (dpoly sq n) in
      change (dpoly sq n) with v end; cbn [hev]; rewrite ?S_INR; cbn [INR]; ring|]).
  discriminate Hf.
Qed.
Lemma ncase_some s : (1 <= s <= 8)%nat ->
  (exists g, cpp_nsigmoid_case ROps s = Some g) /\ (exists g, cpp_ntanh_case ROps s = Some g) /\
  (exists g, cpp_nswish_case ROps s = Some g).
Proof. intros Hs. destruct s as [|s]; [lia|]. do 8 (destruct s as [|s]; [repeat split; eexists; reflexivity|]). lia. Qed.
Lemma ncase_none s : (9 <= s)%nat ->
  cpp_nsigmoid_case ROps s = None /\ cpp_ntanh_case ROps s = None /\ cpp_nswish_case ROps s = None.
Proof. intros Hs. do 9 (destruct s as [|s]; [lia|]). repeat split. Qed.

Lemma switch_ok n case (g : R -> R) V (F : buf R) q : cols F n m m V -> case = Some g ->
  exists b', cpp_ne_switch ROps m n (bof w) d q case F = Some b' /\
    cols b' n m m (fun j k => q * prodn dim (fun i => nth (i * m + k) w 0 ^ nth i d 0%nat) * g (V j k)).
Proof.
  intros HF ->. unfold cpp_ne_switch.
  apply (elm_loop_ok m n (fun j k => Some (V j k))); [apply HF|intros; apply (cols_cell F n m V); assumption|].
  intros j k b' Hj Hk Hl Hcell. rewrite wpow_ok by exact Hk. cbn [bind].
  rewrite brd_in by (rewrite Hl; nia). rewrite Hcell. reflexivity.
Qed.

Lemma wprod_0 k : list_sum d = 0%nat -> prodn dim (fun i => nth (i * m + k) w 0 ^ nth i d 0%nat) = 1.
Proof.
  intros H. apply prodn_1. intros i _.
  assert (E : nth i d 0%nat = 0%nat); [|rewrite E; reflexivity].
  destruct (Nat.lt_ge_cases i (length d)) as [Hi|Hi]; [|apply nth_overflow, Hi].
  clear - H Hi. revert i Hi; induction d as [|a d' IH]; intros i Hi; [cbn in Hi; lia|].
  rewrite lsum_cons in H. destruct i; cbn; [lia|]. apply IH; [lia|cbn in Hi; lia].
Qed.
Lemma cprod_0 : list_sum d = 0%nat -> prodn dim (fun i => c i ^ nth i d 0%nat) = 1.
Proof.
  intros H. apply prodn_1. intros i _.
  assert (E : nth i d 0%nat = 0%nat); [|rewrite E; reflexivity].
  destruct (Nat.lt_ge_cases i (length d)) as [Hi|Hi]; [|apply nth_overflow, Hi].
  clear - H Hi. revert i Hi; induction d as [|a d' IH]; intros i Hi; [cbn in Hi; lia|].
  rewrite lsum_cons in H. destruct i; cbn; [lia|]. apply IH; [lia|cbn in Hi; lia].
Qed.

Definition nhint_res (f : elm) zb n (F : buf R) (Z : nat -> nat -> R) : Prop :=
  exists b', cpp_nelm_hint ROps RFun f dim m cl (bof w) (bof b) d zb n F = Some b' /\
    cols b' n m m (fun j k => nent f dim m w b c d k (fun i => Z i j)).

(** the undifferentiated sigmoid and tanh cells *)
Lemma first_loop f zb n F Z (v : R -> R -> R) : zbuf zb n Z -> blen F = (m * n)%nat ->
  (forall s t, v s t = act f (s + t)) ->
  exists b', elm_loop m n (fun j k _ => dark <- cpp_ne_dot ROps dim m n (bof w) zb j k ;; bk <- brd (bof b) k ;;
      Some (v dark bk)) F = Some b' /\
    cols b' n m m (fun j k => act f (nu dim m w b k (fun i => Z i j))).
Proof.
  intros Hz Hl Hv. apply (elm_loop_ok m n (fun j k => bcell F (m * j + k)%nat)); [exact Hl|reflexivity|].
  intros j k b' Hj Hk _ _. rewrite (dot_ok zb n Z) by assumption. rewrite (wrd b m) by assumption. cbn [bind].
  rewrite Hv. reflexivity.
Qed.

Lemma act_sig' s t : 1 / (1 + exp (- s - t)) = act Sigmoid (s + t).
Proof. cbn. replace (- (s + t)) with (- s - t) by ring. unfold Rdiv. rewrite Rmult_1_l. reflexivity. Qed.

Lemma nsigmoid_ok zb n F Z : zbuf zb n Z -> blen F = (m * n)%nat -> (list_sum d <= 8)%nat ->
  nhint_res Sigmoid zb n F Z.
Proof.
  intros Hz Hl Hs. unfold nhint_res. cbn [cpp_nelm_hint]. unfold cpp_nsigmoid_hint.
  destruct (first_loop Sigmoid zb n F Z (fun s t => 1 / (1 + exp (- s - t))) Hz Hl act_sig') as (F1 & E1 & H1).
  match type of E1 with ?l = _ => match goal with |- context [elm_loop m n ?b F] =>
    replace (elm_loop m n b F) with l by reflexivity end end.
  rewrite E1. cbn [bind]. rewrite ord_ok. cbn [bind fst snd].
  destruct (Nat.eq_dec (list_sum d) 0) as [E0|N0].
  - rewrite E0. cbn [cpp_nsigmoid_case cpp_ne_switch]. exists F1. split; [reflexivity|].
    apply (cols_ext _ _ _ _ _ _ H1). intros j k Hj Hk. unfold nent. rewrite E0, wprod_0, cprod_0 by exact E0.
    cbn [nG]. rewrite gact_0 by discriminate. ring.
  - destruct (ncase_some (list_sum d)) as ((g & Eg) & _); [lia|].
    destruct (switch_ok n _ g _ F1 (prodn dim (fun i => c i ^ nth i d 0%nat)) H1 Eg) as (F2 & E2 & H2).
    exists F2. split; [exact E2|]. apply (cols_ext _ _ _ _ _ _ H2). intros j k Hj Hk.
    unfold nent. rewrite (nsigmoid_case_ok _ _ Eg). reflexivity.
Qed.
Lemma ntanh_ok zb n F Z : zbuf zb n Z -> blen F = (m * n)%nat -> (list_sum d <= 8)%nat ->
  nhint_res Tanh zb n F Z.
Proof.
  intros Hz Hl Hs. unfold nhint_res. cbn [cpp_nelm_hint]. unfold cpp_ntanh_hint.
  destruct (first_loop Tanh zb n F Z (fun s t => tanh (s + t)) Hz Hl (fun _ _ => eq_refl)) as (F1 & E1 & H1).
  match type of E1 with ?l = _ => match goal with |- context [elm_loop m n ?b F] =>
    replace (elm_loop m n b F) with l by reflexivity end end.
  rewrite E1. cbn [bind]. rewrite ord_ok. cbn [bind fst snd].
  destruct (Nat.eq_dec (list_sum d) 0) as [E0|N0].
  - rewrite E0. cbn [cpp_ntanh_case cpp_ne_switch]. exists F1. split; [reflexivity|].
    apply (cols_ext _ _ _ _ _ _ H1). intros j k Hj Hk. unfold nent. rewrite E0, wprod_0, cprod_0 by exact E0.
    cbn [nG]. rewrite gact_0 by discriminate. ring.
  - destruct (ncase_some (list_sum d)) as (_ & (g & Eg) & _); [lia|].
    destruct (switch_ok n _ g _ F1 (prodn dim (fun i => c i ^ nth i d 0%nat)) H1 Eg) as (F2 & E2 & H2).
    exists F2. split; [exact E2|]. apply (cols_ext _ _ _ _ _ _ H2). intros j k Hj Hk.
    unfold nent. rewrite (ntanh_case_ok _ _ Eg). reflexivity.
Qed.
Lemma nsin_ok zb n F Z : zbuf zb n Z -> blen F = (m * n)%nat -> nhint_res Sin zb n F Z.
Proof.
  intros Hz Hl. unfold nhint_res. cbn [cpp_nelm_hint]. unfold cpp_nsin_hint. rewrite ord_ok. cbn [bind].
  assert (L : forall v : R -> R -> R,
    (forall p u, v p u = prodn dim (fun i => c i ^ nth i d 0%nat) * p * nG Sin (list_sum d) u) ->
    exists b', elm_loop m n (fun j k _ => dark <- cpp_ne_wpow ROps m (bof w) d k ;;
        darkw <- cpp_ne_dot ROps dim m n (bof w) zb j k ;; bk <- brd (bof b) k ;;
        Some (v dark (oadd ROps darkw bk))) F = Some b' /\
      cols b' n m m (fun j k => nent Sin dim m w b c d k (fun i => Z i j))).
  { intros v Hv. apply (elm_loop_ok m n (fun j k => bcell F (m * j + k)%nat)); [exact Hl|reflexivity|].
    intros j k b' Hj Hk _ _. rewrite wpow_ok by exact Hk. rewrite (dot_ok zb n Z) by assumption.
    rewrite (wrd b m) by assumption. cbn [bind]. rewrite Hv. reflexivity. }
  pose proof (mod4_lt (list_sum d)) as H4.
  set (q := prodn dim (fun i => c i ^ nth i d 0%nat)) in *.
  destruct (list_sum d mod 4) as [|[|[|[|r]]]] eqn:Er; [| | | |lia]; cbn [Nat.eqb].
  - apply (L (fun p u => q * p * sin u)). intros p u; cbn [nG gact]; rewrite Er; ring.
  - apply (L (fun p u => q * p * cos u)). intros p u; cbn [nG gact]; rewrite Er; ring.
  - apply (L (fun p u => - q * p * sin u)). intros p u; cbn [nG gact]; rewrite Er; ring.
  - apply (L (fun p u => - q * p * cos u)). intros p u; cbn [nG gact]; rewrite Er; ring.
Qed.
Lemma nswish_ok zb n F Z : zbuf zb n Z -> blen F = (m * n)%nat -> (list_sum d <= 8)%nat ->
  nhint_res Swish zb n F Z.
Proof.
  intros Hz Hl Hs. unfold nhint_res. cbn [cpp_nelm_hint]. unfold cpp_nswish_hint. rewrite ord_ok. cbn [bind].
  destruct (Nat.eqb_spec (list_sum d) 0) as [E0|N0].
  - destruct (first_loop Swish zb n F Z (fun s t => (s + t) * 1 / (1 + exp (- s - t))) Hz Hl) as (F1 & E1 & H1).
    { intros s t. cbn. replace (- (s + t)) with (- s - t) by ring. unfold Rdiv. ring. }
    exists F1. split; [exact E1|]. apply (cols_ext _ _ _ _ _ _ H1). intros j k Hj Hk. unfold nent.
    rewrite E0, wprod_0, cprod_0 by exact E0. cbn [nG]. rewrite gact_0 by discriminate. ring.
  - destruct (elm_loop_ok m n (fun _ _ => None) (fun j k => nu dim m w b k (fun i => Z i j))
      (fun j k _ => dark <- cpp_ne_dot ROps dim m n (bof w) zb j k ;; bk <- brd (bof b) k ;; Some (oadd ROps dark bk))
      (bnew (n * m))) as (zi & Ez & Hzi); [cbn; lia|reflexivity| |].
    { intros j k b' Hj Hk _ _. rewrite (dot_ok zb n Z) by assumption. rewrite (wrd b m) by assumption. reflexivity. }
    rewrite Ez. cbn [bind].
    destruct (elm_loop_ok m n (fun _ _ => None) (fun j k => act Sigmoid (nu dim m w b k (fun i => Z i j)))
      (fun j k _ => z <- brd zi (m * j + k)%nat ;;
        Some (odiv ROps (o1 ROps) (oadd ROps (o1 ROps) (fexp RFun (oopp ROps z))))) (bnew (n * m))) as (sg & Es & Hsg);
      [cbn; lia|reflexivity| |].
    { intros j k b' Hj Hk _ _. crd Hzi. litR. cbn [act]. unfold Rdiv. rewrite Rmult_1_l. reflexivity. }
    rewrite Es. cbn [bind].
    destruct (ncase_some (list_sum d)) as (_ & _ & (g & Eg)); [lia|]. rewrite Eg.
    apply (elm_loop_ok m n (fun j k => bcell F (m * j + k)%nat)); [exact Hl|reflexivity|].
    intros j k b' Hj Hk _ _. rewrite wpow_ok by exact Hk. cbn [bind]. crd Hsg. crd Hzi.
    litR. unfold nent. rewrite (nswish_case_ok _ _ Eg). f_equal. f_equal.
    cbn [nG gact]. destruct (list_sum d); [lia|]. reflexivity.
Qed.

(** ReLU: the scan of the orders *)
Definition one_at (h : nat) : Prop := (h < length d)%nat /\ nth h d 0%nat = 1%nat /\
  forall i, i <> h -> nth i d 0%nat = 0%nat.
Lemma scan_ok : exists s, cpp_nrelu_scan cl d = Some s /\
  ((list_sum d = 0%nat /\ s = (None, false)) \/
   (list_sum d = 1%nat /\ exists h, s = (Some (h, c h), false) /\ (h < length d)%nat /\ nth h d 0%nat = 1%nat) \/
   ((2 <= list_sum d)%nat /\ snd s = true /\ forall h v, fst s = Some (h, v) -> (h < length d)%nat)).
Proof.
  unfold cpp_nrelu_scan.
  destruct (for_inv (fun i (s : option (nat * R) * bool) =>
     (list_sum (firstn i d) = 0%nat /\ s = (None, false)) \/
     (list_sum (firstn i d) = 1%nat /\ exists h, s = (Some (h, c h), false) /\ (h < i)%nat /\ nth h d 0%nat = 1%nat) \/
     ((2 <= list_sum (firstn i d))%nat /\ snd s = true /\ forall h v, fst s = Some (h, v) -> (h < i)%nat))
    (fun i (s : option (nat * R) * bool) =>
      if snd s then Some s else
      di <- nth_error d i ;;
      if ((1 <? di) || ((di =? 1) && match fst s with Some _ => true | None => false end))%nat%bool
      then Some (fst s, true)
      else if (di =? 1)%nat then ci <- nth_error cl i ;; Some (Some (i, ci), false)
      else Some s) 0%nat (length d) (None, false)) as (s & E & H).
  - lia.
  - left. split; reflexivity.
  - intros i s Hi HP. cbv beta in HP.
    change (firstn (S i) d) with (firstn (1 + i) d). rewrite sum_firstn_S by lia.
    rewrite (nth_error_nth' d 0%nat) by lia. cbn [bind].
    destruct HP as [(S0 & ->)|[(S1 & h & -> & Hh & Eh)|(S2 & Es & Hf)]].
    + cbn [fst snd]. rewrite andb_false_r, orb_false_r.
      destruct (Nat.ltb_spec 1 (nth i d 0%nat)) as [L|L].
      * eexists; split; [reflexivity|]. right; right. split; [lia|]. split; [reflexivity|]. cbn. discriminate.
      * destruct (Nat.eqb_spec (nth i d 0%nat) 1) as [E1|N1].
        -- rewrite cl_nth by lia. cbn [bind]. eexists; split; [reflexivity|]. right; left. split; [lia|].
           exists i. split; [reflexivity|]. split; [lia|exact E1].
        -- eexists; split; [reflexivity|]. left. split; [lia|reflexivity].
    + cbn [fst snd]. rewrite andb_true_r.
      destruct (Nat.ltb_spec 1 (nth i d 0%nat)) as [L|L]; cbn [orb].
      * eexists; split; [reflexivity|]. right; right. split; [lia|]. split; [reflexivity|]. cbn [fst].
        intros h' v' E'. injection E' as <- _. lia.
      * destruct (Nat.eqb_spec (nth i d 0%nat) 1) as [E1|N1].
        -- eexists; split; [reflexivity|]. right; right. split; [lia|]. split; [reflexivity|]. cbn [fst].
           intros h' v' E'. injection E' as <- _. lia.
        -- eexists; split; [reflexivity|]. right; left. split; [lia|]. exists h. split; [reflexivity|]. split; [lia|exact Eh].
    + rewrite Es. eexists; split; [reflexivity|]. right; right. split; [lia|]. split; [exact Es|].
      intros h v E'. specialize (Hf h v E'). lia.
  - exists s. split; [exact E|]. cbv beta in H. rewrite firstn_all in H. exact H.
Qed.

Lemma sum1_others (l : list nat) : forall h, list_sum l = 1%nat -> (h < length l)%nat -> nth h l 0%nat = 1%nat ->
  forall i, i <> h -> nth i l 0%nat = 0%nat.
Proof.
  induction l as [|a l IH]; intros h Hs Hh E i Hi; [destruct i; reflexivity|].
  rewrite lsum_cons in Hs. destruct h as [|h]; cbn in E.
  - destruct i as [|i]; [congruence|]. cbn.
    assert (H0 : list_sum l = 0%nat) by lia. clear - H0. revert i. induction l as [|x l IH]; intros i; [destruct i; reflexivity|].
    rewrite lsum_cons in H0. destruct i; cbn; [lia|apply IH; lia].
  - assert (Ha : a = 0%nat /\ list_sum l = 1%nat).
    { assert (1 <= list_sum l)%nat; [|lia]. cbn in Hh. clear - E Hh. revert h E Hh. induction l as [|x l IH]; intros h E Hh; [cbn in Hh; lia|].
      rewrite lsum_cons. destruct h; cbn in E; [lia|]. specialize (IH h E ltac:(cbn in Hh; lia)). lia. }
    destruct i as [|i]; cbn; [lia|]. apply (IH h); [lia|cbn in Hh; lia|exact E|lia].
Qed.
Lemma prodn_single h (a : nat -> R) : list_sum d = 1%nat -> (h < length d)%nat -> nth h d 0%nat = 1%nat ->
  prodn dim (fun i => a i ^ nth i d 0%nat) = a h.
Proof.
  intros Hs Hh E. pose proof (sum1_others d h Hs Hh E) as Ho.
  assert (G : forall n, prodn n (fun i => a i ^ nth i d 0%nat) = if (h <? n)%nat then a h else 1).
  { induction n as [|n IH]; [reflexivity|]. cbn [prodn]. rewrite IH.
    destruct (Nat.ltb_spec h n), (Nat.ltb_spec h (S n)); try lia.
    - rewrite (Ho n) by lia. cbn [pow]. ring.
    - replace n with h by lia. rewrite E. cbn. ring.
    - rewrite (Ho n) by lia. cbn [pow]. ring. }
  rewrite G. destruct (Nat.ltb_spec h dim); [reflexivity|lia].
Qed.

Lemma nrelu_ok zb n F Z : zbuf zb n Z -> blen F = (m * n)%nat -> nhint_res ReLU zb n F Z.
Proof.
  intros Hz Hl. unfold nhint_res. cbn [cpp_nelm_hint]. unfold cpp_nrelu_hint.
  destruct scan_ok as (s & Es & Hs). rewrite Es. cbn [bind].
  assert (L1 : exists b', elm_loop m n (fun j k _ =>
               dark <- cpp_ne_dot ROps dim m n (bof w) zb j k ;; bk <- brd (bof b) k ;;
               Some (if fgt0 RFun (oadd ROps dark bk) then oadd ROps dark bk else o0 ROps)) F = Some b' /\
      cols b' n m m (fun j k => rG 0 (nu dim m w b k (fun i => Z i j)))).
  { apply (elm_loop_ok m n (fun j k => bcell F (m * j + k)%nat)); [exact Hl|reflexivity|].
    intros j k b' Hj Hk _ _. rewrite (dot_ok zb n Z) by assumption. rewrite (wrd b m) by assumption. cbn [bind].
    rewrite fgt0_R. unfold rG, nu. cbn [ROps oadd o0]. destruct (Rlt_dec _ _); reflexivity. }
  assert (L0 : exists b', elm_loop m n (fun _ _ _ => Some (o0 ROps)) F = Some b' /\ cols b' n m m (fun _ _ => 0)).
  { apply (elm_loop_ok m n (fun j k => bcell F (m * j + k)%nat)); [exact Hl|reflexivity|]. reflexivity. }
  destruct Hs as [(S0 & ->)|[(S1 & h & -> & Hh & Eh)|(S2 & Ez & Hf)]]; cbn [fst snd].
  - destruct L1 as (F1 & E1 & H1). rewrite E1. cbn [bind]. exists F1. split; [reflexivity|].
    apply (cols_ext _ _ _ _ _ _ H1). intros j k Hj Hk. unfold nent. rewrite S0, wprod_0, cprod_0 by exact S0.
    cbn [nG]. ring.
  - destruct L1 as (F1 & -> & H1). cbn [bind].
    apply (elm_loop_ok m n (fun j k => Some (rG 0 (nu dim m w b k (fun i => Z i j)))));
      [apply H1|intros; apply (cols_cell F1 n m (fun j k => rG 0 (nu dim m w b k (fun i => Z i j)))); assumption|].
    intros j k b' Hj Hk Hl' Hcell. rewrite brd_in by (rewrite Hl'; nia). rewrite Hcell. cbn [bind].
    rewrite w_rd by lia. cbn [bind]. unfold nent. rewrite S1, (prodn_single h), (prodn_single h (fun i => nth (i * m + k) w 0)) by assumption.
    cbn [nG]. rewrite !fgt0_R. unfold rG. cbn [ROps oopp omul].
    destruct (Rlt_dec 0 (nu dim m w b k (fun i => Z i j))) as [P|P].
    + destruct (Rlt_dec 0 (nu dim m w b k (fun i => Z i j))) as [_|P']; [|contradiction]. cbn [orb]. f_equal. ring.
    + destruct (Rlt_dec 0 0); [lra|]. destruct (Rlt_dec 0 (- 0)); [lra|]. cbn [orb]. f_equal. ring.
  - rewrite Ez. destruct L0 as (F1 & -> & H1). cbn [bind].
    assert (Ent : forall j k, 0 = nent ReLU dim m w b c d k (fun i => Z i j)).
    { intros j k. unfold nent. cbn [nG]. destruct (list_sum d) as [|[|r]]; [lia|lia|]. cbn [rG]. ring. }
    destruct (fst s) as [[h v]|] eqn:Ef.
    + specialize (Hf h v eq_refl).
      apply (elm_loop_ok m n (fun j k => Some 0)); [apply H1|intros; apply (cols_cell F1 n m (fun _ _ => 0)); assumption|].
      intros j k b' Hj Hk Hl' Hcell. rewrite brd_in by (rewrite Hl'; nia). rewrite Hcell. cbn [bind].
      rewrite !fgt0_R. cbn [ROps oopp]. destruct (Rlt_dec 0 0); [lra|]. destruct (Rlt_dec 0 (- 0)); [lra|]. cbn [orb].
      rewrite <- Ent. reflexivity.
    + exists F1. split; [reflexivity|]. apply (cols_ext _ _ _ _ _ _ H1). intros j k _ _. apply Ent.
Qed.

Definition ntab (f : elm) : Prop := match f with Sin | ReLU => True | _ => (list_sum d <= 8)%nat end.
Lemma nhint_ok f zb n F Z : ntab f -> zbuf zb n Z -> blen F = (m * n)%nat -> nhint_res f zb n F Z.
Proof.
  intros Ht Hz Hl. destruct f; cbn [ntab] in Ht.
  - apply nrelu_ok; assumption.
  - apply nsigmoid_ok; assumption.
  - apply ntanh_ok; assumption.
  - apply nsin_ok; assumption.
  - apply nswish_ok; assumption.
Qed.
End Cpp.
