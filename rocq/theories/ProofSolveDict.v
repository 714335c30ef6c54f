From Coq Require Import List Arith Bool Lia.
From Verif Require Import Base ModelDict SpecDict ProofDict ProofDict2 ProofDict3 ModelSolveDict SpecSolveDict.
Import ListNotations.

Lemma F2_map_r {A B C} (R : A -> C -> Prop) (g : B -> C) l m : Forall2 (fun x y => R x (g y)) l m -> Forall2 R l (map g m).
Proof. induction 1; cbn; constructor; assumption. Qed.
Lemma chunks_rows {T} sz (row : nat -> list T) n : forall s, (forall r, length (row r) = sz) ->
  chunks sz n (flat_map row (seq s n)) = map row (seq s n).
Proof.
  induction n as [|n IH]; intros s H; [reflexivity|]. cbn [seq flat_map map chunks].
  rewrite <- (H s). rewrite firstn_app_exact, skipn_app_exact, (H s), IH; auto.
Qed.
Lemma flat_map_len {T} sz (row : nat -> list T) n : forall s, (forall r, length (row r) = sz) ->
  length (flat_map row (seq s n)) = n * sz.
Proof.
  induction n as [|n IH]; intros s H; [reflexivity|]. cbn [seq flat_map Nat.mul].
  rewrite app_length, H, IH; auto.
Qed.

Section Proofs.
Context {T K : Type} (keq : K -> K -> bool) (Hk : keq_ok keq).
Notation arr := (@arr T). Notation view := (list (K * @ModelDict.arr T)).

(** one row of the assembled Jacobian *)
Definition jrow (D : nat -> K -> nat -> T) (c : view) (r : nat) : list T :=
  flat_map (fun p => map (D r (fst p)) (seq 0 (length (a_data (snd p))))) c.
Lemma jrow_len D c r : length (jrow D c r) = length (packed c).
Proof.
  unfold jrow, packed. induction c as [|p c IH]; [reflexivity|]. cbn. rewrite !app_length, map_length, seq_length, IH. reflexivity.
Qed.
Lemma jrow_nth D c1 k a c2 r j : j < length (a_data a) ->
  nth_error (jrow D (c1 ++ (k, a) :: c2) r) (length (packed c1) + j) = Some (D r k j).
Proof.
  intros Hj. unfold jrow. rewrite flat_map_app. fold (jrow D c1 r).
  rewrite nth_error_app2; rewrite jrow_len; [|lia]. replace (length (packed c1) + j - length (packed c1)) with j by lia.
  cbn. rewrite nth_error_app1 by (rewrite map_length, seq_length; assumption).
  rewrite nth_error_map, (nth_error_nth' _ 0) by (rewrite seq_length; assumption).
  rewrite seq_nth by assumption. reflexivity.
Qed.
Lemma rows_nth {X} (row : nat -> list X) N m r i : r < m -> i < N -> (forall r, length (row r) = N) ->
  nth_error (flat_map row (seq 0 m)) (r * N + i) = nth_error (row r) i.
Proof.
  intros Hr Hi HN. replace m with (r + S (m - r - 1)) by lia. rewrite seq_app, flat_map_app. cbn [Nat.add].
  assert (E : length (flat_map row (seq 0 r)) = r * N) by (apply flat_map_len; assumption).
  rewrite nth_error_app2 by lia. rewrite E. replace (r * N + i - r * N) with i by lia.
  cbn [seq flat_map]. apply nth_error_app1. rewrite HN. assumption.
Qed.
Lemma packed_nth (c1 : view) k a c2 j : j < length (a_data a) ->
  nth_error (packed (c1 ++ (k, a) :: c2)) (length (packed c1) + j) = nth_error (a_data a) j.
Proof.
  intros Hj. unfold packed. rewrite map_app, concat_app. rewrite nth_error_app2 by lia.
  match goal with |- nth_error _ ?x = _ => replace x with j by lia end. cbn. apply nth_error_app1. assumption.
Qed.

(** ** Reading the blocks *)
Lemma v_get_in (c : view) k a : NoDup (map fst c) -> In (k, a) c -> v_get keq c k = Some a.
Proof.
  unfold v_get. induction c as [|[k' a'] c IH]; cbn; [intros _ []|]. intros HN [E|Hi].
  - inversion E; subst. rewrite (keq_refl keq Hk). reflexivity.
  - inversion HN; subst. rewrite (keq_neq keq Hk); [apply IH; assumption|]. intros ->. apply H1. apply (in_map fst) in Hi. exact Hi.
Qed.
Lemma blocks_get (g : K * arr -> arr) (c : view) : NoDup (map fst c) ->
  mapM (v_get keq (map (fun p => (fst p, g p)) c)) (map fst c) = Some (map g c).
Proof.
  intros HN. rewrite mapM_map. rewrite <- (mapM_Some g c). apply mapM_ext. intros p Hp.
  apply v_get_in.
  - rewrite map_map. cbn. exact HN.
  - apply (in_map (fun p => (fst p, g p))) in Hp. exact Hp.
Qed.

(** ** Assembling *)
Definition mat (m : nat) (D : nat -> K -> nat -> T) (p : K * arr) : arr :=
  Arr_ [m; length (a_data (snd p))] (a_data (block m D p)).
Lemma hstack_mats m D (c : view) : c <> [] ->
  hstack (map (mat m D) c) = Some (Arr_ [m; length (packed c)] (flat_map (jrow D c) (seq 0 m))).
Proof.
  intros Hc. unfold hstack. rewrite map_map.
  assert (E : map (fun x => at_least_1d (mat m D x)) c = map (mat m D) c) by (apply map_ext; reflexivity).
  rewrite E. clear E. remember (map (mat m D) c) as l eqn:El. destruct l as [|a0 l0]; [destruct c; [contradiction|discriminate]|].
  unfold hstack0. cbv beta iota.
  assert (Ha : exists n, a_shape a0 = [m; n]) by (destruct c as [|p c0]; inversion El; subst; eexists; reflexivity).
  destruct Ha as [n0 Ha]. rewrite Ha. cbv beta iota. rewrite El. clear El Ha a0 l0 n0.
  match goal with |- (if ?b then _ else _) = _ => assert (E : b = true) end.
  { rewrite forallb_forall. intros a Ha. apply in_map_iff in Ha. destruct Ha as (p & <- & _).
    cbn. rewrite Nat.eqb_refl. reflexivity. }
  rewrite E. clear E. f_equal. f_equal.
  - f_equal. f_equal. rewrite map_map. rewrite (packed_length c). reflexivity.
  - assert (E : map (fun a => chunks (nprod (tl (a_shape a))) m (a_data a)) (map (mat m D) c)
                = map (fun p => map (fun r => map (D r (fst p)) (seq 0 (length (a_data (snd p))))) (seq 0 m)) c).
    { rewrite map_map. apply map_ext. intros p. cbn [mat a_shape tl nprod fold_right a_data]. rewrite Nat.mul_1_r.
      unfold block. cbn [a_data].
      apply chunks_rows. intros r. rewrite map_length, seq_length. reflexivity. }
    rewrite E. clear E. rewrite flat_map_concat_map. f_equal. apply map_ext_in. intros r Hr. apply in_seq in Hr.
    unfold jrow. rewrite flat_map_concat_map. f_equal. rewrite map_map. apply map_ext. intros p.
    rewrite (nth_indep _ [] (map (D 0 (fst p)) (seq 0 (length (a_data (snd p)))))) by (rewrite map_length, seq_length; lia).
    rewrite (map_nth (fun r => map (D r (fst p)) (seq 0 (length (a_data (snd p)))))).
    rewrite seq_nth by lia. reflexivity.
Qed.
Lemma J_dict_ok m D (c jacob : view) : NoDup (map fst c) -> c <> [] -> Forall (fun p => is1d (snd p)) c ->
  jac_of m D c jacob ->
  J_dict keq jacob c = Some (Arr_ [m; length (packed c)] (flat_map (jrow D c) (seq 0 m))).
Proof.
  intros HN Hc H1 ->. unfold J_dict. rewrite blocks_get by assumption. cbn [bind].
  rewrite <- hstack_mats by assumption. f_equal. apply map_ext_in. intros p Hp. unfold mat, block. cbn. f_equal.
  rewrite Forall_forall in H1. rewrite (H1 p Hp). reflexivity.
Qed.
Lemma block_len m D (p : K * arr) : length (a_data (block m D p)) = m * length (a_data (snd p)).
Proof. cbn. apply flat_map_len. intros r. rewrite map_length, seq_length. reflexivity. Qed.
Lemma J_robust_ok m D (c jacob : view) : NoDup (map fst c) -> c <> [] ->
  Forall (fun p => wf (snd p) /\ a_shape (snd p) <> []) c -> jac_of m D c jacob ->
  J_robust keq jacob c = Some (Arr_ [m; length (packed c)] (flat_map (jrow D c) (seq 0 m))).
Proof.
  intros HN Hc H1 ->. unfold J_robust. rewrite Forall_forall in H1.
  assert (E : mapM (J_block keq (map (fun p => (fst p, block m D p)) c) c) (map fst c) = Some (map (mat m D) c)).
  { rewrite mapM_map. rewrite <- (mapM_Some (mat m D) c). apply mapM_ext. intros [k a] Hp. destruct (H1 _ Hp) as [Hw Hs].
    unfold J_block. cbn [fst].
    rewrite (v_get_in _ k (block m D (k, a))).
    2: { rewrite map_map. cbn. exact HN. }
    2: { apply (in_map (fun p => (fst p, block m D p))) in Hp. exact Hp. }
    cbn [bind]. rewrite (v_get_in c k a) by assumption. cbn [bind]. cbn [snd] in Hs, Hw.
    change (a_shape (block m D (k, a))) with (m :: a_shape a).
    destruct (a_shape a) as [|n s] eqn:Es; [congruence|]. unfold reshape. rewrite <- Es, block_len. cbn [snd].
    unfold wf in Hw. rewrite <- Hw. cbn [nprod fold_right]. rewrite Nat.mul_1_r, Nat.eqb_refl. reflexivity. }
  rewrite E. cbn [bind]. apply hstack_mats. assumption.
Qed.
Lemma J_robust_0d (c jacob : view) k a : NoDup (map fst c) -> In (k, a) c -> a_shape a = [] ->
  J_robust keq jacob c = None.
Proof.
  intros HN Hi Ha. unfold J_robust. rewrite (mapM_None _ _ k); [reflexivity|apply (in_map fst) in Hi; exact Hi|].
  unfold J_block. rewrite (v_get_in c k a) by assumption. destruct (v_get keq jacob k); [|reflexivity]. cbn [bind].
  rewrite Ha. destruct (a_shape a0); reflexivity.
Qed.

(** ** zerosRobust *)
Notation val := (@val T). Notation heap := (@heap T). Notation tdict := (@tdict T K).
Context (zero : T) (add sub : T -> T -> T) (opp : T -> T) (solve : arr -> list T -> list T)
  (jacfwd : (view -> list T) -> view -> view).
Definition zero_arr (a : arr) : arr := Arr_ (a_shape a) (repeat zero (nprod (a_shape a))).
Definition zero_view (c : view) : view := map (fun p => (fst p, zero_arr (snd p))) c.
Lemma zero_wf a : wf (zero_arr a).
Proof. unfold wf, zero_arr. cbn. apply repeat_length. Qed.
Lemma zero_view_form c : same_form c (zero_view c).
Proof.
  unfold same_form, zero_view. rewrite !map_map. cbn. split; [reflexivity|]. split; [reflexivity|].
  apply Forall_map, Forall_forall. intros p _. apply zero_wf.
Qed.
Lemma form_1d (c c' : view) : same_form c c' -> Forall (fun p => is1d (snd p)) c -> Forall (fun p => is1d (snd p)) c'.
Proof.
  intros (_ & E & W) H. revert c E H. induction W as [|[k a] c' Ha W IH]; intros [|[k0 a0] c] E H; cbn in *; try discriminate; constructor.
  - injection E as E1 E2. inversion H; subst. red in H2, Ha |- *. cbn in *. rewrite H2 in E1. rewrite E1 in *. cbn in Ha.
    rewrite Nat.mul_1_r in Ha. rewrite Ha. reflexivity.
  - injection E as E1 E2. inversion H; subst. eapply IH; eassumption.
Qed.
Lemma form_len (c c' : view) : same_form c c' -> Forall (fun p => wf (snd p)) c -> length (packed c') = length (packed c).
Proof.
  intros (_ & E & W) H. rewrite !packed_length. f_equal. revert c E H.
  induction W as [|[k a] c' Ha W IH]; intros [|[k0 a0] c] E H; cbn in *; try discriminate; [reflexivity|].
  injection E as E1 E2. inversion H; subst. red in Ha, H2. cbn in *. f_equal; [congruence|]. apply IH; assumption.
Qed.
Lemma packed_zeros c : packed (zero_view c) = repeat zero (length (packed (zero_view c))).
Proof.
  unfold packed. induction c as [|[k a] c IH]; [reflexivity|].
  cbn. fold (zero_view c). rewrite app_length, repeat_app, <- IH, repeat_length. reflexivity.
Qed.
Lemma zeros_step cl h (d : tdict) c : contents h d = Some c -> NoDup (map fst (td_items d)) ->
  exists h' vs, zeros_of keq zero cl h d = (h', c_new keq cl h' (combine (map fst c) vs)) /\
    contents_of h' (combine (map fst c) vs) = Some (zero_view c) /\ NoDup (map fst (combine (map fst c) vs)) /\
    (forall v a, ld h v = Some a -> ld h' v = Some a) /\
    (forall v, In v vs -> is_jax v = false) /\ length vs = length c.
Proof.
  intros Hc Hn. unfold contents in Hc. destruct (contents_ld _ _ _ Hc) as [E1 E2].
  unfold zeros_of. rewrite E1, E2.
  destruct (alloc true h (map (fun a => Arr_ (a_shape a) (repeat zero (nprod (a_shape a)))) (map snd c))) as [h' vs] eqn:Ea.
  exists h', vs. split; [reflexivity|]. destruct (alloc_ld _ _ _ _ _ Ea) as [El Elen]. rewrite !map_length in Elen.
  assert (El2 : length (map fst c) = length vs) by (rewrite map_length; congruence).
  split; [|split; [|split; [|split]]].
  - rewrite (ld_contents _ _ _ _ El El2). f_equal. unfold zero_view. rewrite map_map.
    clear. induction c as [|[k a] c IH]; [reflexivity|]. cbn. rewrite IH. reflexivity.
  - rewrite map_fst_combine by assumption. rewrite <- E2. assumption.
  - intros v a. exact (alloc_old _ _ _ _ _ v a Ea).
  - unfold alloc in Ea. injection Ea as <- <-. intros v Hv. apply in_map_iff in Hv. destruct Hv as (x & <- & _). reflexivity.
  - assumption.
Qed.

(** ** LS and NLLS on a TFCDict *)
Definition J_ok (solve : arr -> list T -> list T) : Prop :=
  forall m n l r, length (solve (Arr_ [m; n] l) r) = n.
Lemma c_J_ok cl m D c jacob : NoDup (map fst c) -> c <> [] ->
  match cl with Plain => Forall (fun p => is1d (snd p)) c | Robust => Forall (fun p => wf (snd p) /\ a_shape (snd p) <> []) c end ->
  jac_of m D c jacob ->
  c_J keq cl jacob c = Some (Arr_ [m; length (packed c)] (flat_map (jrow D c) (seq 0 m))).
Proof. destruct cl; [apply J_dict_ok|apply J_robust_ok]. Qed.

Lemma ls_plain h (d : tdict) c res m D : J_ok solve -> fresh d_refresh h d -> contents h d = Some c -> c <> [] ->
  Forall (fun p => is1d (snd p)) c -> jac_of m D (zero_view c) (jacfwd res (zero_view c)) ->
  exists h' d' c', LS_dict keq zero add opp solve jacfwd Plain h d res = Some (h', d') /\ contents h' d' = Some c' /\
    contents h' d = Some c /\ same_form c c' /\
    packed c' = zip2 add (repeat zero (length (packed c)))
      (solve (Arr_ [m; length (packed c)] (flat_map (jrow D (zero_view c)) (seq 0 m))) (map opp (res (zero_view c)))).
Proof.
  intros HJ Hf Hc Hc0 H1 Hjac. pose proof (fresh_keys _ _ _ Hf) as Hn.
  destruct (contents_ld _ _ _ Hc) as [_ Ek].
  destruct (zeros_step Plain h d c Hc Hn) as (h' & vs & Ez & Ec & Hnz & Hold & _ & _).
  pose proof (zero_view_form c) as Fz.
  assert (H1z : Forall (fun p => is1d (snd p)) (zero_view c)) by (eapply form_1d; eassumption).
  assert (Wc : Forall (fun p => wf (snd p)) c) by (eapply Forall_impl; [|exact H1]; intros p; apply is1d_wf).
  pose proof (form_len _ _ Fz Wc) as Lz.
  assert (En : exists z, d_new keq h' (combine (map fst c) vs) = Some z /\ fresh d_refresh h' z /\ contents h' z = Some (zero_view c)).
  { pose proof (d_refresh_1d _ _ _ Ec H1z) as Er. eexists. split.
    - unfold d_new. rewrite (od_init keq Hk) by assumption. exact Er.
    - split; [split; [exact Hnz|exact Er]|exact Ec]. }
  destruct En as (z & En & Fr & Cz). unfold LS_dict. rewrite Ez. cbn [c_new]. rewrite En. cbn [bind]. rewrite Cz. cbn [bind].
  rewrite (c_J_ok Plain m D (zero_view c) _) ; [|destruct Fz as [-> _]; rewrite <- Ek; exact Hn|destruct c; [contradiction|discriminate]|exact H1z|exact Hjac].
  cbn [bind]. rewrite Lz.
  set (x := solve _ _). assert (Hx : length x = length (packed c)) by apply HJ.
  destruct (c31_array keq Hk add h' z (zero_view c) (flat x) Fr Cz H1z) as (d' & E1 & _ & c' & Cc & K1 & S1 & W1 & P1).
  { cbn. congruence. }
  cbn [c_iop]. rewrite E1. exists h', d', c'. split; [reflexivity|]. split; [exact Cc|]. split; [|split].
  - eapply contents_mono; [|exact Hc]. exact Hold.
  - destruct Fz as (F1 & F2 & _). split; [congruence|]. split; [congruence|exact W1].
  - rewrite P1, packed_zeros, Lz. reflexivity.
Qed.
Lemma step_plain h (d : tdict) c res m D : J_ok solve -> fresh d_refresh h d -> contents h d = Some c -> c <> [] ->
  Forall (fun p => is1d (snd p)) c -> jac_of m D c (jacfwd res c) ->
  exists d' c' dxi, NLLS_step keq sub solve jacfwd Plain h d res = Some (h, d', dxi) /\ contents h d' = Some c' /\ same_form c c' /\
    dxi = solve (Arr_ [m; length (packed c)] (flat_map (jrow D c) (seq 0 m))) (res c) /\
    packed c' = zip2 sub (packed c) dxi.
Proof.
  intros HJ Hf Hc Hc0 H1 Hjac. pose proof (fresh_keys _ _ _ Hf) as Hn. destruct (contents_ld _ _ _ Hc) as [_ Ek].
  unfold NLLS_step. rewrite Hc. cbn [bind].
  rewrite (c_J_ok Plain m D c _); [|rewrite <- Ek; exact Hn|assumption|exact H1|exact Hjac]. cbn [bind].
  set (x := solve _ _). assert (Hx : length x = length (packed c)) by apply HJ.
  destruct (c31_array keq Hk sub h d c (flat x) Hf Hc H1) as (d' & E1 & _ & c' & Cc & K1 & S1 & W1 & P1); [exact Hx|].
  cbn [c_iop]. rewrite E1. exists d', c', x. repeat split; try assumption; try reflexivity.
Qed.
Lemma step_robust h (d : tdict) c res m D : J_ok solve -> fresh r_refresh h d -> contents h d = Some c -> c <> [] ->
  forallb is_jax (map snd (td_items d)) = true ->
  Forall (fun p => wf (snd p) /\ a_shape (snd p) <> []) c -> jac_of m D c (jacfwd res c) ->
  exists d' c' dxi, NLLS_step keq sub solve jacfwd Robust h d res = Some (h, d', dxi) /\ contents h d' = Some c' /\ same_form c c' /\
    dxi = solve (Arr_ [m; length (packed c)] (flat_map (jrow D c) (seq 0 m))) (res c) /\
    packed c' = zip2 sub (packed c) dxi.
Proof.
  intros HJ Hf Hc Hc0 Hj H1 Hjac. pose proof (fresh_keys _ _ _ Hf) as Hn. destruct (contents_ld _ _ _ Hc) as [_ Ek].
  unfold NLLS_step. rewrite Hc. cbn [bind].
  rewrite (c_J_ok Robust m D c _); [|rewrite <- Ek; exact Hn|assumption|exact H1|exact Hjac]. cbn [bind].
  set (x := solve _ _). assert (Hx : length x = length (packed c)) by apply HJ.
  assert (Wc : Forall (fun p => wf (snd p)) c) by (eapply Forall_impl; [|exact H1]; intros p [? _]; assumption).
  destruct (c31_robust_array keq Hk sub h d c (flat x) Hf Hj Hc Wc) as (d' & E1 & _ & c' & Cc & K1 & S1 & W1 & P1); [exact Hx|].
  cbn [c_iop]. rewrite E1. exists d', c', x. repeat split; try assumption; try reflexivity.
Qed.

(** ** LS on a TFCDictRobust *)
Lemma two_nonempty (c : view) k1 a1 k2 a2 k a : In (k1, a1) c -> In (k2, a2) c -> k1 <> k2 ->
  a_data a1 <> [] -> a_data a2 <> [] -> In (k, a) c -> length (a_data a) < length (packed c).
Proof.
  intros H1 H2 Hne N1 N2 Hi. rewrite packed_length.
  assert (Hle : forall (c : view) k (x : arr), In (k, x) c -> length (a_data x) <= list_sum (map (fun p => length (a_data (snd p))) c)).
  { clear. intros c k x. induction c as [|p c IH]; [intros []|]. cbn. intros [->|Hi]; cbn; [lia|].
    specialize (IH Hi). unfold list_sum in IH. lia. }
  assert (Hp : forall l : list T, l <> [] -> 0 < length l) by (intros [|]; [congruence|cbn; lia]).
  apply Hp in N1, N2.
  assert (Hs : forall (c : view) kx x ky y, In (kx, x) c -> In (ky, y) c -> kx <> ky ->
     length (a_data x) + length (a_data y) <= list_sum (map (fun p => length (a_data (snd p))) c)).
  { clear - Hle. intros c kx x ky y Hx Hy Hne. induction c as [|p c IH]; [contradiction|]. cbn.
    change (fold_right Nat.add 0 (map (fun p => length (a_data (snd p))) c)) with (list_sum (map (fun p => length (a_data (snd p))) c)).
    destruct Hx as [->|Hx], Hy as [E|Hy].
    - congruence.
    - cbn. specialize (Hle _ _ _ Hy). lia.
    - subst p. cbn. specialize (Hle _ _ _ Hx). lia.
    - specialize (IH Hx Hy). lia. }
  destruct (keq_dec keq Hk k k1) as [->|Hk1].
  - specialize (Hs _ _ _ _ _ Hi H2 Hne). lia.
  - specialize (Hs _ _ _ _ _ Hi H1 Hk1). lia.
Qed.
Lemma ls_robust_raises h (d : tdict) c res : J_ok solve -> fresh r_refresh h d -> contents h d = Some c ->
  Forall (fun p => wf (snd p)) c ->
  (exists m D, jac_of m D (zero_view c) (jacfwd res (zero_view c))) ->
  (exists k1 a1 k2 a2, In (k1, a1) c /\ In (k2, a2) c /\ k1 <> k2 /\ a_data a1 <> [] /\ a_data a2 <> []) ->
  LS_dict keq zero add opp solve jacfwd Robust h d res = None.
Proof.
  intros HJ Hf Hc W (m & D & Hjac) (k1 & a1 & k2 & a2 & H1 & H2 & Hne & N1 & N2).
  pose proof (fresh_keys _ _ _ Hf) as Hn. destruct (contents_ld _ _ _ Hc) as [_ Ek].
  destruct (zeros_step Robust h d c Hc Hn) as (h' & vs & Ez & Ec & Hnz & Hold & Hnp & Hlen).
  unfold LS_dict. rewrite Ez. cbn [c_new]. unfold r_new. rewrite (od_init keq Hk) by assumption.
  destruct c as [|[k a] c0] eqn:Ecc; [contradiction|]. rewrite <- Ecc in *.
  assert (Hvs : exists v vs', vs = v :: vs') by (destruct vs; [subst c; discriminate|eauto]).
  destruct Hvs as (v & vs' & Evs).
  assert (Ej : forallb is_jax (map snd (combine (map fst c) vs)) = false).
  { rewrite map_snd_combine by (rewrite map_length; congruence). subst vs. cbn. rewrite Hnp by (left; reflexivity). reflexivity. }
  unfold r_refresh, r_getSlices. rewrite Ej. cbn [bind].
  unfold contents. cbn [td_items]. rewrite Ec. cbn [bind].
  pose proof (zero_view_form c) as Fz. pose proof (form_len _ _ Fz W) as Lz.
  destruct (c_J keq Robust (jacfwd res (zero_view c)) (zero_view c)) as [J|] eqn:EJ; [|reflexivity]. cbn [bind].
  assert (H0 : Forall (fun p => a_shape (snd p) <> []) (zero_view c)).
  { apply Forall_forall. intros [kk aa] Hp Es. cbn in EJ, Es.
    rewrite (J_robust_0d (zero_view c) _ kk aa) in EJ; [discriminate| |assumption|assumption].
    destruct Fz as [-> _]. rewrite <- Ek. exact Hn. }
  rewrite (c_J_ok Robust m D (zero_view c) _) in EJ.
  2: destruct Fz as [-> _]; rewrite <- Ek; exact Hn.
  2: subst c; discriminate.
  2: { destruct Fz as (_ & _ & Wz). rewrite Forall_forall in *. intros p Hp. split; [apply Wz|apply H0]; exact Hp. }
  2: exact Hjac.
  injection EJ as <-. set (x := solve _ _). assert (Hx : length x = length (packed c)) by (unfold x; rewrite HJ; exact Lz).
  cbn [c_iop]. unfold r_iop, r_arith. cbn [td_keys td_slices td_items].
  rewrite map_fst_combine by (rewrite map_length; congruence).
  rewrite map_length, combine_length, map_length, Hlen, Nat.min_id, Ecc, Evs. cbn [length map combine repeat].
  cbn [aug_arr fst snd]. unfold aug at 1. cbn [od_get fst]. rewrite (keq_refl keq Hk).
  unfold r_pick. cbn [td_items od_get fst snd]. rewrite (keq_refl keq Hk). cbn [bind].
  destruct (ld h' v) as [b|] eqn:Ev; [|reflexivity]. cbn [bind flatten flat a_data pick].
  assert (Eb : b = zero_arr a).
  { rewrite Ecc, Evs in Ec. cbn in Ec. rewrite Ev in Ec. cbn in Ec. destruct (mapM _ _) in Ec; [|discriminate]. cbn in Ec. congruence. }
  unfold reshape. cbn [a_data]. rewrite Hx.
  assert (Hlt : length (a_data a) < length (packed c)).
  { eapply two_nonempty; [exact H1|exact H2|exact Hne|exact N1|exact N2|]. rewrite Ecc. left. reflexivity. }
  assert (Wa : wf a) by (rewrite Forall_forall in W; apply (W (k, a)); rewrite Ecc; left; reflexivity).
  red in Wa. subst b. cbn [zero_arr a_shape]. rewrite <- Wa.
  destruct (Nat.eqb_spec (length (packed c)) (length (a_data a))); [lia|]. reflexivity.
Qed.
(** a single entry *)
Lemma ls_robust_one h (d : tdict) k a res m D : J_ok solve -> fresh r_refresh h d -> contents h d = Some [(k, a)] ->
  wf a -> a_shape a <> [] ->
  jac_of m D (zero_view [(k, a)]) (jacfwd res (zero_view [(k, a)])) ->
  exists h' d' c', LS_dict keq zero add opp solve jacfwd Robust h d res = Some (h', d') /\ contents h' d' = Some c' /\
    contents h' d = Some [(k, a)] /\ same_form [(k, a)] c' /\
    packed c' = zip2 add (repeat zero (length (packed [(k, a)])))
      (solve (Arr_ [m; length (packed [(k, a)])] (flat_map (jrow D (zero_view [(k, a)])) (seq 0 m))) (map opp (res (zero_view [(k, a)])))).
Proof.
  intros HJ Hf Hc W Hs Hjac. set (c := [(k, a)]) in *.
  pose proof (fresh_keys _ _ _ Hf) as Hn. destruct (contents_ld _ _ _ Hc) as [_ Ek].
  destruct (zeros_step Robust h d c Hc Hn) as (h' & vs & Ez & Ec & Hnz & Hold & Hnp & Hlen).
  unfold LS_dict. rewrite Ez. cbn [c_new]. unfold r_new. rewrite (od_init keq Hk) by assumption.
  destruct vs as [|v [|v' vs]]; try discriminate.
  pose proof (Hnp v (or_introl eq_refl)) as Hv.
  unfold r_refresh, r_getSlices, c. cbn [map fst combine snd forallb]. rewrite Hv. cbn [andb bind length repeat map].
  unfold contents. cbn [td_items]. fold c. change [(k, v)] with (combine (map fst c) [v]). rewrite Ec. cbn [bind].
  assert (Wc : Forall (fun p => wf (snd p)) c) by (constructor; [exact W|constructor]).
  pose proof (zero_view_form c) as Fz. pose proof (form_len _ _ Fz Wc) as Lz.
  rewrite (c_J_ok Robust m D (zero_view c) _).
  2: destruct Fz as [-> _]; rewrite <- Ek; exact Hn.
  2: discriminate.
  2: { constructor; [|constructor]. split; [apply zero_wf|exact Hs]. }
  2: exact Hjac.
  cbn [bind]. rewrite Lz. set (x := solve _ _). assert (Hx : length x = length (packed c)) by (unfold x; rewrite HJ; reflexivity).
  assert (Ev : ld h' v = Some (zero_arr a)).
  { cbn in Ec. destruct (ld h' v); cbn in Ec; [|discriminate]. unfold zero_view, c in Ec. cbn in Ec. congruence. }
  assert (Exa : length x = nprod (a_shape a)) by (rewrite Hx; unfold packed, c; cbn; rewrite app_nil_r; exact W).
  cbn [c_iop]. unfold r_iop, r_arith. cbn [td_keys td_slices td_items combine map c fst].
  cbn [aug_arr fst snd]. unfold aug at 1. cbn [od_get fst]. rewrite (keq_refl keq Hk).
  unfold r_pick. cbn [td_items od_get fst snd]. rewrite (keq_refl keq Hk). cbn [bind]. rewrite Ev.
  cbn [bind flatten flat a_data pick zero_arr a_shape]. unfold reshape. cbn [a_data].
  rewrite Exa, Nat.eqb_refl. cbn [option_map].
  assert (Ei : iop add h' v (Jax (Arr_ (a_shape a) x)) = (h', Some (Jax (ew add (zero_arr a) (Arr_ (a_shape a) x))))).
  { unfold iop. rewrite Ev. cbn [ld]. rewrite bc_op_same; [|apply zero_wf|exact Exa|reflexivity]. destruct v; reflexivity. }
  rewrite Ei. cbn [od_set]. rewrite (keq_refl keq Hk).
  eexists _, _, [(k, ew add (zero_arr a) (Arr_ (a_shape a) x))]. split; [reflexivity|].
  split; [reflexivity|]. split; [eapply contents_mono; [|exact Hc]; exact Hold|].
  split.
  - split; [reflexivity|]. split; [reflexivity|]. constructor; [|constructor]. apply ew_wf; [apply zero_wf|exact Exa|reflexivity].
  - unfold packed, c. cbn. rewrite !app_nil_r. unfold ew. cbn. red in W. rewrite <- W. reflexivity.
Qed.
End Proofs.
