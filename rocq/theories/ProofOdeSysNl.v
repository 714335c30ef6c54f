(** Proofs about scripts for systems of differential equations with products (C110). *)
From Coq Require Import List Arith Lia Reals Lra.
From Coquelicot Require Import Coquelicot.
From Verif Require Import Base Numbers ModelBFPy SpecBasis ModelUtfc ModelOde SpecOde ProofOde ModelOdeAny SpecOdeAny ProofOdeAny
  ModelDict SpecDict ProofDict ModelSolveDict SpecSolveDict ProofSolveDict ModelOdeSys SpecOdeSys ProofOdeSys ModelOdeSysNl SpecOdeSysNl.
Import ListNotations.
Open Scope R_scope.
Local Notation length := List.length.

Section Sys.
Context (jvp : (R -> R) -> R -> R -> R) {K : Type} (keq : K -> K -> bool) (Hk : keq_ok keq).
Notation view := (list (K * @arr R)).
Notation sfun := (sfun (K:=K)).

(** ** nudging *)
Lemma nudge_form c0 k j x c : same_form c0 c -> same_form c0 (nudge keq k j x c).
Proof.
  intros (H1 & H2 & H3). unfold nudge. split; [rewrite map_map; exact H1|]. split.
  - rewrite map_map, <- H2. apply map_ext. intros p. cbn. destruct (keq (fst p) k); reflexivity.
  - apply Forall_map. apply (Forall_impl _ (P := fun p => wf (snd p))); [|exact H3]. intros p W. cbn. destruct (keq (fst p) k); [|exact W].
    unfold wf in *. cbn. rewrite map_length, seq_length. exact W.
Qed.
Lemma nudge_none k j x (c : view) : ~ In k (map fst c) -> nudge keq k j x c = c.
Proof.
  intros H. unfold nudge. rewrite <- (map_id c) at 2. apply map_ext_in. intros p Hp. rewrite (keq_f keq Hk); [destruct p; reflexivity|].
  intros <-. apply H, in_map, Hp.
Qed.
Lemma row_comb_nudge x r : forall (a : nat -> R) j s, (j < length r)%nat ->
  row_comb a (map (fun i => nth (i - s) r 0 + (if (i =? j + s)%nat then x else 0)) (seq s (length r))) = row_comb a r + x * a j.
Proof.
  induction r as [|y r IH]; intros a j s Hj; [cbn in Hj; lia|]. cbn [length seq map row_comb].
  rewrite Nat.sub_diag. change (nth 0 (y :: r) 0) with y. destruct j as [|j].
  - rewrite Nat.add_0_l, Nat.eqb_refl.
    assert (E : map (fun i => nth (i - s) (y :: r) 0 + (if (i =? s)%nat then x else 0)) (seq (S s) (length r)) = r).
    { apply nth_ext with (d := 0) (d' := 0); [rewrite map_length, seq_length; reflexivity|]. intros i Hi. rewrite map_length, seq_length in Hi.
      set (g := fun i => nth (i - s) (y :: r) 0 + (if (i =? s)%nat then x else 0)).
      rewrite (nth_indep _ 0 (g 0%nat)) by (rewrite map_length, seq_length; exact Hi). rewrite map_nth, seq_nth by exact Hi. unfold g.
      replace (S s + i - s)%nat with (S i) by lia. cbn [nth]. replace (S s + i =? s)%nat with false by (symmetry; apply Nat.eqb_neq; lia). ring. }
    rewrite E. ring.
  - replace (s =? S j + s)%nat with false by (symmetry; apply Nat.eqb_neq; lia).
    assert (E : map (fun i => nth (i - s) (y :: r) 0 + (if (i =? S j + s)%nat then x else 0)) (seq (S s) (length r))
              = map (fun i => nth (i - S s) r 0 + (if (i =? j + S s)%nat then x else 0)) (seq (S s) (length r))).
    { apply map_ext_in. intros i Hi. apply in_seq in Hi. replace (i - s)%nat with (S (i - S s)) by lia.
      replace (j + S s)%nat with (S j + s)%nat by lia. reflexivity. }
    rewrite E, (IH (fun i => a (S i)) j (S s)) by (cbn in Hj; lia). ring.
Qed.
Lemma dotv_nudge M k j x a (c : view) : NoDup (map fst c) -> In (k, a) c -> (j < length (a_data a))%nat ->
  dotv M (nudge keq k j x c) = dotv M c + x * M k j.
Proof.
  induction c as [|[k' a'] c IH]; intros Hnd Hi Hj; [destruct Hi|]. cbn in Hnd. inversion Hnd as [|? ? H1 H2]; subst.
  unfold nudge. cbn [map dotv fst snd]. fold (nudge keq k j x c). destruct Hi as [E|Hi].
  - injection E as -> ->. rewrite (keq_t keq Hk), nudge_none by exact H1. cbn [a_data].
    pose proof (row_comb_nudge x (a_data a) (M k) j 0 Hj) as B.
    rewrite (map_ext _ (fun i => nth i (a_data a) 0 + (if (i =? j)%nat then x else 0))) in B by (intros i; rewrite Nat.sub_0_r, Nat.add_0_r; reflexivity).
    rewrite B. ring.
  - rewrite (keq_f keq Hk); [rewrite (IH H2 Hi Hj); ring|]. intros ->. apply H1, (in_map fst _ _ Hi).
Qed.
Lemma deriveD_ok (c : view) : differentiatesD keq (deriveD keq) c.
Proof.
  intros res m D c' Hm Hc H. unfold jac_of, deriveD. rewrite (Hm c' Hc). apply map_ext_in. intros [k a] Hi. f_equal. unfold block. cbn [fst snd]. f_equal.
  rewrite !flat_map_concat_map. f_equal. apply map_ext_in. intros r Hr. apply in_seq in Hr. apply map_ext_in. intros j Hj. apply in_seq in Hj.
  apply is_derive_unique, (H r k a j); [lia|exact Hi|lia].
Qed.

(** ** the residuals, one for each equation and point *)
Definition jobs (eqs : list neqn) : list (neqn * R) := flat_map (fun e => map (pair e) (n_pts e)) eqs.
Definition job0 : neqn * R := (NEqn [] [] [] [] (fun _ => 0), 0).
Lemma in_jobs eqs e t : In (e, t) (jobs eqs) <-> In e eqs /\ In t (n_pts e).
Proof.
  unfold jobs. rewrite in_flat_map. split.
  - intros (e' & He & H). apply in_map_iff in H as (t' & E & Ht). injection E as -> ->. auto.
  - intros [He Ht]. exists e. split; [exact He|]. apply in_map, Ht.
Qed.
Definition residN (eqs : list neqn) (y : nat -> R -> R) : list R := map (fun p => nonlin_at (fst p) y (snd p) - n_q (fst p) (snd p)) (jobs eqs).

Section Form.
Context (c0 : view) (Hn : NoDup (map fst c0)).
Definition goodN (fs : list sfun) (eqs : list neqn) (E : nat) : Prop := goodS jvp keq c0 fs (parts eqs) E.
Lemma goodN_in fs eqs E e ts : goodN fs eqs E -> In e eqs -> In ts [n_lin e; n_a e; n_b e] ->
  forall t, In t ts -> (fst t < length fs)%nat /\ (length (snd t) <= S E)%nat.
Proof.
  intros [_ H] He Hts t Ht. destruct Hts as [<-|[<-|[<-|[]]]].
  - apply (H (SEqn (n_pts e) (n_lin e) (n_q e)) t); [|exact Ht]. apply in_flat_map. exists e. split; [exact He|left; reflexivity].
  - apply (H (SEqn (n_pts e) (n_a e) (fun _ => 0)) t); [|exact Ht]. apply in_flat_map. exists e. split; [exact He|right; left; reflexivity].
  - apply (H (SEqn (n_pts e) (n_b e) (fun _ => 0)) t); [|exact Ht]. apply in_flat_map. exists e. split; [exact He|right; right; left; reflexivity].
Qed.
Lemma eqN_ok fs eqs E c e : goodN fs eqs E -> same_form c0 c -> In e eqs ->
  eqN jvp keq c fs e = Some (map (fun t => nonlin_at e (Yc jvp keq c fs) t - n_q e t) (n_pts e)).
Proof.
  intros G Hc He. pose proof (goodN_in fs eqs E e) as I. unfold eqN.
  rewrite !(sumS_ok jvp keq c0 fs E c _ (n_pts e) (proj1 G) Hc); try (eapply I; [exact G|exact He|cbn; tauto]). cbn [bind]. f_equal.
  induction (n_pts e) as [|t xs IH]; [reflexivity|]. cbn [map combine fst snd]. rewrite IH. reflexivity.
Qed.
Lemma residualN_ok fs eqs E c : goodN fs eqs E -> same_form c0 c -> residualN jvp keq c fs eqs = Some (residN eqs (Yc jvp keq c fs)).
Proof.
  intros G Hc. unfold residualN.
  assert (M : mapM (eqN jvp keq c fs) eqs = Some (map (fun e => map (fun t => nonlin_at e (Yc jvp keq c fs) t - n_q e t) (n_pts e)) eqs)).
  { pose proof (fun e => eqN_ok fs eqs E c e G Hc) as H. clear G. induction eqs as [|e l IH]; [reflexivity|]. cbn [mapM map].
    rewrite (H e (or_introl eq_refl)). cbn [bind]. rewrite IH by (intros e' He'; apply H; right; exact He'). reflexivity. }
  rewrite M. cbn [bind]. f_equal. unfold residN, jobs. clear. induction eqs as [|e l IH]; [reflexivity|].
  cbn [map concat flat_map]. rewrite IH, map_app, map_map. reflexivity.
Qed.

Lemma choose_nat {A} (d : A) (P : nat -> A -> Prop) m : (forall i, (i < m)%nat -> exists a, P i a) -> exists f, forall i, (i < m)%nat -> P i (f i).
Proof.
  induction m as [|m IH]; intros H; [exists (fun _ => d); intros; lia|].
  destruct IH as (f & Hf); [intros; apply H; lia|]. destruct (H m (Nat.lt_succ_diag_r m)) as (a & Ha).
  exists (fun i => if (i =? m)%nat then a else f i). intros i Hi. destruct (Nat.eqb_spec i m) as [->|Hne]; [exact Ha|]. apply Hf. lia.
Qed.
(** each of the three expressions of each residual is affine in the entries *)
Lemma rows_ok fs eqs E (sel : neqn -> list (nat * list (R -> R))) : goodN fs eqs E -> (forall e, In (sel e) [n_lin e; n_a e; n_b e]) ->
  exists (M : nat -> K -> nat -> R) (b : nat -> R), forall i, (i < length (jobs eqs))%nat -> forall c, same_form c0 c ->
    system_at (sel (fst (nth i (jobs eqs) job0))) (Yc jvp keq c fs) (snd (nth i (jobs eqs) job0)) = dotv (M i) c + b i.
Proof.
  intros G Hsel.
  destruct (choose_nat ((fun _ _ => 0), 0) (fun i (p : (K -> nat -> R) * R) => forall c, same_form c0 c ->
    system_at (sel (fst (nth i (jobs eqs) job0))) (Yc jvp keq c fs) (snd (nth i (jobs eqs) job0)) = dotv (fst p) c + snd p) (length (jobs eqs))) as (f & Hf).
  - intros i Hi. destruct (nth i (jobs eqs) job0) as [e t] eqn:Ei. cbn [fst snd].
    assert (Hin : In (e, t) (jobs eqs)) by (rewrite <- Ei; apply nth_In, Hi). apply in_jobs in Hin as [He _].
    destruct (system_aff jvp keq Hk c0 Hn fs E (sel e) (proj1 G) (fun q Hq => proj1 (goodN_in fs eqs E e (sel e) G He (Hsel e) q Hq))) as (M & b & H).
    exists (M t, b t). intros c Hc. apply H, Hc.
  - exists (fun i => fst (f i)), (fun i => snd (f i)). intros i Hi c Hc. apply (Hf i Hi c Hc).
Qed.
(** derivatives of the functions are affine in the entries *)
Lemma good_aff_n f E e t : good jvp keq c0 f E -> exists (M : K -> nat -> R) (b : R),
  forall c, same_form c0 c -> Derive_n (Ysem jvp keq c f) e t = dotv M c + b.
Proof.
  intros (n & h & G). pose proof (fun c s Hc => Ysem_is jvp keq c0 f n E h c s G Hc) as EE. destruct G as [H1 H2 H3 H4 H5 H6 H7].
  destruct (Yv_aff keq Hk c0 Hn f n h H2 H6 H7 e t) as (M & b & H). exists M, b. intros c Hc. rewrite <- (H c Hc).
  rewrite (Derive_n_ext _ _ e t (fun s => EE c s Hc)). apply (Yv_derive keq f h H3 H5).
Qed.
End Form.

(** ** differences of smooth functions *)
Lemma odeF_minus y z t co : smoothF y -> smoothF z -> forall e, odeF_from e co (fun s => y s - z s) t = odeF_from e co y t - odeF_from e co z t.
Proof.
  intros Hy Hz. induction co as [|k co IH]; intros e; cbn [odeF_from]; [ring|]. rewrite IH.
  rewrite Derive_n_minus; [ring| |]; exists (mkposreal 1 Rlt_0_1); intros s _ i _; [apply Hy|apply Hz].
Qed.
Lemma system_minus ts (y z : nat -> R -> R) t : (forall p, In p ts -> smoothF (y (fst p)) /\ smoothF (z (fst p))) ->
  system_at ts (fun i s => y i s - z i s) t = system_at ts y t - system_at ts z t.
Proof.
  induction ts as [|p ts IH]; intros H; cbn [system_at]; [ring|]. rewrite IH by (intros; apply H; right; assumption).
  unfold odeF. rewrite odeF_minus by (apply H; left; reflexivity). ring.
Qed.
Lemma smooth_derive y e : smoothF y -> smoothF (Derive_n y e).
Proof.
  intros Hy [|k] t; [exact I|]. cbn. apply (ex_derive_ext (Derive_n y (k + e))); [intros s; symmetry; apply Derive_n_comp|].
  apply (Hy (S (k + e)) t).
Qed.
End Sys.
