(** Proofs about scripts for systems of linear differential equations (C108). *)
From Coq Require Import List Arith Lia Reals Lra.
From Coquelicot Require Import Coquelicot.
From Verif Require Import Base Numbers ModelBFPy SpecBasis ModelUtfc ModelOde SpecOde ProofOde ModelOdeAny SpecOdeAny ProofOdeAny
  ModelDict SpecDict ProofDict ModelSolveDict SpecSolveDict ProofSolveDict ModelOdeSys SpecOdeSys.
Import ListNotations.
Open Scope R_scope.
Local Notation length := List.length.

Section Sys.
Context (jvp : (R -> R) -> R -> R -> R) {K : Type} (keq : K -> K -> bool) (Hk : keq_ok keq).
Notation view := (list (K * @arr R)).
Notation sfun := (sfun (K:=K)).

(** ** affine functions of a dictionary *)
Fixpoint dotv (M : K -> nat -> R) (c : view) : R :=
  match c with [] => 0 | p :: c => row_comb (M (fst p)) (a_data (snd p)) + dotv M c end.
Lemma row_comb_add a b r : row_comb (fun i => a i + b i) r = row_comb a r + row_comb b r.
Proof. revert a b. induction r as [|x r IH]; intros a b; cbn [row_comb]; [ring|]. rewrite (IH (fun i => a (S i)) (fun i => b (S i))). ring. Qed.
Lemma row_comb_mul k a r : row_comb (fun i => k * a i) r = k * row_comb a r.
Proof. revert a. induction r as [|x r IH]; intros a; cbn [row_comb]; [ring|]. rewrite (IH (fun i => a (S i))). ring. Qed.
Lemma row_comb_nil a r : (forall i, a i = 0) -> row_comb a r = 0.
Proof. revert a. induction r as [|x r IH]; intros a H; cbn [row_comb]; [ring|]. rewrite H, IH by (intros; apply H). ring. Qed.
Lemma row_comb_ext' a b r : (forall i, a i = b i) -> row_comb a r = row_comb b r.
Proof. revert a b. induction r as [|x r IH]; intros a b H; cbn [row_comb]; [ring|]. rewrite H, (IH (fun i => a (S i)) (fun i => b (S i))) by (intros; apply H). ring. Qed.
Lemma row_comb_swap r : forall s, length r = length s -> row_comb (fun j => nth j r 0) s = row_comb (fun j => nth j s 0) r.
Proof. induction r as [|x r IH]; intros [|y s] H; try discriminate; [reflexivity|]. cbn [row_comb nth]. rewrite IH by (cbn in H; lia). ring. Qed.

Lemma dotv_add M M' c : dotv (fun k j => M k j + M' k j) c = dotv M c + dotv M' c.
Proof. induction c as [|p c IH]; cbn [dotv]; [ring|]. rewrite IH, row_comb_add. ring. Qed.
Lemma dotv_mul x M c : dotv (fun k j => x * M k j) c = x * dotv M c.
Proof. induction c as [|p c IH]; cbn [dotv]; [ring|]. rewrite IH, row_comb_mul. ring. Qed.
Lemma dotv_zero M (c : view) : (forall k, In k (map fst c) -> forall j, M k j = 0) -> dotv M c = 0.
Proof.
  induction c as [|p c IH]; intros H; cbn [dotv]; [reflexivity|]. rewrite IH by (intros; apply H; right; assumption).
  rewrite row_comb_nil by (intros; apply H; left; reflexivity). ring.
Qed.

(** entries of a dictionary *)
Definition get (c : view) (k : K) : nat -> R := match v_get keq c k with Some a => fun i => nth i (a_data a) 0 | None => fun _ => 0 end.
Lemma keq_f a b : a <> b -> keq a b = false.
Proof. intros H. destruct (keq a b) eqn:E; [|reflexivity]. apply Hk in E. contradiction. Qed.
Lemma keq_t a : keq a a = true. Proof. apply Hk; reflexivity. Qed.
Lemma form_get (c c' : view) k a : same_form c c' -> v_get keq c k = Some a -> exists a', v_get keq c' k = Some a' /\ a_shape a' = a_shape a /\ wf a'.
Proof.
  intros (H1 & H2 & H3). revert c H1 H2. induction c' as [|[k' a'] c' IH]; intros [|[k0 a0] c] H1 H2 E; try discriminate.
  cbn in H1, H2. injection H1 as -> H1. injection H2 as H2' H2. inversion H3; subst.
  unfold v_get in *. cbn [find fst] in *. destruct (keq k0 k); cbn in *.
  - injection E as <-. eexists. split; [reflexivity|]. split; assumption.
  - apply (IH H5 c); assumption.
Qed.
Lemma get_in (c : view) k a : NoDup (map fst c) -> In (k, a) c -> forall i, get c k i = nth i (a_data a) 0.
Proof. intros H1 H2 i. unfold get. rewrite (v_get_in keq Hk c k a H1 H2). reflexivity. Qed.
Lemma v_get_split (c : view) k a : v_get keq c k = Some a -> exists c1 c2, c = c1 ++ (k, a) :: c2.
Proof.
  unfold v_get. intros E. destruct (find (fun p => keq (fst p) k) c) as [p|] eqn:F; [|discriminate].
  injection E as <-. apply find_some in F as [F1 F2]. apply Hk in F2. subst k.
  apply in_split in F1 as (c1 & c2 & ->). exists c1, c2. destruct p; reflexivity.
Qed.
Lemma dotv_app M c1 c2 : dotv M (c1 ++ c2) = dotv M c1 + dotv M c2.
Proof. induction c1 as [|p c IH]; cbn [dotv app]; [ring|]. rewrite IH. ring. Qed.
Lemma dotv_one (c : view) k a r : NoDup (map fst c) -> v_get keq c k = Some a -> length r = length (a_data a) ->
  dotv (fun k' j => if keq k' k then nth j r 0 else 0) c = row_comb (get c k) r.
Proof.
  intros Hn E Hr. assert (G : get c k = fun i => nth i (a_data a) 0) by (unfold get; rewrite E; reflexivity).
  rewrite G. destruct (v_get_split _ _ _ E) as (c1 & c2 & ->). rewrite map_app in Hn. cbn [map fst] in Hn.
  apply NoDup_remove_2 in Hn. rewrite dotv_app. cbn [dotv fst snd].
  rewrite (dotv_zero _ c1), (dotv_zero _ c2).
  - rewrite (row_comb_ext' _ (fun j => nth j r 0)) by (intros; rewrite keq_t; reflexivity). rewrite row_comb_swap by exact Hr. ring.
  - intros k' H j. rewrite keq_f; [reflexivity|]. intros ->. apply Hn, in_or_app. right; exact H.
  - intros k' H j. rewrite keq_f; [reflexivity|]. intros ->. apply Hn, in_or_app. left; exact H.
Qed.

Section Form.
Context (c0 : view) (Hn : NoDup (map fst c0)).
Definition vaff (g : view -> R) : Type := {M : K -> nat -> R & {b : R | forall c, same_form c0 c -> g c = dotv M c + b}}.
Lemma vaff_const k : vaff (fun _ => k).
Proof. exists (fun _ _ => 0), k. intros c _. rewrite dotv_zero by reflexivity. ring. Qed.
Lemma vaff_plus f g : vaff f -> vaff g -> vaff (fun c => f c + g c).
Proof. intros (M & b & H) (M' & b' & H'). exists (fun k j => M k j + M' k j), (b + b'). intros c Hc. rewrite dotv_add, H, H' by exact Hc. ring. Qed.
Lemma vaff_scal k f : vaff f -> vaff (fun c => k * f c).
Proof. intros (M & b & H). exists (fun k' j => k * M k' j), (k * b). intros c Hc. rewrite dotv_mul, H by exact Hc. ring. Qed.
Lemma vaff_ext f g : (forall c, same_form c0 c -> f c = g c) -> vaff f -> vaff g.
Proof. intros E (M & b & H). exists M, b. intros c Hc. rewrite <- E, H by exact Hc. reflexivity. Qed.
Lemma form_nodup c : same_form c0 c -> NoDup (map fst c).
Proof. intros (-> & _). exact Hn. Qed.
Lemma vaff_row k a n r : v_get keq c0 k = Some a -> a_shape a = [n] -> length r = n -> vaff (fun c => row_comb (get c k) r).
Proof.
  intros E Es Hr. exists (fun k' j => if keq k' k then nth j r 0 else 0), 0. intros c Hc.
  destruct (form_get _ _ _ _ Hc E) as (a' & E' & Es' & W). rewrite (dotv_one c k a' r (form_nodup c Hc) E'); [ring|].
  rewrite W, Es', Es. cbn. lia.
Qed.

(** ** one function *)
Definition val_of (c : view) (v : cval (K:=K)) : R := match v with Given x => x | Entry k => get c k 0 end.
Definition at_view (c : view) (s : scond (K:=K)) : cond := Cond (sc_ord s) (sc_pt s) (val_of c (sc_val s)).
Definition has (k : K) (n : nat) : Prop := exists a, v_get keq c0 k = Some a /\ a_shape a = [n].

Section Fun.
Context (f : sfun) (n E : nat) (h : nat -> R -> list R).
Hypothesis HH : forall xs e, (e <= E)%nat -> utfc_H ROps RFun jvp (f_u f) xs e false = Some (Mat (length xs) n (map (h e) xs)).
Hypothesis Hl : forall e x, length (h e x) = n.
Hypothesis Hd : forall a e x, is_derive (fun t => row_comb a (h e t)) x (row_comb a (h (S e) x)).
Hypothesis Hcs : forall s, In s (f_cs f) -> (sc_ord s <= E)%nat.
Hypothesis Hphi : switchingF (map plain (f_cs f)) (f_phi f).
Hypothesis Hkey : has (f_key f) n.
Hypothesis Hent : forall s k, In s (f_cs f) -> sc_val s = Entry k -> has k 1.

Lemma pick_ok c : same_form c0 c -> pick_f jvp keq c f = Some (get c (f_key f), map (at_view c) (f_cs f)).
Proof.
  intros Hc. unfold pick_f, width. rewrite HH by lia. cbn [bind mc].
  destruct Hkey as (a & Ea & Es). destruct (form_get _ _ _ _ Hc Ea) as (a' & Ea' & Es' & _).
  unfold coeffs. rewrite Ea'. cbn [bind]. rewrite Es', Es, Nat.eqb_refl. cbn [bind].
  assert (G : conds keq c (f_cs f) = Some (map (at_view c) (f_cs f))).
  { unfold conds. clear Hcs Hphi. induction (f_cs f) as [|s l IH]; [reflexivity|]. cbn [mapM map].
    assert (V : cond_val keq c (sc_val s) = Some (val_of c (sc_val s))).
    { unfold cond_val, val_of. destruct (sc_val s) as [v|k] eqn:Ev; [reflexivity|].
      destruct (Hent s k (or_introl eq_refl) Ev) as (b & Eb & Sb). destruct (form_get _ _ _ _ Hc Eb) as (b' & Eb' & Sb' & W).
      unfold get. rewrite Eb'. cbn [bind]. rewrite Sb', Sb. unfold wf in W. rewrite Sb', Sb in W. cbn in W.
      destruct (a_data b') as [|x l']; [discriminate|reflexivity]. }
    rewrite V. cbn [bind]. rewrite IH by (intros; eapply Hent; [right|]; eassumption). reflexivity. }
  rewrite G. cbn [bind]. unfold get. rewrite Ea'. reflexivity.
Qed.
Lemma at_ord c : forall k, In k (map (at_view c) (f_cs f)) -> (c_ord k <= E)%nat.
Proof. intros k Hk'. apply in_map_iff in Hk' as (s & <- & Hs). apply Hcs, Hs. Qed.
Lemma at_phi c : switchingF (map (at_view c) (f_cs f)) (f_phi f).
Proof.
  destruct Hphi as (H1 & H2 & H3). rewrite map_length in H1. split; [rewrite map_length; exact H1|]. split; [exact H2|].
  intros i j k p Hi Hj. rewrite nth_error_map in Hi. destruct (nth_error (f_cs f) i) as [s|] eqn:Es; [|discriminate].
  injection Hi as <-. apply (H3 i j (plain s) p); [rewrite nth_error_map, Es; reflexivity|exact Hj].
Qed.
Definition Yv (c : view) (e : nat) (x : R) : R := YF h (map (at_view c) (f_cs f)) (f_phi f) (get c (f_key f)) e x.
Lemma exprSys_ok c xs e : same_form c0 c -> (e <= E)%nat -> exprSys jvp keq c f xs e = Some (map (Yv c e) xs).
Proof. intros Hc He. unfold exprSys. rewrite (pick_ok c Hc). cbn [bind fst snd]. apply (exprF_ok _ _ _ _ _ _ _ HH (at_ord c)), He. Qed.
Lemma termS_ok c xs co : same_form c0 c -> (length co <= S E)%nat ->
  termS jvp keq c f xs co = Some (map (fun x => odeF co (Yv c 0) x) xs).
Proof.
  intros Hc He. unfold termS. rewrite (pick_ok c Hc). cbn [bind fst snd].
  rewrite (lhsF_ok _ _ _ _ _ _ _ HH (at_ord c)) by lia. f_equal. apply map_ext. intros x. apply (LF_ode _ _ _ Hd (at_phi c)).
Qed.
Lemma Yv_smooth c : smoothF (Yv c 0). Proof. apply (YF_smooth _ _ _ Hd (at_phi c)). Qed.
Lemma Yv_derive c e x : Derive_n (Yv c 0) e x = Yv c e x.
Proof. apply is_derive_n_unique, (YF_derive_n _ _ _ Hd (at_phi c)). Qed.
Lemma Yv_meets c : meetsS (fun k => get c k 0) f (Yv c 0).
Proof.
  intros s Hs. apply (in_map (at_view c)) in Hs. pose proof (YF_meets _ _ _ Hd (at_phi c) (get c (f_key f)) _ Hs) as H.
  unfold meets in H. cbn in H. etransitivity; [exact H|]. reflexivity.
Qed.
Lemma Yv_spanned c : spannedF jvp (f_u f) (f_phi f) (Yv c 0).
Proof. apply (YF_spanned _ _ _ _ _ _ _ HH (at_phi c)). Qed.
Lemma Yv_reach c a r y : length r = length (f_phi f) -> (forall t, y t = row_comb a (h 0%nat t) + combF r (f_phi f) t) ->
  (forall t, row_comb a (h 0%nat t) = row_comb (get c (f_key f)) (h 0%nat t)) ->
  meetsS (fun k => get c k 0) f y -> forall t, y t = Yv c 0 t.
Proof.
  intros Hr Hy Hg Hm. apply (spannedF_is _ _ _ Hd (at_phi c) (get c (f_key f)) r); [exact Hr|intros t; rewrite Hy, Hg; reflexivity|].
  intros k Hk'. apply in_map_iff in Hk' as (s & <- & Hs). unfold meets. cbn. rewrite (Hm s Hs). reflexivity.
Qed.

Lemma val_aff s : In s (f_cs f) -> vaff (fun c => val_of c (sc_val s)).
Proof.
  intros Hs. destruct (sc_val s) as [v|k] eqn:Ev; [exact (vaff_const v)|].
  pose proof (Hent s k Hs Ev) as Hx.
  destruct (v_get keq c0 k) as [a|] eqn:Ea; [|exfalso; destruct Hx as (a & Ea' & _); congruence].
  assert (Es : a_shape a = [1%nat]) by (destruct Hx as (a' & Ea' & Es); congruence).
  apply (vaff_ext (fun c => row_comb (get c k) [1])); [intros c _; cbn; ring|].
  apply (vaff_row k a 1 [1] Ea Es eq_refl).
Qed.
Lemma coef_aff r : length r = n -> vaff (fun c => row_comb (get c (f_key f)) r).
Proof.
  intros Hr. destruct (v_get keq c0 (f_key f)) as [a|] eqn:Ea; [|exfalso; destruct Hkey as (a & Ea' & _); congruence].
  assert (Es : a_shape a = [n]) by (destruct Hkey as (a' & Ea' & Es); congruence).
  apply (vaff_row _ a n r Ea Es Hr).
Qed.
Lemma Yv_aff e x : vaff (fun c => Yv c e x).
Proof.
  unfold Yv, YF. apply vaff_plus; [apply coef_aff, Hl|].
  assert (G : forall cs phi, (forall s, In s cs -> In s (f_cs f)) ->
    vaff (fun c => switchF phi (map (at_view c) cs) (map (KF h (get c (f_key f))) (map (at_view c) cs)) e x)).
  { clear Hphi. induction cs as [|s cs IH]; intros [|p phi] Hi; cbn [switchF map]; try exact (vaff_const 0).
    apply vaff_plus; [|apply IH; intros; apply Hi; right; assumption].
    apply vaff_scal. cbn [c_val at_view].
    apply (vaff_ext (fun c => val_of c (sc_val s) + -1 * row_comb (get c (f_key f)) (h (sc_ord s) (sc_pt s)))).
    - intros c _. unfold KF. cbn. ring.
    - apply vaff_plus; [apply val_aff, Hi; left; reflexivity|]. apply vaff_scal, coef_aff, Hl. }
  apply G. auto.
Qed.
Lemma ode_aff co x : forall e, vaff (fun c => odeF_from e co (Yv c 0) x).
Proof.
  induction co as [|k co IH]; intros e; cbn [odeF_from]; [exact (vaff_const 0)|]. apply vaff_plus; [|apply IH].
  apply vaff_scal. apply (vaff_ext (fun c => Yv c e x)); [intros c _; symmetry; apply Yv_derive|apply Yv_aff].
Qed.
End Fun.

Record goodh (f : sfun) (n E : nat) (h : nat -> R -> list R) : Prop := {
  g_H : forall xs e, (e <= E)%nat -> utfc_H ROps RFun jvp (f_u f) xs e false = Some (Mat (length xs) n (map (h e) xs));
  g_l : forall e x, length (h e x) = n;
  g_d : forall a e x, is_derive (fun t => row_comb a (h e t)) x (row_comb a (h (S e) x));
  g_cs : forall s, In s (f_cs f) -> (sc_ord s <= E)%nat;
  g_phi : switchingF (map plain (f_cs f)) (f_phi f);
  g_key : has (f_key f) n;
  g_ent : forall s k, In s (f_cs f) -> sc_val s = Entry k -> has k 1 }.
Definition good (f : sfun) (E : nat) : Prop := exists n h, goodh f n E h.

(** the function a dictionary stands for *)
Definition Ysem (c : view) (f : sfun) (t : R) : R := match exprSys jvp keq c f [t] 0 with Some (v :: _) => v | _ => 0 end.
Definition Yc (c : view) (fs : list sfun) (i : nat) (t : R) : R := match nth_error fs i with Some f => Ysem c f t | None => 0 end.
Lemma Ysem_is f n E h c t : goodh f n E h -> same_form c0 c -> Ysem c f t = Yv f h c 0 t.
Proof. intros [H1 H2 H3 H4 H5 H6 H7] Hc. unfold Ysem. rewrite (exprSys_ok f n E h H1 H4 H6 H7 c [t] 0 Hc) by lia. reflexivity. Qed.
Lemma good_facts f E c : good f E -> same_form c0 c ->
  (forall e t, (e <= E)%nat -> exprSys jvp keq c f [t] e = Some [Derive_n (Ysem c f) e t]) /\
  smoothF (Ysem c f) /\ spannedF jvp (f_u f) (f_phi f) (Ysem c f) /\ meetsS (fun k => get c k 0) f (Ysem c f) /\
  forall xs co, (length co <= S E)%nat -> termS jvp keq c f xs co = Some (map (odeF co (Ysem c f)) xs).
Proof.
  intros (n & h & G) Hc. assert (EE : forall t, Yv f h c 0 t = Ysem c f t) by (intros; symmetry; apply (Ysem_is f n E h c t G Hc)).
  destruct G as [H1 H2 H3 H4 H5 H6 H7]. split.
  { intros e t He. rewrite (exprSys_ok f n E h H1 H4 H6 H7 c [t] e Hc He). cbn [map].
    rewrite <- (Derive_n_ext _ _ e t EE), (Yv_derive f h H3 H5). reflexivity. }
  split. { intros e t. apply (ex_derive_n_ext _ _ e t EE). apply (Yv_smooth f h H3 H5). }
  split. { destruct (Yv_spanned f n E h H1 H5 c) as (a & r & Hr & Ht). exists a, r. split; [exact Hr|]. intros t. rewrite <- EE. apply Ht. }
  split. { intros s Hs. rewrite <- (Derive_n_ext _ _ _ _ EE). apply (Yv_meets f h H3 H5 c s Hs). }
  intros xs co Hco. rewrite (termS_ok f n E h H1 H3 H4 H5 H6 H7 c xs co Hc Hco). f_equal. apply map_ext. intros x.
  apply (odeF_ext _ _ x co EE).
Qed.
Lemma good_aff f E co : good f E -> exists (M : R -> K -> nat -> R) (b : R -> R),
  forall c x, same_form c0 c -> odeF co (Ysem c f) x = dotv (M x) c + b x.
Proof.
  intros (n & h & G). pose proof (fun c t Hc => Ysem_is f n E h c t G Hc) as EE. destruct G as [H1 H2 H3 H4 H5 H6 H7].
  pose (F x := ode_aff f n h H2 H3 H5 H6 H7 co x 0).
  exists (fun x => projT1 (F x)), (fun x => proj1_sig (projT2 (F x))). intros c x Hc.
  rewrite <- (proj2_sig (projT2 (F x)) c Hc). apply (odeF_ext _ _ x co). intros s. apply EE, Hc.
Qed.

(** ** the system *)
Definition goodS (fs : list sfun) (eqs : list seqn) (E : nat) : Prop :=
  (forall f, In f fs -> good f E) /\
  forall e t, In e eqs -> In t (e_terms e) -> (fst t < length fs)%nat /\ (length (snd t) <= S E)%nat.
Definition resid (fs : list sfun) (eqs : list seqn) (y : nat -> R -> R) : list R :=
  flat_map (fun e => map (fun t => system_at (e_terms e) y t - e_q e t) (e_pts e)) eqs.
Lemma sumS_ok fs E c terms xs : (forall f, In f fs -> good f E) -> same_form c0 c ->
  (forall t, In t terms -> (fst t < length fs)%nat /\ (length (snd t) <= S E)%nat) ->
  sumS jvp keq c fs terms xs = Some (map (system_at terms (Yc c fs)) xs).
Proof.
  intros Hf Hc. induction terms as [|[i co] terms IH]; intros Ht; [reflexivity|]. cbn [sumS fst snd].
  destruct (Ht (i, co) (or_introl eq_refl)) as [Hi Hco]. cbn in Hi, Hco.
  destruct (nth_error fs i) as [f|] eqn:Ef; [|apply nth_error_None in Ef; lia]. cbn [bind].
  destruct (good_facts f E c (Hf f (nth_error_In _ _ Ef)) Hc) as (_ & _ & _ & _ & T). rewrite T by exact Hco. cbn [bind].
  rewrite IH by (intros; apply Ht; right; assumption). cbn [bind]. f_equal.
  assert (Z : Yc c fs i = Ysem c f) by (unfold Yc; rewrite Ef; reflexivity).
  clear - Z. induction xs as [|x xs IH]; [reflexivity|]. cbn [map combine fst snd system_at]. rewrite IH.
  f_equal. f_equal. change (odeF co (Ysem c f) x = odeF co (Yc c fs i) x). rewrite Z. reflexivity.
Qed.
Lemma residualS_ok fs eqs E c : goodS fs eqs E -> same_form c0 c -> residualS jvp keq c fs eqs = Some (resid fs eqs (Yc c fs)).
Proof.
  intros [Hf He] Hc. unfold residualS.
  assert (G : mapM (eqS jvp keq c fs) eqs = Some (map (fun e => map (fun t => system_at (e_terms e) (Yc c fs) t - e_q e t) (e_pts e)) eqs)).
  { induction eqs as [|e eqs IH]; [reflexivity|]. cbn [mapM map]. unfold eqS at 1.
    rewrite (sumS_ok fs E c (e_terms e) (e_pts e) Hf Hc (fun t => He e t (or_introl eq_refl))). cbn [bind].
    rewrite IH by (intros; apply (He e0); [right|]; assumption). cbn [bind]. f_equal. f_equal. apply combine_map_l. }
  rewrite G. cbn [bind]. unfold resid. rewrite flat_map_concat_map. reflexivity.
Qed.
Lemma system_aff fs E terms : (forall f, In f fs -> good f E) -> (forall t, In t terms -> (fst t < length fs)%nat) ->
  exists (M : R -> K -> nat -> R) (b : R -> R), forall c x, same_form c0 c -> system_at terms (Yc c fs) x = dotv (M x) c + b x.
Proof.
  intros Hf. induction terms as [|[i co] terms IH]; intros Ht.
  - exists (fun _ _ _ => 0), (fun _ => 0). intros c x _. rewrite dotv_zero by reflexivity. cbn. ring.
  - destruct IH as (M & b & H); [intros; apply Ht; right; assumption|].
    pose proof (Ht (i, co) (or_introl eq_refl)) as Hi. cbn in Hi.
    destruct (nth_error fs i) as [f|] eqn:Ef; [|apply nth_error_None in Ef; lia].
    destruct (good_aff f E co (Hf f (nth_error_In _ _ Ef))) as (M' & b' & H').
    exists (fun x k j => M' x k j + M x k j), (fun x => b' x + b x). intros c x Hc. cbn [system_at fst snd].
    rewrite dotv_add, H by exact Hc.
    assert (Z : odeF co (Yc c fs i) x = dotv (M' x) c + b' x).
    { rewrite <- (H' c x Hc). apply (odeF_ext _ _ x co). intros s. unfold Yc. rewrite Ef. reflexivity. }
    rewrite Z. ring.
Qed.
Lemma resid_aff fs eqs E : goodS fs eqs E -> exists rows : list ((K -> nat -> R) * R),
  forall c, same_form c0 c -> resid fs eqs (Yc c fs) = map (fun r => dotv (fst r) c + snd r) rows.
Proof.
  intros [Hf He]. induction eqs as [|e eqs IH]; [exists []; reflexivity|].
  destruct IH as (rows & H); [intros; apply (He e0); [right|]; assumption|].
  destruct (system_aff fs E (e_terms e) Hf (fun t Ht => proj1 (He e t (or_introl eq_refl) Ht))) as (M & b & H').
  exists (map (fun x => (M x, b x - e_q e x)) (e_pts e) ++ rows). intros c Hc. unfold resid. cbn [flat_map].
  fold (resid fs eqs (Yc c fs)). rewrite map_app, map_map, H by exact Hc. f_equal. apply map_ext. intros x. cbn.
  rewrite (H' c x Hc). ring.
Qed.

(** ** every allowed family of functions is reached *)
Lemma choose_keys {A} (d : K -> A) (fs : list sfun) : forall (P : nat -> sfun -> A -> Prop), NoDup (map f_key fs) ->
  (forall i f, nth_error fs i = Some f -> exists a, P i f a) ->
  exists B : K -> A, (forall i f, nth_error fs i = Some f -> P i f (B (f_key f))) /\ forall k, ~ In k (map f_key fs) -> B k = d k.
Proof.
  induction fs as [|f fs IH]; intros P Hnd H.
  - exists d. split; [intros [|i] f E; discriminate|reflexivity].
  - inversion Hnd as [|? ? Hf Hnd']; subst. destruct (H 0%nat f eq_refl) as (a & Ha).
    destruct (IH (fun i => P (S i)) Hnd' (fun i g E => H (S i) g E)) as (B & H1 & H2).
    exists (fun k => if keq k (f_key f) then a else B k). split.
    + intros [|i] g E; cbn in E.
      * injection E as <-. rewrite keq_t. exact Ha.
      * rewrite keq_f; [apply H1, E|]. intros EE. apply Hf. rewrite <- EE. apply in_map, (nth_error_In _ _ E).
    + intros k Hk'. cbn in Hk'. rewrite keq_f; [apply H2; tauto|]. intros ->. tauto.
Qed.
Definition fill (B : K -> nat -> R) : view := map (fun p => (fst p, Arr_ (a_shape (snd p)) (map (B (fst p)) (seq 0 (nprod (a_shape (snd p))))))) c0.
Lemma fill_form B : same_form c0 (fill B).
Proof.
  unfold same_form, fill. rewrite !map_map. split; [reflexivity|]. split; [reflexivity|].
  apply Forall_forall. intros p Hp. apply in_map_iff in Hp as (q & <- & _). unfold wf. cbn. rewrite map_length, seq_length. reflexivity.
Qed.
Lemma fill_get B k n i : has k n -> (i < n)%nat -> get (fill B) k i = B k i.
Proof.
  intros (a & Ea & Es) Hi. destruct (v_get_split _ _ _ Ea) as (c1 & c2 & EE).
  assert (Hin : In (k, Arr_ [n] (map (B k) (seq 0 (nprod [n])))) (fill B)).
  { unfold fill. rewrite EE. apply in_map_iff. exists (k, a). cbn. rewrite Es. split; [reflexivity|]. apply in_or_app. right; left; reflexivity. }
  rewrite (get_in _ _ _ (form_nodup _ (fill_form B)) Hin). cbn [a_data].
  rewrite (nth_indep _ 0 (B k 0%nat)) by (rewrite map_length, seq_length; cbn; lia).
  rewrite map_nth, seq_nth by (cbn; lia). reflexivity.
Qed.
Lemma row_comb_lt a b r : (forall i, (i < length r)%nat -> a i = b i) -> row_comb a r = row_comb b r.
Proof.
  revert a b. induction r as [|x r IH]; intros a b H; [reflexivity|]. cbn [row_comb]. rewrite (H 0%nat) by (cbn; lia).
  rewrite (IH (fun i => a (S i)) (fun i => b (S i))); [reflexivity|]. intros i Hi. apply H. cbn. lia.
Qed.
Lemma reached fs E (p : nat -> R -> R) : (forall f, In f fs -> good f E) -> NoDup (map f_key fs) ->
  (forall f s k, In f fs -> In s (f_cs f) -> sc_val s = Entry k -> ~ In k (map f_key fs)) ->
  allowed jvp fs p -> exists c, same_form c0 c /\ forall i f, nth_error fs i = Some f -> forall t, p i t = Ysem c f t.
Proof.
  intros Hf Hnd Hdis (val & Hp).
  destruct (choose_keys (fun k (_ : nat) => val k) fs
    (fun i f a => exists n h r, goodh f n E h /\ length r = length (f_phi f) /\ forall t, p i t = row_comb a (h 0%nat t) + combF r (f_phi f) t) Hnd)
    as (B & HB & HV).
  { intros i f Ef. destruct (Hf f (nth_error_In _ _ Ef)) as (n & h & G). destruct (Hp i f Ef) as [Hs _].
    destruct (spannedF_rows jvp (f_u f) n E h (f_phi f) (g_H _ _ _ _ G) _ Hs) as (a & r & Hr & Hy). exists a, n, h, r. auto. }
  exists (fill B). split; [apply fill_form|]. intros i f Ef t. destruct (HB i f Ef) as (n & h & r & G & Hr & Hy).
  rewrite (Ysem_is f n E h _ t G (fill_form B)). revert t.
  apply (Yv_reach f h (g_d _ _ _ _ G) (g_phi _ _ _ _ G) (fill B) (B (f_key f)) r); [exact Hr|exact Hy| |].
  - intros t. apply row_comb_lt. intros j Hj. rewrite (g_l _ _ _ _ G) in Hj. symmetry. apply (fill_get B _ n); [apply (g_key _ _ _ _ G)|exact Hj].
  - intros s Hs. destruct (Hp i f Ef) as [_ Hm]. rewrite (Hm s Hs). destruct (sc_val s) as [v|k] eqn:Ev; [reflexivity|].
    rewrite (fill_get B k 1); [|exact (g_ent _ _ _ _ G s k Hs Ev)|lia].
    rewrite HV by exact (Hdis f s k (nth_error_In _ _ Ef) Hs Ev). reflexivity.
Qed.
End Form.

(** ** the derivative of an affine function of a dictionary, by differences *)
Definition bump_arr (j : nat) (a : @arr R) : @arr R := Arr_ (a_shape a) (map (fun i => nth i (a_data a) 0 + (if (i =? j)%nat then 1 else 0)) (seq 0 (length (a_data a)))).
Definition bump (k : K) (j : nat) (c : view) : view := map (fun p => (fst p, if keq (fst p) k then bump_arr j (snd p) else snd p)) c.
Lemma bump_form c0 k j c : same_form c0 c -> same_form c0 (bump k j c).
Proof.
  intros (H1 & H2 & H3). unfold bump. split; [rewrite map_map; exact H1|]. split.
  - rewrite map_map, <- H2. apply map_ext. intros p. cbn. destruct (keq (fst p) k); reflexivity.
  - apply Forall_map. apply (Forall_impl _ (P := fun p => wf (snd p))); [|exact H3]. intros p W. cbn. destruct (keq (fst p) k); [|exact W].
    unfold wf in *. cbn. rewrite map_length, seq_length. exact W.
Qed.
Lemma row_comb_bump (a : nat -> R) r : forall j s, (j < length r)%nat ->
  row_comb a (map (fun i => nth (i - s) r 0 + (if (i =? j + s)%nat then 1 else 0)) (seq s (length r))) = row_comb a r + a j.
Proof.
  revert a. induction r as [|x r IH]; intros a j s Hj; [cbn in Hj; lia|]. cbn [length seq map row_comb].
  rewrite Nat.sub_diag. change (nth 0 (x :: r) 0) with x. destruct j as [|j].
  - cbn [Nat.add]. rewrite Nat.eqb_refl.
    assert (E : map (fun i => nth (i - s) (x :: r) 0 + (if (i =? s)%nat then 1 else 0)) (seq (S s) (length r)) = r).
    { transitivity (map (fun i => nth (i - S s) r 0) (seq (S s) (length r))).
      - apply map_ext_in. intros i Hi. apply in_seq in Hi. replace (i - s)%nat with (S (i - S s)) by lia. cbn [nth].
        destruct (Nat.eqb_spec i s); [lia|]. ring.
      - clear. generalize (S s). induction r as [|y r IH]; intros m; [reflexivity|]. cbn [length seq map]. rewrite Nat.sub_diag. change (nth 0 (y :: r) 0) with y. f_equal.
        rewrite <- (IH (S m)) at 2. apply map_ext_in. intros i Hi. apply in_seq in Hi. replace (i - m)%nat with (S (i - S m)) by lia. reflexivity. }
    rewrite E. ring.
  - destruct (Nat.eqb_spec s (S j + s)); [lia|].
    assert (E : map (fun i => nth (i - s) (x :: r) 0 + (if (i =? S j + s)%nat then 1 else 0)) (seq (S s) (length r)) =
                map (fun i => nth (i - S s) r 0 + (if (i =? j + S s)%nat then 1 else 0)) (seq (S s) (length r))).
    { apply map_ext_in. intros i Hi. apply in_seq in Hi. replace (i - s)%nat with (S (i - S s)) by lia. cbn [nth].
      replace (S j + s)%nat with (j + S s)%nat by lia. reflexivity. }
    rewrite E, IH by (cbn in Hj; lia). ring.
Qed.
Lemma bump_none k j (c : view) : ~ In k (map fst c) -> bump k j c = c.
Proof.
  intros H. unfold bump. rewrite <- (map_id c) at 2. apply map_ext_in. intros p Hp. rewrite keq_f; [destruct p; reflexivity|].
  intros <-. apply H, in_map, Hp.
Qed.
Lemma dotv_bump M k j a (c : view) : NoDup (map fst c) -> In (k, a) c -> (j < length (a_data a))%nat ->
  dotv M (bump k j c) = dotv M c + M k j.
Proof.
  induction c as [|[k' a'] c IH]; intros Hnd Hi Hj; [destruct Hi|]. cbn in Hnd. inversion Hnd as [|? ? H1 H2]; subst.
  unfold bump. cbn [map dotv fst snd]. fold (bump k j c). destruct Hi as [E|Hi].
  - injection E as -> ->. rewrite keq_t, bump_none by exact H1. cbn [bump_arr a_data].
    pose proof (row_comb_bump (M k) (a_data a) j 0 Hj) as B.
    rewrite (map_ext _ (fun i => nth i (a_data a) 0 + (if (i =? j)%nat then 1 else 0))) in B by (intros i; rewrite Nat.sub_0_r, Nat.add_0_r; reflexivity).
    rewrite B. ring.
  - rewrite keq_f; [rewrite (IH H2 Hi Hj); ring|]. intros ->. apply H1, (in_map fst _ _ Hi).
Qed.
Definition diffS (res : view -> list R) (c : view) : view :=
  map (fun p => (fst p, block (length (res c)) (fun r k j => nth r (res (bump k j c)) 0 - nth r (res c) 0) p)) c.
Lemma diffS_ok (c0 : view) res m M b : NoDup (map fst c0) ->
  (forall c, same_form c0 c -> res c = map (fun r => dotv (M r) c + b r) (seq 0 m)) ->
  forall c, same_form c0 c -> jac_of m M c (diffS res c).
Proof.
  intros Hnd H c Hc. unfold jac_of, diffS. rewrite (H c Hc), map_length, seq_length.
  apply map_ext_in. intros [k a] Hi. f_equal. unfold block. cbn [fst snd]. f_equal.
  rewrite !flat_map_concat_map. f_equal. apply map_ext_in. intros r Hr. apply in_seq in Hr. apply map_ext_in. intros j Hj. apply in_seq in Hj.
  rewrite (H _ (bump_form c0 k j c Hc)).
  assert (Hnth : forall g, nth r (map g (seq 0 m)) 0 = g r).
  { intros g. rewrite (nth_indep _ 0 (g 0%nat)) by (rewrite map_length, seq_length; lia). rewrite map_nth, seq_nth by lia. reflexivity. }
  rewrite !Hnth, (dotv_bump (M r) k j a c); [ring|rewrite (proj1 Hc); exact Hnd|exact Hi|lia].
Qed.
End Sys.
