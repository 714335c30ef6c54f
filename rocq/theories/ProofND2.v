(** Consequences: C20-C23. *)
From Coq Require Import Reals Arith Lia Lra List Bool ZArith Permutation.
From Coquelicot Require Import Coquelicot.
From Verif Require Import Base ProofBase Numbers ModelBFPy ModelBFCpp ProofTab ProofBFPy ProofBFCpp SpecBasis
  ProofH ModelND SpecND ProofND.
Import ListNotations.
Open Scope R_scope.

Lemma nd_mat_ent f dim x0 xf nC m x d full j i : ment (nd_mat f dim x0 xf nC m x d full) j i =
  if (j <? mc x)%nat then
    match nth_error (idxs dim m (md nC) full) i with
    | Some v => Some (ndterm f x0 xf dim (fun k => nth j (nth k (md x) []) 0) d v)
    | None => None
    end
  else None.
Proof.
  unfold ment, nd_mat. cbn [md]. rewrite nth_error_map_seq.
  destruct (j <? mc x)%nat; [|reflexivity]. rewrite nth_error_map.
  destruct (nth_error (idxs dim m (md nC) full) i); reflexivity.
Qed.
Lemma nd_mat_shaped f dim x0 xf nC m x d full :
  shaped (nd_mat f dim x0 xf nC m x d full) (mc x) (length (idxs dim m (md nC) full)).
Proof.
  repeat split; cbn [mr mc md nd_mat].
  - rewrite map_length. apply seq_length.
  - intros row Hr. apply in_map_iff in Hr as (j & <- & _). apply map_length.
Qed.

Lemma ndcol_entry be f x0 xf m k t d a : bounded f -> (a < m)%nat ->
  uni_entry be f (nth k x0 0) (nth k xf 0) m t d a (ndcol f x0 xf k t d a).
Proof.
  intros Hf Ha. unfold uni_entry, entry_is.
  eexists; split; [apply H1_full; lia|]. rewrite full_mat_ent. cbn [nth_error].
  rewrite fam_init_m. destruct (Nat.ltb_spec a m); [|lia]. f_equal.
  unfold ndcol, nd_ci, nd_z0, nd_zf. destruct Hf as [->|[->| ->]]; reflexivity.
Qed.

Lemma c20 be f dim x0 xf nC m full : n_args f dim x0 xf nC m ->
  exists B idx, mkn be f x0 xf nC m = Some B /\
    NoDup idx /\ (forall v, In v idx <-> admissible dim m nC full v) /\
    advertised B full = length idx /\ column_indices be f x0 xf m dim B full idx.
Proof.
  intros Hargs. destruct (mkn_ok be _ _ _ _ _ _ Hargs) as (B & EB & HB).
  pose proof Hargs as (Hf & Hd & Hm & H0 & Hxf & HC).
  exists B, (idxs dim m (md nC) full). split; [exact EB|]. split; [apply idxs_nodup|].
  split; [intros v; apply idxs_in; assumption|]. split; [apply (nbo_num _ _ _ _ _ _ _ HB)|].
  intros n x d Hx Ho. exists (nd_mat f dim x0 xf nC m x d full).
  split; [apply (Hn_ok _ _ dim x0 xf nC m _ _ _ _ n); assumption|].
  pose proof (nd_mat_shaped f dim x0 xf nC m x d full) as Hs.
  pose proof Hx as (_ & Hn & _). rewrite Hn in Hs. split; [exact Hs|].
  intros i v j Hi Hj.
  exists (fun k => ndcol f x0 xf k (nth j (nth k (md x) []) 0) (nth k d 0%nat) (nth k v 0%nat)). split.
  - intros k Hk. destruct (shaped_ent x dim n k j 0 Hx Hk Hj) as (row & Er & _ & He).
    eexists. split; [unfold ment; rewrite Er; exact He|]. apply ndcol_entry; [exact Hf|].
    apply (vecs_nth m dim); [exact Hk|]. apply nth_error_In in Hi. unfold idxs in Hi. apply filter_In in Hi. apply Hi.
  - rewrite nd_mat_ent, Hi, Hn. destruct (Nat.ltb_spec j n); [reflexivity|lia].
Qed.

(** ** counting *)
Definition bump (v : list nat) : list nat := match v with [] => [] | a :: v' => S a :: v' end.
Fixpoint cl (dim deg : nat) : list (list nat) :=
  match dim with
  | O => [[]]
  | S dim' => (fix inner (deg : nat) : list (list nat) :=
      match deg with
      | O => map (cons 0%nat) (cl dim' 0)
      | S deg' => (map (cons 0%nat) (cl dim' (S deg')) ++ map bump (inner deg'))%list
      end) deg
  end.
Lemma cl_SS dim deg : cl (S dim) (S deg) = (map (cons 0%nat) (cl dim (S deg)) ++ map bump (cl (S dim) deg))%list.
Proof. reflexivity. Qed.
Lemma cl_S0 dim : cl (S dim) 0 = map (cons 0%nat) (cl dim 0).
Proof. reflexivity. Qed.
Lemma lsum_cons (a : nat) l : list_sum (a :: l) = (a + list_sum l)%nat. Proof. reflexivity. Qed.

Lemma cl_in dim : forall deg v, In v (cl dim deg) <-> length v = dim /\ (list_sum v <= deg)%nat.
Proof.
  induction dim as [|dim IH]; intros deg v.
  - cbn [cl In]. split.
    + intros [<-|[]]. cbn; lia.
    + intros [H _]. destruct v; [left; reflexivity|discriminate].
  - revert v; induction deg as [|deg IHd]; intros v.
    + rewrite cl_S0, in_map_iff. split.
      * intros (w & <- & Hw). apply IH in Hw. rewrite lsum_cons. cbn [length]. lia.
      * intros [Hl Hs]. destruct v as [|a v]; [discriminate|]. rewrite lsum_cons in Hs. cbn in Hl.
        exists v. split; [f_equal; lia|]. apply IH. lia.
    + rewrite cl_SS, in_app_iff, !in_map_iff. split.
      * intros [(w & <- & Hw)|(w & <- & Hw)].
        -- apply IH in Hw. rewrite lsum_cons. cbn [length]. lia.
        -- apply IHd in Hw. destruct w as [|a w]; [cbn in Hw; lia|]. cbn [bump]. rewrite lsum_cons in *. cbn [length] in *. lia.
      * intros [Hl Hs]. destruct v as [|[|a] v]; [discriminate| |].
        -- left. exists v. split; [reflexivity|]. apply IH. rewrite lsum_cons in Hs. cbn in Hl. lia.
        -- right. exists (a :: v). split; [reflexivity|]. apply IHd. rewrite lsum_cons in *. cbn in *. lia.
Qed.

Lemma cl_nodup dim : forall deg, NoDup (cl dim deg).
Proof.
  assert (Hc : FinFun.Injective (cons 0%nat)) by (intros a b H; congruence).
  induction dim as [|dim IH]; intros deg.
  - cbn. constructor; [easy|constructor].
  - induction deg as [|deg IHd].
    + rewrite cl_S0. apply FinFun.Injective_map_NoDup; [exact Hc|apply IH].
    + rewrite cl_SS. 
      assert (Hn2 : NoDup (map bump (cl (S dim) deg))).
      { apply FinFun.Injective_map_NoDup; [|exact IHd].
        intros [|a v] [|b w] H; cbn in H; congruence. }
      assert (Hn1 : NoDup (map (cons 0%nat) (cl dim (S deg)))) by (apply FinFun.Injective_map_NoDup; [exact Hc|apply IH]).
      assert (Hdis : forall v, In v (map (cons 0%nat) (cl dim (S deg))) -> ~ In v (map bump (cl (S dim) deg))).
      { intros v H1 H2. apply in_map_iff in H1 as (w & <- & _). apply in_map_iff in H2 as (u & H2 & Hu).
        apply cl_in in Hu. destruct u; [cbn in Hu; lia|discriminate]. }
      revert Hdis. induction Hn1 as [|v l Hv Hn1 IHl]; cbn [app]; intros Hdis; [exact Hn2|].
      constructor.
      * rewrite in_app_iff. intros [H|H]; [contradiction|]. exact (Hdis v (or_introl eq_refl) H).
      * apply IHl. intros w Hw. apply Hdis. right; exact Hw.
Qed.

Lemma C_0 n : Binomial.C n 0 = 1.
Proof. unfold Binomial.C. rewrite Nat.sub_0_r. change (INR (fact 0)) with 1. field. apply INR_fact_neq_0. Qed.
Lemma C_n n : Binomial.C n n = 1.
Proof. unfold Binomial.C. rewrite Nat.sub_diag. change (INR (fact 0)) with 1. field. apply INR_fact_neq_0. Qed.

Lemma cl_len dim : forall deg, INR (length (cl dim deg)) = Binomial.C (deg + dim) dim.
Proof.
  induction dim as [|dim IH]; intros deg.
  - rewrite C_0. reflexivity.
  - induction deg as [|deg IHd].
    + rewrite cl_S0, map_length, IH. cbn [Nat.add]. rewrite !C_n. reflexivity.
    + rewrite cl_SS, app_length, !map_length, plus_INR, IH, IHd.
      replace (S deg + S dim)%nat with (S (S deg + dim)) by lia.
      replace (deg + S dim)%nat with (S deg + dim)%nat by lia.
      rewrite <- (pascal (S deg + dim) dim) by lia. reflexivity.
Qed.

Lemma same_len {X} (l l' : list X) : NoDup l -> NoDup l' -> (forall x, In x l <-> In x l') -> length l = length l'.
Proof.
  intros H H' He. apply Nat.le_antisymm; apply NoDup_incl_length; auto; intros x; apply He.
Qed.

Lemma c21 be f dim x0 xf nC deg : n_args f dim x0 xf nC (deg + 1) ->
  exists B, mkn be f x0 xf nC (deg + 1) = Some B /\ INR (advertised B true) = Binomial.C (deg + dim) dim.
Proof.
  intros Hargs. destruct (mkn_ok be _ _ _ _ _ _ Hargs) as (B & EB & HB).
  exists B. split; [exact EB|]. rewrite (nbo_num _ _ _ _ _ _ _ HB). rewrite <- cl_len. f_equal.
  apply same_len; [apply idxs_nodup|apply cl_nodup|].
  intros v. rewrite cl_in. destruct Hargs as (_ & _ & Hm & _ & _ & HC).
  rewrite idxs_in by assumption. unfold admissible. rewrite Nat.add_sub.
  split; [intros (H1 & H2 & _); auto|intros [H1 H2]; auto].
Qed.

(** ** mixed partial derivatives of products *)
Lemma prodn_one dim F k : (k < dim)%nat ->
  prodn dim F = F k * prodn dim (fun i => if (i =? k)%nat then 1 else F i).
Proof.
  induction dim as [|dim IH]; intros Hk; [lia|]. cbn [prodn].
  destruct (Nat.eq_dec k dim) as [->|Hne].
  - rewrite Nat.eqb_refl. rewrite (prodn_ext dim F (fun i => if (i =? dim)%nat then 1 else F i)).
    + ring.
    + intros i Hi. destruct (Nat.eqb_spec i dim); [lia|reflexivity].
  - rewrite IH by lia. destruct (Nat.eqb_spec dim k); [lia|]. ring.
Qed.

(** term with order [o k] in dimension [k] *)
Definition oterm (G : nat -> nat -> R -> R) (dim : nat) (o : nat -> nat) (X : pt) : R :=
  prodn dim (fun k => G k (o k) (X k)).

Lemma upd_same X k : forall i, upd X k (X k) i = X i.
Proof. intros i. unfold upd. destruct (Nat.eqb_spec i k); [subst|]; reflexivity. Qed.

Lemma oterm_step (G : nat -> nat -> R -> R) dim o k d X :
  (forall d t, is_derive_n (G k 0%nat) d t (G k d t)) -> (k < dim)%nat -> o k = 0%nat ->
  is_derive_n (fun t => oterm G dim o (upd X k t)) d (X k) (oterm G dim (fun i => if (i =? k)%nat then d else o i) X).
Proof.
  intros HG Hk Ho. unfold oterm.
  set (c := prodn dim (fun i => if (i =? k)%nat then 1 else G i (o i) (X i))).
  apply (is_derive_n_ext (fun t => c * G k 0%nat t)).
  { intros t. rewrite (prodn_one dim _ k Hk). unfold upd at 1. rewrite Nat.eqb_refl, Ho. rewrite Rmult_comm. f_equal.
    apply prodn_ext. intros i Hi. unfold upd. destruct (Nat.eqb_spec i k); reflexivity. }
  rewrite (prodn_one dim _ k Hk). rewrite Nat.eqb_refl.
  replace (prodn dim (fun i => if (i =? k)%nat then 1 else G i (if (i =? k)%nat then d else o i) (X i))) with c.
  2:{ apply prodn_ext. intros i Hi. destruct (Nat.eqb_spec i k); reflexivity. }
  rewrite Rmult_comm. apply is_derive_n_scal_l. apply HG.
Qed.

Lemma oterm_mixed (G : nat -> nat -> R -> R) dim d : (forall k d t, is_derive_n (G k 0%nat) d t (G k d t)) ->
  forall ks o, NoDup ks -> (forall k, In k ks -> (k < dim)%nat /\ o k = 0%nat) ->
  mixed d ks (oterm G dim o)
    (oterm G dim (fun i => if existsb (Nat.eqb i) ks then nth i d 0%nat else o i)).
Proof.
  intros HG. induction ks as [|k ks IH]; intros o Hn Ho; cbn [mixed existsb].
  - intros X. reflexivity.
  - inversion Hn as [|? ? Hk Hn']; subst. destruct (Ho k (or_introl eq_refl)) as [Hkd Hk0].
    exists (oterm G dim (fun i => if (i =? k)%nat then nth k d 0%nat else o i)). split.
    + intros X. apply oterm_step; [apply HG|exact Hkd|exact Hk0].
    + specialize (IH (fun i => if (i =? k)%nat then nth k d 0%nat else o i) Hn').
      assert (Hext : forall X, oterm G dim (fun i => if existsb (Nat.eqb i) ks then nth i d 0%nat else
           if (i =? k)%nat then nth k d 0%nat else o i) X =
         oterm G dim (fun i => if (i =? k)%nat || existsb (Nat.eqb i) ks then nth i d 0%nat else o i) X).
      { intros X. unfold oterm. apply prodn_ext. intros i Hi. f_equal.
        destruct (Nat.eqb_spec i k) as [->|]; cbn [orb]; [|reflexivity].
        destruct (existsb (Nat.eqb k) ks); reflexivity. }
      assert (Hm : forall ks' (u w w' : pt -> R), (forall X, w X = w' X) -> mixed d ks' u w -> mixed d ks' u w').
      { clear. induction ks' as [|k ks' IH]; cbn; intros u w w' He H.
        - intros X. rewrite <- He. apply H.
        - destruct H as (h & H1 & H2). exists h. split; [exact H1|]. apply (IH _ _ _ He H2). }
      apply (Hm _ _ _ _ Hext). apply IH. intros i Hi. destruct (Ho i (or_intror Hi)) as [H1 H2].
      split; [exact H1|]. destruct (Nat.eqb_spec i k) as [->|]; [contradiction|exact H2].
Qed.

Lemma ndcol_deriv f x0 xf k a d t :
  is_derive_n (fun t => ndcol f x0 xf k t 0 a) d t (ndcol f x0 xf k t d a).
Proof.
  unfold ndcol. apply (is_derive_n_ext (fun t => col f a 0 ((t - nth k x0 0) * nd_ci f x0 xf k + nd_z0 f))).
  { intros s. cbn [pow]. ring. }
  apply (affine_chain (fun d z => col f a d z)). intros; apply col_deriv.
Qed.

Lemma seq_perm_in ks dim k : Permutation ks (seq 0 dim) -> In k ks <-> (k < dim)%nat.
Proof.
  intros Hp. rewrite <- (in_seq dim 0 k) at 1 || idtac. split; intros H.
  - assert (In k (seq 0 dim)) by (eapply Permutation_in; eassumption). apply in_seq in H0. lia.
  - eapply Permutation_in; [apply Permutation_sym, Hp|]. apply in_seq. lia.
Qed.

Lemma c22 be f dim x0 xf nC m full : n_args f dim x0 xf nC m ->
  exists B, mkn be f x0 xf nC m = Some B /\
  partial_matrices (fun x d => Hn be f B x d full) dim (advertised B full) (orders_ok be dim).
Proof.
  intros Hargs. destruct (mkn_ok be _ _ _ _ _ _ Hargs) as (B & EB & HB).
  exists B. split; [exact EB|]. rewrite (nbo_num _ _ _ _ _ _ _ HB).
  intros i Hi. set (idx := idxs dim m (md nC) full) in *.
  set (v := nth i idx []).
  assert (Hv : nth_error idx i = Some v) by (apply nth_error_nth'; exact Hi).
  exists (fun X => ndterm f x0 xf dim X (repeat 0%nat dim) v). split.
  - intros X. eexists. split.
    + apply (Hn_ok _ _ dim x0 xf nC m _ _ _ _ 1); try assumption.
      * repeat split; cbn.
        -- rewrite map_length. apply seq_length.
        -- intros row Hr. apply in_map_iff in Hr as (k & <- & _). reflexivity.
      * right. rewrite repeat_length. lia.
    + rewrite nd_mat_ent. fold idx. rewrite Hv. cbn. f_equal. unfold ndterm. apply prodn_ext. intros k Hk.
      do 3 f_equal. 
      rewrite (nth_indep _ [] [X 0%nat]) by (rewrite map_length, seq_length; exact Hk).
      rewrite (map_nth (fun k => [X k])), seq_nth by exact Hk. reflexivity.
  - intros d Hd. exists (fun X => ndterm f x0 xf dim X d v). split.
    + intros ks Hp.
      pose proof (oterm_mixed (fun k d t => ndcol f x0 xf k t d (nth k v 0%nat)) dim d
        (fun k d t => ndcol_deriv f x0 xf k (nth k v 0%nat) d t) ks (fun _ => 0%nat)) as H.
      assert (Hm : forall ks' (u u' w w' : pt -> R), (forall X, u X = u' X) -> (forall X, w X = w' X) ->
         mixed d ks' u w -> mixed d ks' u' w').
      { clear. induction ks' as [|k ks' IH]; cbn; intros u u' w w' He Hw H.
        - intros X. rewrite <- Hw, <- He. apply H.
        - destruct H as (h & H1 & H2). exists h. split.
          + intros X. apply (is_derive_n_ext (fun t => u (upd X k t))); [intros; apply He|apply H1].
          + apply (IH h h _ _ (fun _ => eq_refl) Hw H2). }
      eapply Hm; [| |apply H].
      * intros X. unfold oterm, ndterm. apply prodn_ext. intros k Hk.
        rewrite nth_repeat. reflexivity.
      * intros X. unfold oterm, ndterm. apply prodn_ext. intros k Hk.
        rewrite (proj2 (existsb_exists (Nat.eqb k) ks)); [reflexivity|].
        exists k. split; [|apply Nat.eqb_refl]. apply (seq_perm_in ks dim k Hp), Hk.
      * eapply Permutation_NoDup; [apply Permutation_sym, Hp|apply seq_NoDup].
      * intros k Hk. split; [apply (seq_perm_in ks dim k Hp), Hk|reflexivity].
    + intros n x j X Hx Hj HX. eexists. split; [apply (Hn_ok _ _ dim x0 xf nC m _ _ _ _ n); assumption|].
      rewrite nd_mat_ent. fold idx. rewrite Hv. pose proof Hx as (_ & -> & _).
      destruct (Nat.ltb_spec j n); [|lia]. f_equal. unfold ndterm. apply prodn_ext. intros k Hk. f_equal.
      specialize (HX k Hk). unfold ment in HX.
      destruct (shaped_ent x dim n k j 0 Hx Hk Hj) as (row & Er & _ & He). rewrite Er in HX. congruence.
Qed.

(** ** C23 *)
Lemma c23 f dim x0 xf nC m n x d full : n_args f dim x0 xf nC m -> shaped x dim n -> (dim <= length d)%nat ->
  exists Bp Bc M, mkn Py f x0 xf nC m = Some Bp /\ mkn Cpp f x0 xf nC m = Some Bc /\
    advertised Bp full = advertised Bc full /\
    Hn Py f Bp x d full = Some M /\ Hn Cpp f Bc x d full = Some M /\ shaped M n (advertised Bc full).
Proof.
  intros Hargs Hx Hd.
  destruct (mkn_ok Py _ _ _ _ _ _ Hargs) as (Bp & EBp & HBp).
  destruct (mkn_ok Cpp _ _ _ _ _ _ Hargs) as (Bc & EBc & HBc).
  exists Bp, Bc, (nd_mat f dim x0 xf nC m x d full). split; [exact EBp|]. split; [exact EBc|].
  rewrite (nbo_num _ _ _ _ _ _ _ HBp), (nbo_num _ _ _ _ _ _ _ HBc). split; [reflexivity|].
  split; [apply (Hn_ok Py _ dim x0 xf nC m _ _ _ _ n); try assumption; right; exact Hd|].
  split; [apply (Hn_ok Cpp _ dim x0 xf nC m _ _ _ _ n); try assumption; left; reflexivity|].
  pose proof (nd_mat_shaped f dim x0 xf nC m x d full) as H. destruct Hx as (_ & Hn & _). rewrite Hn in H. exact H.
Qed.

(** C++ orders that are not given count as zero *)
Lemma c23_short f dim x0 xf nC m n x d full : n_args f dim x0 xf nC m -> shaped x dim n ->
  exists B M, mkn Cpp f x0 xf nC m = Some B /\
    Hn Cpp f B x d full = Some M /\ Hn Cpp f B x (d ++ repeat 0%nat dim) full = Some M.
Proof.
  intros Hargs Hx. destruct (mkn_ok Cpp _ _ _ _ _ _ Hargs) as (B & EB & HB).
  exists B, (nd_mat f dim x0 xf nC m x d full). split; [exact EB|].
  split; [apply (Hn_ok Cpp _ dim x0 xf nC m _ _ _ _ n); try assumption; left; reflexivity|].
  rewrite (Hn_ok Cpp _ dim x0 xf nC m _ _ _ _ n Hargs HB Hx (or_introl eq_refl)). f_equal.
  unfold nd_mat. f_equal. apply map_ext. intros j. apply map_ext. intros v. unfold ndterm. apply prodn_ext. intros k Hk.
  f_equal. destruct (Nat.lt_ge_cases k (length d)) as [Hl|Hl].
  - apply app_nth1, Hl.
  - rewrite app_nth2 by exact Hl. rewrite nth_repeat. symmetry. apply nth_overflow, Hl.
Qed.
(** Python: an order per dimension is required *)
Lemma c23_py_short f dim x0 xf nC m n x d full : n_args f dim x0 xf nC m -> shaped x dim (S n) ->
  (length d < dim)%nat -> exists B, mkn Py f x0 xf nC m = Some B /\ Hn Py f B x d full = None.
Proof.
  intros Hargs Hx Hd. destruct (mkn_ok Py _ _ _ _ _ _ Hargs) as (B & EB & HB).
  exists B. split; [exact EB|]. unfold Hn, nd_H, py_nH.
  pose proof Hx as (Hx1 & Hx2 & Hx3 & Hx4).
  rewrite Hx1, (nbo_dim _ _ _ _ _ _ _ HB), Nat.eqb_refl, Hx2.
  rewrite (mapM_none _ (seq 0 (S n)) 0%nat); [reflexivity|apply in_seq; lia|].
  destruct (mapM _ (md x)) as [xj|]; cbn [bind]; [|reflexivity].
  unfold py_nd_T. rewrite (nbo_dim _ _ _ _ _ _ _ HB).
  rewrite (mapM_none _ (seq 0 dim) (length d)); [reflexivity|apply in_seq; lia|].
  rewrite (proj2 (nth_error_None d (length d))) by lia.
  destruct (nth_error _ (length d)); reflexivity.
Qed.

(** the array handed to C++ with too few rows: out of bounds *)
Lemma c23_rows f dim x0 xf nC m n x d full : n_args f dim x0 xf nC m ->
  (forall r, In r (md x) -> length r = S n) -> mc x = S n -> (length (md x) < dim)%nat -> mr x = length (md x) ->
  exists Bp Bc, mkn Py f x0 xf nC m = Some Bp /\ Hn Py f Bp x d full = None /\
    mkn Cpp f x0 xf nC m = Some Bc /\ Hn Cpp f Bc x d full = None.
Proof.
  intros Hargs Hr Hmc Hl Hmr.
  destruct (mkn_ok Py _ _ _ _ _ _ Hargs) as (Bp & EBp & HBp).
  destruct (mkn_ok Cpp _ _ _ _ _ _ Hargs) as (Bc & EBc & HBc).
  exists Bp, Bc. split; [exact EBp|]. split; [|split; [exact EBc|]].
  - unfold Hn, nd_H, py_nH. rewrite (nbo_dim _ _ _ _ _ _ _ HBp), Hmr.
    destruct (Nat.eqb_spec (length (md x)) dim); [lia|reflexivity].
  - unfold Hn, nd_H, cpp_nH, cpp_nHint. rewrite (nbo_dim _ _ _ _ _ _ _ HBc).
    destruct dim as [|dim]; [lia|].
    assert (Hz : cpp_nd_z ROps Bc (bof (concat (md x))) (mc x) = None); [|rewrite Hz; reflexivity].
    unfold cpp_nd_z. rewrite (nbo_dim _ _ _ _ _ _ _ HBc), Hmc.
    assert (Hnone : forall (S : Type) q lo k (body : nat -> S -> option S) s, (lo <= k < lo + q)%nat ->
       (forall s, body k s = None) -> iter_ q lo body s = None).
    { clear. intros S. induction q as [|q IH]; intros lo k body s Hk Hb; [lia|]. cbn.
      destruct (Nat.eq_dec k lo) as [->|]; [rewrite Hb; reflexivity|].
      destruct (body lo s); cbn; [|reflexivity]. apply (IH _ k); [lia|exact Hb]. }
    unfold for_. apply (Hnone _ _ _ (length (md x))); [lia|]. intros s.
    apply (Hnone _ _ _ 0%nat); [lia|]. intros s'.
    unfold brd at 1. cbn [bof blen]. rewrite (concat_len _ _ Hr).
    destruct (Nat.ltb_spec (length (md x) * S n + 0) (length (md x) * S n)); [lia|reflexivity].
Qed.

(** C15 in n dimensions: the XLA entry point fills the caller's block with the same numbers *)
Lemma c15n f dim x0 xf nC m n x d full out : n_args f dim x0 xf nC m -> shaped x dim n ->
  exists B, mkn Cpp f x0 xf nC m = Some B /\
  (blen out = (n * advertised B full)%nat ->
   exists M out', Hn Cpp f B x d full = Some M /\
     cpp_n_xla ROps RFun f B (bof (concat (md x))) d full n (advertised B full) out = Some out' /\
     buf_matrix out' n (advertised B full) = Some (md M)).
Proof.
  intros Hargs Hx. destruct (mkn_ok Cpp _ _ _ _ _ _ Hargs) as (B & EB & HB).
  exists B. split; [exact EB|]. rewrite (nbo_num _ _ _ _ _ _ _ HB). intros Ho.
  set (idx := idxs dim m (md nC) full) in *.
  destruct (cpp_nHint_ok f dim x0 xf nC m B (bof (concat (md x))) n (fun k j => nth j (nth k (md x) []) 0) d full
     out Hargs HB) as (F & EF & HF).
  - intros k j Hk Hj. apply (shaped_flat x dim n); assumption.
  - fold idx. lia.
  - exists (nd_mat f dim x0 xf nC m x d full), F.
    split; [apply (Hn_ok Cpp _ dim x0 xf nC m _ _ _ _ n); try assumption; left; reflexivity|].
    split; [exact EF|]. fold idx in HF.
    rewrite (buf_matrix_bmat F n _ _ (cols_bmat _ _ _ _ HF)). f_equal.
    cbn [md nd_mat]. fold idx. destruct Hx as (_ & Hn & _). rewrite Hn. apply map_ext. intros j.
    apply (map_seq_nth (ndterm f x0 xf dim (fun k => nth j (nth k (md x) []) 0) d) idx []).
Qed.
