(** n-dimensional objects with assigned attributes: reduction to an unmodified object, with any number
    of output columns. *)
From Coq Require Import Reals Arith Lia Lra List Bool ZArith.
From Coquelicot Require Import Coquelicot.
From Verif Require Import Base ProofBase Numbers ModelBFPy ModelBFCpp ProofTab ProofBFPy ProofBFCpp SpecBasis
  ProofH ModelND SpecND ProofND ProofAttrs ModelNAttrs SpecNAttrs.
Import ListNotations.
Open Scope nat_scope.

(** ** the recursion when a step fails *)
Lemma nrec_none {S} m (leaf : buf nat -> S -> option S) (act : list nat -> S -> option S) n
  (Hleaf : forall b v s, length v = n -> is_vec b v -> leaf b s = act v s) :
  forall dim tail vec s, Datatypes.S dim + length tail = n -> blen vec = n ->
  (forall i, i < length tail -> bcell vec (Datatypes.S dim + i) = nth_error tail i) ->
  foldM act (map (fun v => v ++ tail) (vecs m (Datatypes.S dim))) s = None ->
  nrec m leaf dim vec s = None.
Proof.
  induction dim as [|dim IH]; intros tail vec s Hn Hl Htail Hfold.
  - cbn [nrec]. unfold for_. rewrite Nat.sub_0_r.
    assert (Hgen : forall k lo vec s, blen vec = n ->
      (forall i, i < length tail -> bcell vec (1 + i) = nth_error tail i) ->
      foldM act (map (fun x => x :: tail) (seq lo k)) s = None ->
      iter_ k lo (fun x (st : buf nat * S) => let (vec, s) := st in
          vec <- bwr vec 0 x ;; (s <- leaf vec s ;; Some (vec, s))) (vec, s) = None).
    { clear Hfold Htail Hl vec s. induction k as [|k IHk]; intros lo vec s Hl Htail Hf; cbn in *; [discriminate|].
      rewrite bwr_in by lia. cbn [bind].
      erewrite (Hleaf _ (lo :: tail)); [|cbn; lia|].
      2:{ split; cbn [blen length bcell]; [lia|]. intros [|i] Hi; [reflexivity|]. cbn. apply Htail; lia. }
      destruct (act (lo :: tail) s) as [s1|]; cbn [bind] in *; [|reflexivity].
      apply IHk; [exact Hl| |exact Hf]. intros i Hi; cbn. apply Htail, Hi. }
    apply Hgen; [exact Hl|exact Htail|].
    rewrite <- Hfold. f_equal. cbn [vecs map app].
    generalize (seq 0 m). induction l as [|x l IHl]; cbn; [reflexivity|]. rewrite IHl. reflexivity.
  - cbn [nrec]. unfold for_. rewrite Nat.sub_0_r.
    assert (Hgen : forall k lo vec s, blen vec = n ->
      (forall i, i < length tail -> bcell vec (Datatypes.S (Datatypes.S dim) + i) = nth_error tail i) ->
      foldM act (map (fun v => v ++ tail)
         (flat_map (fun x => map (fun v => v ++ [x]) (vecs m (Datatypes.S dim))) (seq lo k))) s = None ->
      iter_ k lo (fun x (st : buf nat * S) => let (vec, s) := st in
          vec <- bwr vec (Datatypes.S dim) x ;; nrec m leaf dim vec s) (vec, s) = None).
    { clear Hfold Htail Hl vec s. induction k as [|k IHk]; intros lo vec s Hl Htail Hf; cbn [iter_ seq flat_map] in *.
      - cbn in Hf. discriminate.
      - rewrite map_app, foldM_app in Hf. rewrite map_map in Hf.
        rewrite bwr_in by lia. cbn [bind].
        assert (Hm' : forall x, map (fun v => v ++ lo :: tail) x = map (fun v => (v ++ [lo]) ++ tail) x).
        { intros x. apply map_ext. intros v. rewrite <- app_assoc. reflexivity. }
        assert (Ht' : forall i, i < length (lo :: tail) ->
          bcell (Buf (blen vec) (fun j => if j =? Datatypes.S dim then Some lo else bcell vec j)) (Datatypes.S dim + i)
          = nth_error (lo :: tail) i).
        { intros [|i] Hi; cbn [bcell nth_error length] in *.
          * rewrite Nat.add_0_r, Nat.eqb_refl. reflexivity.
          * destruct (Nat.eqb_spec (Datatypes.S dim + Datatypes.S i) (Datatypes.S dim)); [lia|].
            rewrite <- Htail by lia. f_equal. lia. }
        match type of Hf with bind ?a _ = _ => destruct a as [s1|] eqn:E end; cbn [bind] in Hf.
        + destruct (nrec_ok m leaf act n Hleaf dim (lo :: tail)
            (Buf (blen vec) (fun j => if j =? Datatypes.S dim then Some lo else bcell vec j)) s s1)
            as (vec1 & E1 & Hl1 & Ht1); [cbn [length]; lia|exact Hl|exact Ht'|rewrite Hm'; exact E|].
          rewrite E1. cbn [bind]. apply IHk; [exact Hl1| |exact Hf].
          intros i Hi. specialize (Ht1 (Datatypes.S i)). cbn [length nth_error] in Ht1.
          rewrite <- Ht1 by lia. f_equal. lia.
        + rewrite (IH (lo :: tail)); [reflexivity|cbn [length]; lia|exact Hl|exact Ht'|rewrite Hm'; exact E]. }
    apply Hgen; assumption.
Qed.
Lemma nrec_fold {S} m (leaf : buf nat -> S -> option S) (act : list nat -> S -> option S) dim vec s :
  (forall b v s, length v = Datatypes.S dim -> is_vec b v -> leaf b s = act v s) ->
  blen vec = Datatypes.S dim ->
  (r <- nrec m leaf dim vec s ;; Some (snd r)) = foldM act (vecs m (Datatypes.S dim)) s.
Proof.
  intros Hl Hb. destruct (foldM act (vecs m (Datatypes.S dim)) s) as [s'|] eqn:Ef.
  - destruct (nrec_run m leaf act dim vec s s' Hl Hb Ef) as (v & E). rewrite E. reflexivity.
  - rewrite (nrec_none m leaf act (Datatypes.S dim) Hl dim [] vec s); [reflexivity|cbn; lia|exact Hb|cbn; lia|].
    rewrite <- Ef. f_equal. rewrite <- (map_id (vecs m (Datatypes.S dim))) at 2. apply map_ext, app_nil_r.
Qed.
Lemma nrec_ext {S} m (leaf leaf' : buf nat -> S -> option S) : (forall b s, leaf b s = leaf' b s) ->
  forall dim vec s, nrec m leaf dim vec s = nrec m leaf' dim vec s.
Proof.
  intros H. induction dim as [|dim IH]; intros vec s; cbn [nrec]; apply for_ext; intros k [v t];
    destruct (bwr v _ k) as [v'|]; cbn [bind]; try reflexivity; [rewrite H; reflexivity|apply IH].
Qed.

(** ** objects that differ in unread fields *)
Open Scope R_scope.
Record agree (dim m numC : nat) (B B' : nbasis (T:=R)) : Prop := {
  ag_dim : nb_dim B = dim; ag_dim' : nb_dim B' = dim;
  ag_m : nb_m B = m; ag_m' : nb_m B' = m;
  ag_numC : nb_numC B = numC; ag_numC' : nb_numC B' = numC;
  ag_flat : forall i, (i < dim * numC)%nat -> brd (nb_flat B) i = brd (nb_flat B') i;
  ag_map : forall k, (k < dim)%nat -> exists x c x' c',
    nth_error (nb_x0 B) k = Some x /\ nth_error (nb_c B) k = Some c /\
    nth_error (nb_x0 B') k = Some x' /\ nth_error (nb_c B') k = Some c' /\
    forall t, (t - x) * c + nb_z0 B = (t - x') * c' + nb_z0 B' }.
Lemma slope x c z x' c' z' : (forall t, (t - x) * c + z = (t - x') * c' + z') -> c = c'.
Proof. intros H. pose proof (H 0). pose proof (H 1). lra. Qed.

Lemma cpp_keep_ext dim m numC (fb fb' : buf Z) full vec :
  (forall i, (i < dim * numC)%nat -> brd fb i = brd fb' i) ->
  cpp_keep dim m numC fb full vec = cpp_keep dim m numC fb' full vec.
Proof.
  intros H. unfold cpp_keep. destruct full; [reflexivity|].
  assert (E : cpp_flag dim numC fb vec = cpp_flag dim numC fb' vec); [|rewrite E; reflexivity].
  unfold cpp_flag. apply for_extb. intros j s Hj. destruct (brd vec j) as [v|]; cbn [bind]; [|reflexivity].
  match goal with |- bind ?a _ = bind ?b _ => replace b with a; [reflexivity|] end.
  apply for_extb. intros g fl Hg. destruct fl; [|reflexivity]. rewrite H by nia. reflexivity.
Qed.
Lemma nHint_ext f dim m numC B B' xb n d nb F full : agree dim m numC B B' ->
  cpp_nHint ROps RFun f B xb n d nb F full = cpp_nHint ROps RFun f B' xb n d nb F full.
Proof.
  intros [D D' M M' C C' HF HM].
  assert (Ez : cpp_nd_z ROps B xb n = cpp_nd_z ROps B' xb n).
  { unfold cpp_nd_z. rewrite D, D'. apply for_extb. intros j z Hj. apply for_extb. intros k z' Hk.
    destruct (HM j) as (x & c & x' & c' & -> & -> & -> & -> & H); [lia|].
    destruct (brd xb _) as [xv|]; cbn [bind]; [|reflexivity]. f_equal. apply H. }
  assert (ET : forall z, cpp_nd_T ROps RFun f B z n d = cpp_nd_T ROps RFun f B' z n d).
  { intros z. unfold cpp_nd_T. rewrite D, D', M, M'.
    match goal with |- bind ?a _ = bind ?b _ => replace b with a; [reflexivity|] end.
    apply for_extb. intros k [dk Tb] Hk.
    destruct (HM k) as (x & c & x' & c' & _ & -> & _ & -> & H); [lia|]. apply slope in H. subst c'. reflexivity. }
  unfold cpp_nHint. rewrite D, D'. destruct dim as [|dim]; [reflexivity|].
  rewrite Ez. destruct (cpp_nd_z ROps B' xb n) as [z|]; cbn [bind]; [|reflexivity].
  rewrite ET. destruct (cpp_nd_T ROps RFun f B' z n d) as [Tb|]; cbn [bind]; [|reflexivity].
  destruct (for_ 0 (n * nb) _ F) as [F1|]; cbn [bind]; [|reflexivity].
  rewrite M, M'.
  match goal with |- bind ?a _ = bind ?b _ => replace b with a; [reflexivity|] end.
  apply nrec_ext. intros b [o c]. rewrite C, C'. rewrite (cpp_keep_ext _ _ _ _ _ full b HF).
  destruct (cpp_keep _ _ _ _ _ _) as [[]|]; cbn [bind]; try reflexivity.
  unfold cpp_nd_mult. rewrite D, D', M, M'. reflexivity.
Qed.

(** ** any number of columns *)
Lemma is_vec_brd b v : is_vec b v -> forall l, brd b l = brd (bof v) l.
Proof.
  intros [Hbl Hbc] l. unfold brd. cbn [bof blen bcell]. rewrite Hbl.
  destruct (Nat.ltb_spec l (length v)); [apply Hbc; assumption|reflexivity].
Qed.
Lemma nd_mult_vec B n nb Tb b v c out : is_vec b v ->
  cpp_nd_mult ROps B n nb Tb b c out = cpp_nd_mult ROps B n nb Tb (bof v) c out.
Proof.
  intros Hv. unfold cpp_nd_mult. apply for_ext. intros h o3. apply for_ext. intros l o2.
  rewrite (is_vec_brd _ _ Hv). reflexivity.
Qed.
Lemma bwr_blen {T} (b b' : buf T) i v : bwr b i v = Some b' -> blen b' = blen b.
Proof. unfold bwr. destruct (i <? blen b); [|discriminate]. intros [= <-]. reflexivity. Qed.
Lemma nd_mult_blen B n nb Tb b c out out' : cpp_nd_mult ROps B n nb Tb b c out = Some out' -> blen out' = blen out.
Proof.
  intros E. unfold cpp_nd_mult in E.
  pose (P := fun (_ : nat) (o : buf R) => blen o = blen out).
  refine (for_after P _ 0%nat n _ _ (Nat.le_0_l n) eq_refl E _). unfold P. intros h o o' _ Ho Eh.
  refine (for_after P _ 0%nat (nb_dim B) _ _ (Nat.le_0_l _) Ho Eh _). unfold P; clear P. intros l o1 o2 _ Ho1 El.
  destruct (brd b l); cbn [bind] in El; [|discriminate]. destruct (brd Tb _); cbn [bind] in El; [|discriminate].
  destruct (brd o1 _); cbn [bind] in El; [|discriminate]. rewrite (bwr_blen _ _ _ _ El). exact Ho1.
Qed.
Lemma nd_mult_beyond B n nb Tb b c out : (1 <= n)%nat -> (1 <= nb_dim B)%nat -> blen out = (nb * n)%nat -> (nb <= c)%nat ->
  cpp_nd_mult ROps B n nb Tb b c out = None.
Proof.
  intros Hn Hd Hl Hc. destruct (cpp_nd_mult ROps B n nb Tb b c out) as [o'|] eqn:E; [|reflexivity]. exfalso.
  unfold cpp_nd_mult in E.
  assert (In : forall h (o o' : buf R), for_ 0 (nb_dim B) (fun l out => v <- brd b l ;;
      t <- brd Tb (nb_m B * n * l + v + h * nb_m B)%nat ;; o <- brd out (h * nb + c)%nat ;;
      bwr out (h * nb + c)%nat (omul ROps o t)) o = Some o' -> blen o = (nb * n)%nat -> blen o' = (nb * n)%nat /\ (h < n - 1)%nat).
  { intros h o o1 Eh Ho.
    pose (P := fun (l : nat) (o : buf R) => blen o = (nb * n)%nat /\ ((1 <= l)%nat -> (h * nb + c < nb * n)%nat)).
    assert (Q : P (nb_dim B) o1).
    { refine (for_after P _ 0%nat (nb_dim B) _ _ (Nat.le_0_l _) _ Eh _).
      - split; [exact Ho|lia].
      - unfold P; clear P. intros l o2 o3 _ [Ho2 _] El.
        destruct (brd b l); cbn [bind] in El; [|discriminate]. destruct (brd Tb _); cbn [bind] in El; [|discriminate].
        destruct (brd o2 (h * nb + c)) as [u|] eqn:Eb; cbn [bind] in El; [|discriminate].
        split; [rewrite (bwr_blen _ _ _ _ El); exact Ho2|]. intros _. unfold brd in Eb.
        destruct (Nat.ltb_spec (h * nb + c) (blen o2)); [lia|discriminate]. }
    destruct Q as [Q1 Q2]. split; [exact Q1|]. specialize (Q2 Hd). nia. }
  pose (P := fun (h : nat) (o : buf R) => blen o = (nb * n)%nat /\ (h <= n - 1)%nat).
  assert (Q : P n o').
  { refine (for_after P _ 0%nat n _ _ (Nat.le_0_l _) _ E _).
    - split; [exact Hl|lia].
    - unfold P; clear P. intros h o2 o3 _ [Ho2 _] El. destruct (In _ _ _ El Ho2) as [H1 H2]. split; [exact H1|lia]. }
  destruct Q as [_ Q]. lia.
Qed.

Lemma nHint_any f dim x0 xf nC m B (xb : buf R) n (X : nat -> nat -> R) d full F nb :
  n_args f dim x0 xf nC m -> nb_ok f dim x0 xf nC m B ->
  (forall k j, (k < dim)%nat -> (j < n)%nat -> brd xb (k * n + j)%nat = Some (X k j)) ->
  let idx := idxs dim m (md nC) full in
  blen F = (nb * n)%nat ->
  ((length idx <= nb)%nat -> exists F', cpp_nHint ROps RFun f B xb n d nb F full = Some F' /\
    cols F' n nb nb (fun j i => match nth_error idx i with
                                | Some v => ndterm f x0 xf dim (fun k => X k j) d v | None => 1 end)) /\
  ((nb < length idx)%nat -> (1 <= n)%nat -> cpp_nHint ROps RFun f B xb n d nb F full = None).
Proof.
  intros Hargs HB Hx idx HF. pose proof Hargs as (Hf & Hd & Hm & _).
  unfold cpp_nHint. pose proof (nbo_dim _ _ _ _ _ _ _ HB) as HBd.
  rewrite HBd. destruct dim as [|dim]; [lia|].
  destruct (cpp_nd_z_ok _ _ _ _ _ _ _ xb n X Hargs HB Hx) as (z & Ez & Hz). rewrite Ez. cbn [bind].
  destruct (cpp_nd_T_ok _ _ _ _ _ _ _ z n _ d Hargs HB Hz) as (Tb & ET & HlT & HT). rewrite ET. cbn [bind].
  set (t := fun k h a => ndcol f x0 xf k (X k h) (nth k d 0%nat) a).
  change (tab_ok Tb (S dim) n m t) in HT.
  destruct (for_inv (fun k b' => blen b' = (nb * n)%nat /\ forall i, (i < k)%nat -> bcell b' i = Some 1)
     (fun k F => bwr F k (o1 ROps)) 0 (n * nb) F) as (F1 & E1 & Hl1 & HF1).
  { lia. } { split; [exact HF|lia]. }
  { intros k b' Hk [Hl' H']. rewrite bwr_in by (rewrite Hl'; lia).
    eexists; split; [reflexivity|]. split; [exact Hl'|]. intros i Hi; cbn.
    destruct (Nat.eqb_spec i k); [reflexivity|apply H'; lia]. }
  rewrite E1. cbn [bind].
  rewrite (nbo_m _ _ _ _ _ _ _ HB).
  assert (Hinit : bmat F1 n nb (fun j k => Some 1)).
  { split; [exact Hl1|]. intros j k Hj Hk. apply HF1. nia. }
  pose proof (nbo_flat _ _ _ _ _ _ _ HB) as Hflat.
  set (p := py_keep m (md nC) full) in *.
  set (V := fun j v => prodn (S dim) (fun l => t l j (nth l v 0%nat))).
  set (act := fun v (st : buf R * nat) => let (out, count) := st in
     if p v then out <- cpp_nd_mult ROps B n nb Tb (bof v) count out ;; Some (out, S count) else Some (out, count)).
  pose proof (nrec_fold m (fun vec (st : buf R * nat) =>
             let (out, count) := st in
             k <- cpp_keep (S dim) m (nb_numC B) (nb_flat B) full vec ;;
             if (k : bool) then
               out <- cpp_nd_mult ROps B n nb Tb vec count out ;;
               Some (out, S count)
             else Some (out, count)) act dim (bnew (S dim)) (F1, 0%nat)) as Efold.
  match type of Efold with ?A -> _ => assert (HA : A) end.
  { intros b v [out c] Hl Hv. rewrite (cpp_keep_ok _ _ _ _ _ _ _ _ Hl Hv Hflat). cbn [bind]. unfold act. fold p.
    destruct (p v); [|reflexivity]. rewrite (nd_mult_vec _ _ _ _ _ _ _ _ Hv). reflexivity. }
  specialize (Efold HA eq_refl). clear HA.
  match goal with |- context [nrec m ?lf dim ?vv ?ss] => set (N := nrec m lf dim vv ss) in * end.
  split.
  - intros Hle.
    assert (Hfold : forall l c o, (forall v, In v l -> In v (vecs m (S dim))) ->
      (c + length (filter p l) <= nb)%nat ->
      forall G, (forall j k, (c <= k)%nat -> G j k = 1) -> bmat o n nb (fun j k => Some (G j k)) ->
      exists o', foldM act l (o, c) = Some (o', (c + length (filter p l))%nat) /\
        bmat o' n nb (fun j k => Some (if (k <? c)%nat then G j k else
           match nth_error (filter p l) (k - c) with Some v => V j v | None => 1 end))).
    { induction l as [|v l IH]; intros c o Hin Hc G HG Ho; cbn [foldM filter].
      - exists o. cbn [length]. rewrite Nat.add_0_r. split; [reflexivity|].
        eapply bmat_ext; [exact Ho|]. intros j k _ _; cbv beta.
        destruct (Nat.ltb_spec k c); [reflexivity|]. rewrite HG by lia. destruct (k - c)%nat; reflexivity.
      - cbn [filter] in Hc.
        assert (Eact : act v (o, c) = if p v then out <- cpp_nd_mult ROps B n nb Tb (bof v) c o ;; Some (out, S c)
                                      else Some (o, c)) by reflexivity.
        rewrite Eact. clear Eact. destruct (p v) eqn:Ep; cbn [bind].
        + cbn [length] in Hc.
          destruct (cpp_nd_mult_ok f (S dim) x0 xf nC m B n nb Tb t (bof v) v c o G HB HlT HT) as (o1 & Eo & Ho1).
          * split; reflexivity.
          * apply Hin; left; reflexivity.
          * lia.
          * exact Ho.
          * intros j. apply HG; lia.
          * rewrite Eo. cbn [bind].
            destruct (IH (S c) o1 (fun v H => Hin v (or_intror H)) ltac:(lia)
               (fun j k => if (k =? c)%nat then V j v else G j k)) as (o2 & E2 & Ho2).
            -- intros j k Hk. destruct (Nat.eqb_spec k c); [lia|apply HG; lia].
            -- exact Ho1.
            -- exists o2. rewrite E2. cbn [length]. split; [do 2 f_equal; lia|].
               eapply bmat_ext; [exact Ho2|]. intros j k _ Hk; cbv beta. f_equal.
               destruct (Nat.ltb_spec k (S c)), (Nat.ltb_spec k c), (Nat.eqb_spec k c); try lia; try reflexivity.
               ++ subst. rewrite Nat.sub_diag. reflexivity.
               ++ replace (k - c)%nat with (S (k - S c)) by lia. reflexivity.
        + apply IH; auto. intros w Hw; apply Hin; right; exact Hw. }
    destruct (Hfold (vecs m (S dim)) 0%nat F1 (fun v H => H)) with (G := fun (_ _ : nat) => 1) as (o' & Ef & Ho').
    { exact Hle. } { reflexivity. } { exact Hinit. }
    rewrite Ef in Efold. destruct N as [[v' s']|]; cbn [bind snd] in Efold; [|discriminate].
    injection Efold as ->. cbn [bind fst snd]. exists o'. split; [reflexivity|]. destruct Ho' as [Hol Hoc].
    split; [exact Hol|]. intros j i Hj Hi. rewrite Hoc by assumption. cbn [Nat.ltb Nat.leb]. rewrite Nat.sub_0_r.
    change (filter p (vecs m (S dim))) with idx. reflexivity.
  - intros Hlt Hn.
    assert (Hfold : forall l c o, blen o = (nb * n)%nat -> (nb < c + length (filter p l))%nat -> (c <= nb)%nat ->
      foldM act l (o, c) = None).
    { induction l as [|v l IH]; intros c o Ho Hc Hcn; cbn [foldM filter] in *; [cbn [length] in Hc; lia|].
      assert (Eact : act v (o, c) = if p v then out <- cpp_nd_mult ROps B n nb Tb (bof v) c o ;; Some (out, S c)
                                    else Some (o, c)) by reflexivity.
      rewrite Eact. clear Eact. destruct (p v); cbn [bind].
      - cbn [length] in Hc. destruct (cpp_nd_mult ROps B n nb Tb (bof v) c o) as [o1|] eqn:Eo; cbn [bind]; [|reflexivity].
        destruct (Nat.eq_dec c nb) as [->|].
        + rewrite nd_mult_beyond in Eo; [discriminate|exact Hn|rewrite HBd; lia|exact Ho|lia].
        + apply IH; [rewrite (nd_mult_blen _ _ _ _ _ _ _ _ Eo); exact Ho|lia|lia].
      - apply IH; assumption. }
    rewrite (Hfold (vecs m (S dim)) 0%nat F1 Hl1) in Efold; [|exact Hlt|lia].
    destruct N as [[v' s']|]; cbn [bind snd] in *; [discriminate|reflexivity].
Qed.

(** ** the object *)
Lemma zmap_nd f a b t : bounded f -> a <> b ->
  (t - a) * ((nd_zf f - nd_z0 f) / (b - a)) + nd_z0 f = zmap f a b t.
Proof. intros Hf Hab. assert (b - a <> 0) by lra. destruct Hf as [->|[->| ->]]; cbn; field; assumption. Qed.

Definition nobjB (o : nobj R) (num : nat) : nbasis (T:=R) :=
  NBasis (Z.to_nat (p_dim o)) (Z.to_nat (p_m o)) (Z.to_nat (p_numC o)) [] (p_nC o) (p_x0 o) (p_c o) (p_z0 o) num num.
Lemma describes_agree o f dim a b nC m B num : n_describes o f dim a b nC m -> n_args f dim a b nC m ->
  nb_ok f dim a b nC m B -> agree dim m (mc nC) (nobjB o num) B.
Proof.
  intros (Hdim & Hm & Hc & Hfl & Hmap) (Hf & Hd & Hm1 & Ha & Hb & HC) HB.
  assert (Hnc : nb_numC B = mc nC).
  { destruct (nbo_flat _ _ _ _ _ _ _ HB) as (Hl & Hr & _). destruct HC as (_ & _ & Hl' & Hr').
    destruct (md nC) as [|r rs]; [cbn in Hl; lia|]. rewrite <- (Hr r (or_introl eq_refl)). apply Hr'. left; reflexivity. }
  constructor; try (cbn; lia).
  - apply (nbo_dim _ _ _ _ _ _ _ HB).
  - apply (nbo_m _ _ _ _ _ _ _ HB).
  - intros i Hi. cbn [nobjB nb_flat]. rewrite Hfl by exact Hi.
    destruct (nbo_flat _ _ _ _ _ _ _ HB) as (_ & _ & Hbl & Hcell). rewrite brd_in by (rewrite Hbl, Hnc; exact Hi).
    symmetry. apply Hcell.
  - intros k Hk. destruct (Hmap k Hk) as (x0k & ck & E1 & E2 & Hne & Hz).
    exists x0k, ck, (nth k a 0), (nd_ci f a b k). split; [exact E1|]. split; [exact E2|].
    rewrite (nbo_x0 _ _ _ _ _ _ _ HB), (nbo_c _ _ _ _ _ _ _ HB), (nbo_z0 _ _ _ _ _ _ _ HB).
    split; [apply nth_error_nth'; lia|]. split; [apply nth_error_nd_c, Hk|]. intros t.
    cbn [nobjB nb_z0]. rewrite Hz. unfold nd_ci. symmetry. apply zmap_nd; assumption.
Qed.

Lemma nobj_any o f dim a b nC m x d full n num : n_describes o f dim a b nC m -> n_args f dim a b nC m ->
  shaped x dim n ->
  let idx := idxs dim m (md nC) full in
  let r := cpp_nH ROps RFun f (nobjB o num) x d full in
  ((length idx <= num)%nat -> exists M, r = Some M /\ padded M (nd_mat f dim a b nC m x d full) n num (length idx)) /\
  ((num < length idx)%nat -> (1 <= n)%nat -> r = None).
Proof.
  intros Hd Hargs Hx idx r. destruct (mkn_ok Cpp f dim a b nC m Hargs) as (B & _ & HB).
  pose proof (describes_agree o f dim a b nC m B num Hd Hargs HB) as Hag.
  pose proof Hx as (_ & Hmc & _).
  destruct (nHint_any f dim a b nC m B (bof (concat (md x))) n (fun k j => nth j (nth k (md x) []) 0) d full
    (bnew (num * n)) num Hargs HB) as [H1 H2].
  { intros k j Hk Hj. apply (shaped_flat x dim n); assumption. }
  { reflexivity. }
  assert (Er : r = (F <- cpp_nHint ROps RFun f B (bof (concat (md x))) n d num (bnew (num * n)) full ;;
                    rows <- buf_matrix F n num ;; Some (Mat n num rows))).
  { unfold r, cpp_nH. rewrite Hmc. assert (En : (if full then nb_numFull (nobjB o num) else nb_num (nobjB o num)) = num) by (destruct full; reflexivity).
    rewrite En. rewrite (nHint_ext f _ _ _ _ _ _ _ _ _ _ _ Hag). reflexivity. }
  fold idx in H1, H2. rewrite Er. split.
  - intros Hle. destruct (H1 Hle) as (F & EF & HF). rewrite EF. cbn [bind].
    rewrite (buf_matrix_bmat F n num _ (cols_bmat _ _ _ _ HF)). cbn [bind]. eexists; split; [reflexivity|].
    split; [|split].
    + repeat split; cbn [mr mc md].
      * rewrite map_length, seq_length. reflexivity.
      * intros row Hrow. apply in_map_iff in Hrow as (j & <- & _). rewrite map_length, seq_length. reflexivity.
    + unfold nd_mat. fold idx. rewrite Hmc. repeat split; cbn [mr mc md].
      * rewrite map_length, seq_length. reflexivity.
      * intros row Hrow. apply in_map_iff in Hrow as (j & <- & _). rewrite map_length. reflexivity.
    + intros j i Hj Hi. unfold ment, nd_mat. fold idx. rewrite Hmc. cbn [md].
      rewrite !nth_error_map. rewrite (nth_error_nth' (seq 0 n) 0%nat) by (rewrite seq_length; exact Hj).
      rewrite seq_nth by exact Hj. cbn [option_map Nat.add].
      rewrite !nth_error_map. rewrite (nth_error_nth' (seq 0 num) 0%nat) by (rewrite seq_length; exact Hi).
      rewrite seq_nth by exact Hi. cbn [option_map Nat.add].
      destruct (Nat.ltb_spec i (length idx)) as [Hl|Hl].
      * rewrite (nth_error_nth' idx [] Hl). reflexivity.
      * assert (E : nth_error idx i = None) by (apply nth_error_None; exact Hl). rewrite E. reflexivity.
  - intros Hlt Hn. rewrite (H2 Hlt Hn). reflexivity.
Qed.

Lemma nobj_nb_ok o dim m num : p_dim o = Z.of_nat dim -> p_m o = Z.of_nat m -> nobj_nb o num = Some (nobjB o num).
Proof.
  intros Hd Hm. unfold nobj_nb. rewrite Hd, Hm.
  destruct (Z.ltb_spec (Z.of_nat dim) 0), (Z.ltb_spec (Z.of_nat m) 0); try lia. unfold nobjB. rewrite Hd, Hm. reflexivity.
Qed.
Lemma nobj_H_any o f dim a b nC m x d full n : n_describes o f dim a b nC m -> n_args f dim a b nC m ->
  shaped x dim n ->
  let idx := idxs dim m (md nC) full in
  ((Z.of_nat (length idx) <= n_advertised o full)%Z ->
     exists M, nobj_H ROps RFun f o x d full = Some M /\
       padded M (nd_mat f dim a b nC m x d full) n (Z.to_nat (n_advertised o full)) (length idx)) /\
  ((n_advertised o full < Z.of_nat (length idx))%Z -> (1 <= n)%nat -> nobj_H ROps RFun f o x d full = None).
Proof.
  intros Hd Hargs Hx idx. pose proof Hd as (Hdim & Hm & _).
  destruct (nobj_any o f dim a b nC m x d full n (Z.to_nat (n_advertised o full)) Hd Hargs Hx) as [H1 H2].
  unfold nobj_H. fold (n_advertised o full).
  destruct (Z.ltb_spec (n_advertised o full) 0) as [Hneg|Hpos].
  - split; [lia|reflexivity].
  - rewrite (nobj_nb_ok o dim m _ Hdim Hm). cbn [bind]. fold idx in H1, H2. split.
    + intros H. apply H1. lia.
    + intros H Hn. apply H2; [lia|exact Hn].
Qed.
Lemma ncompiled_eq o f cols x d full dim m : p_dim o = Z.of_nat dim -> p_m o = Z.of_nat m ->
  ncompiled_call ROps RFun f o cols x d full = cpp_nH ROps RFun f (nobjB o cols) x d full.
Proof.
  intros Hd Hm. unfold ncompiled_call. rewrite (nobj_nb_ok o dim m cols Hd Hm). cbn [bind]. unfold cpp_nH, cpp_n_xla.
  destruct full; reflexivity.
Qed.

Lemma padded_eq M M' n num : padded M M' n num num -> M = M'.
Proof.
  intros ((R1 & C1 & L1 & W1) & (R2 & C2 & L2 & W2) & H). destruct M as [r c rows], M' as [r' c' rows'].
  cbn [mr mc md] in *. subst. f_equal. apply nth_error_ext. intros j.
  destruct (Nat.lt_ge_cases j (length rows)) as [Hj|Hj].
  - rewrite (nth_error_nth' rows [] Hj). rewrite (nth_error_nth' rows' []) by lia. f_equal.
    assert (Hj' : (j < length rows')%nat) by lia.
    pose proof (W1 _ (nth_In rows [] Hj)) as Hw. pose proof (W2 _ (nth_In rows' [] Hj')) as Hw'.
    apply nth_error_ext. intros i. destruct (Nat.lt_ge_cases i num) as [Hi|Hi].
    + specialize (H j i Hj Hi). destruct (Nat.ltb_spec i num); [|lia]. unfold ment in H. cbn [md] in H.
      rewrite (nth_error_nth' rows [] Hj), (nth_error_nth' rows' []) in H by lia. exact H.
    + transitivity (@None R); [|symmetry]; apply nth_error_None; lia.
  - transitivity (@None (list R)); [|symmetry]; apply nth_error_None; lia.
Qed.

(** ** out of range *)
Lemma nobj_dim_beyond (o : nobj R) f x d full : (Z.of_nat (length (p_x0 o)) < p_dim o)%Z -> (1 <= mc x)%nat ->
  nobj_H ROps RFun f o x d full = None.
Proof.
  intros Hd Hn. unfold nobj_H. destruct (_ <? 0)%Z; [reflexivity|]. unfold nobj_nb.
  destruct (Z.ltb_spec (p_dim o) 0); [reflexivity|]. destruct (_ || _); [reflexivity|]. cbn [bind].
  unfold cpp_nH, cpp_nHint. cbn [nb_dim]. destruct (Z.to_nat (p_dim o)) as [|dim] eqn:Ed; [reflexivity|].
  assert (Ez : forall B xb, nb_dim B = S dim -> nb_x0 B = p_x0 o -> cpp_nd_z ROps B xb (mc x) = None).
  { intros B xb E1 E2. unfold cpp_nd_z. rewrite E1, E2. apply (for_none_at _ _ _ _ (length (p_x0 o))); [lia|].
    intros s. apply (for_none_at _ _ _ _ 0%nat); [lia|]. intros s'. destruct (brd xb _); cbn [bind]; [|reflexivity].
    assert (E : nth_error (p_x0 o) (length (p_x0 o)) = None) by (apply nth_error_None; lia). rewrite E. reflexivity. }
  rewrite Ez by reflexivity. reflexivity.
Qed.

Lemma keep_vec dim m numC fb full b v : is_vec b v -> cpp_keep dim m numC fb full b = cpp_keep dim m numC fb full (bof v).
Proof.
  intros Hv. pose proof (is_vec_brd _ _ Hv) as H.
  assert (Es : cpp_sum dim b = cpp_sum dim (bof v)).
  { unfold cpp_sum. apply for_ext. intros k s. rewrite H. reflexivity. }
  assert (Ef : cpp_flag dim numC fb b = cpp_flag dim numC fb (bof v)).
  { unfold cpp_flag. apply for_ext. intros k s. rewrite H. reflexivity. }
  unfold cpp_keep. rewrite Es, Ef. reflexivity.
Qed.
Lemma foldM_fails {X S} (act : X -> S -> option S) l v s : In v l -> (forall s, act v s = None) -> foldM act l s = None.
Proof.
  revert s; induction l as [|x l IH]; intros s Hin Hv; [destruct Hin|].
  destruct Hin as [->|Hin]; cbn; [rewrite Hv; reflexivity|].
  destruct (act x s); cbn; [apply IH; assumption|reflexivity].
Qed.
Lemma flag_beyond dim numC (fb : buf Z) a : (blen fb < dim * numC)%nat ->
  (forall i c, brd fb i = Some c -> c <> Z.of_nat a) -> cpp_flag dim numC fb (bof (repeat a dim)) = None.
Proof.
  intros Hb Ha. unfold cpp_flag. assert (Hd : (1 <= dim)%nat) by nia.
  apply (for_none_at _ _ _ _ (dim - 1)%nat); [lia|]. intros fl.
  assert (Ev : brd (bof (repeat a dim)) (dim - 1) = Some a).
  { rewrite brd_in by (cbn; rewrite repeat_length; lia). cbn [bof bcell]. rewrite (nth_error_nth' _ a) by (rewrite repeat_length; lia).
    f_equal. apply nth_repeat. }
  rewrite Ev. cbn [bind].
  match goal with |- bind ?r _ = None => destruct r as [r1|] eqn:Er; [|reflexivity] end. exfalso.
  pose (P := fun (g : nat) (fl : bool) => fl = true /\ forall g', (g' < g)%nat -> ((dim - 1) * numC + g' < blen fb)%nat).
  assert (Q : P numC r1).
  { refine (for_after P _ 0%nat numC _ _ (Nat.le_0_l _) _ Er _).
    - split; [reflexivity|lia].
    - unfold P; clear P. intros g s s' Hg [-> Hs] Eg.
      destruct (brd fb ((dim - 1) * numC + g)) as [c|] eqn:Ec; cbn [bind] in Eg; [|discriminate].
      injection Eg as <-. split.
      + destruct (Z.eqb_spec (Z.of_nat a) c) as [e|]; [exfalso; apply (Ha _ _ Ec); symmetry; exact e|reflexivity].
      + intros g' Hg'. destruct (Nat.eq_dec g' g) as [->|]; [|apply Hs; lia].
        unfold brd in Ec. destruct (Nat.ltb_spec ((dim - 1) * numC + g) (blen fb)); [assumption|discriminate]. }
  destruct Q as [_ Q]. assert (Hc : (1 <= numC)%nat) by nia. specialize (Q (numC - 1)%nat ltac:(lia)). nia.
Qed.
Lemma nobj_numC_beyond (o : nobj R) f x d a : (Z.of_nat (blen (p_nC o)) < p_dim o * p_numC o)%Z ->
  (0 <= p_numC o)%Z ->
  (Z.of_nat a < p_m o)%Z -> (forall i c, brd (p_nC o) i = Some c -> c <> Z.of_nat a) ->
  nobj_H ROps RFun f o x d false = None.
Proof.
  intros Hb Hc Ha Hn. unfold nobj_H. destruct (_ <? 0)%Z; [reflexivity|]. unfold nobj_nb.
  destruct (Z.ltb_spec (p_dim o) 0); [reflexivity|]. destruct (Z.ltb_spec (p_m o) 0); [lia|]. cbn [orb bind].
  unfold cpp_nH, cpp_nHint. cbn [nb_dim nb_m nb_numC nb_flat]. destruct (Z.to_nat (p_dim o)) as [|dim] eqn:Ed; [reflexivity|].
  match goal with |- context [NBasis (S dim) ?a1 ?a2 ?a3 ?a4 ?a5 ?a6 ?a7 ?a8 ?a9] =>
    set (B := NBasis (S dim) a1 a2 a3 a4 a5 a6 a7 a8 a9) end.
  destruct (cpp_nd_z ROps B _ _) as [z|]; cbn [bind]; [|reflexivity].
  destruct (cpp_nd_T ROps RFun f B z _ _) as [Tb|]; cbn [bind]; [|reflexivity].
  match goal with |- context [for_ ?l ?h ?bb ?F] => destruct (for_ l h bb F) as [F1|]; cbn [bind]; [|reflexivity] end.
  match goal with |- context [nrec ?mm ?lf dim ?vv ?ss] =>
    pose proof (nrec_fold mm lf (fun v st => lf (bof v) st) dim vv ss) as Ef; set (N := nrec mm lf dim vv ss) in * end.
  match type of Ef with ?A -> _ => assert (HA : A) end.
  { intros b v [out c] _ Hv. rewrite (keep_vec _ _ _ _ _ _ _ Hv). destruct (cpp_keep _ _ _ _ _ _) as [[]|]; cbn [bind]; try reflexivity.
    rewrite (nd_mult_vec _ _ _ _ _ _ _ _ Hv). reflexivity. }
  specialize (Ef HA eq_refl). rewrite (foldM_fails _ _ (repeat a (S dim))) in Ef.
  - destruct N as [[? ?]|]; cbn [bind] in *; [discriminate|reflexivity].
  - apply vecs_in. rewrite repeat_length. split; [reflexivity|]. apply List.Forall_forall. intros y Hy.
    apply repeat_spec in Hy. subst. lia.
  - intros [out c]. unfold cpp_keep.
    rewrite flag_beyond; [reflexivity| |exact Hn]. rewrite <- Ed. nia.
Qed.

(** ** a fresh object, and one statement on it *)
Lemma fresh_describes zf f dim x0 xf nC m B : n_args f dim x0 xf nC m -> nb_ok f dim x0 xf nC m B ->
  (forall k, (k < dim)%nat -> nth k x0 0 <> nth k xf 0) -> n_describes (nobj_of zf B) f dim x0 xf nC m.
Proof.
  intros (Hf & Hd & Hm1 & Ha & Hb & HC) HB Hne.
  assert (Hnc : nb_numC B = mc nC).
  { destruct (nbo_flat _ _ _ _ _ _ _ HB) as (Hl & Hr & _). destruct HC as (_ & _ & Hl' & Hr').
    destruct (md nC) as [|r rs]; [cbn in Hl; lia|]. rewrite <- (Hr r (or_introl eq_refl)). apply Hr'. left; reflexivity. }
  unfold n_describes, nobj_of. cbn [p_dim p_m p_numC p_nC p_x0 p_c p_z0].
  rewrite (nbo_dim _ _ _ _ _ _ _ HB), (nbo_m _ _ _ _ _ _ _ HB), Hnc.
  split; [reflexivity|]. split; [reflexivity|]. split; [rewrite Nat2Z.id; reflexivity|]. split.
  - intros i Hi. destruct (nbo_flat _ _ _ _ _ _ _ HB) as (_ & _ & Hbl & Hcell).
    rewrite brd_in by (rewrite Hbl, Hnc; exact Hi). apply Hcell.
  - intros k Hk. exists (nth k x0 0), (nd_ci f x0 xf k).
    rewrite (nbo_x0 _ _ _ _ _ _ _ HB), (nbo_c _ _ _ _ _ _ _ HB), (nbo_z0 _ _ _ _ _ _ _ HB).
    split; [apply nth_error_nth'; lia|]. split; [apply nth_error_nd_c, Hk|]. split; [apply Hne, Hk|]. intros t.
    apply zmap_nd; [exact Hf|apply Hne, Hk].
Qed.
Lemma describes_m o o' f dim a b nC m m' : n_describes o f dim a b nC m ->
  nobj_set o (NSet_m (Z.of_nat m')) = Some o' -> n_describes o' f dim a b nC m'.
Proof. intros (H1 & H2 & H3) [= <-]. split; [exact H1|]. split; [reflexivity|exact H3]. Qed.

Lemma idxs_mono dim m m' nC : (1 <= dim)%nat -> (1 <= m < m')%nat -> shaped nC dim (mc nC) ->
  (length (idxs dim m (md nC) true) < length (idxs dim m' (md nC) true))%nat.
Proof.
  intros Hd Hm HC. set (v := (m' - 1)%nat :: repeat 0%nat (dim - 1)).
  assert (Hs : list_sum v = (m' - 1)%nat).
  { unfold v. cbn. assert (E : forall k, list_sum (repeat 0%nat k) = 0%nat) by (induction k; auto). rewrite E. lia. }
  assert (Hl : length v = dim) by (unfold v; cbn; rewrite repeat_length; lia).
  change (length (v :: idxs dim m (md nC) true) <= length (idxs dim m' (md nC) true))%nat.
  apply NoDup_incl_length.
  - constructor; [|apply idxs_nodup]. intros Hin. apply idxs_in in Hin; [|lia|exact HC]. destruct Hin as (_ & Hin & _). lia.
  - intros w [<-|Hw]; apply idxs_in; try lia; try exact HC.
    + split; [exact Hl|]. split; [lia|left; reflexivity].
    + apply idxs_in in Hw; [|lia|exact HC]. destruct Hw as (Hw1 & Hw2 & _). split; [exact Hw1|]. split; [lia|left; reflexivity].
Qed.
Lemma mapM_all {T} (l : list T) : mapM (nth_error l) (seq 0 (length l)) = Some l.
Proof.
  assert (G : forall l' pre : list T, mapM (nth_error (pre ++ l')) (seq (length pre) (length l')) = Some l').
  { induction l' as [|x l' IH]; intros pre; cbn; [reflexivity|].
    rewrite nth_error_app2, Nat.sub_diag by lia. cbn.
    specialize (IH (pre ++ [x])). rewrite <- app_assoc, app_length in IH. cbn in IH. rewrite Nat.add_1_r in IH.
    rewrite IH. reflexivity. }
  apply (G l []).
Qed.
