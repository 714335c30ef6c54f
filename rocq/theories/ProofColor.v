From Coq Require Import Reals Lra List Bool.
From Verif Require Import Base ModelPrinter ProofPrinter ModelMplot ModelColor SpecColor.
Import ListNotations.

Lemma listed_spec types k : listed types k = true <-> is_listed types k.
Proof.
  unfold listed, is_listed. rewrite existsb_exists. split.
  - intros [t [Ht E]]. apply teqb_eq in E. congruence.
  - intros H. exists (t_class k). split; [exact H|]. apply teqb_refl.
Qed.
Lemma fold_rmax l a : let m := fold_left Rmax l a in (m = a \/ In m l) /\ (a <= m)%R /\ forall x, In x l -> (x <= m)%R.
Proof.
  revert a. induction l as [|b l IH]; intros a; cbn [fold_left]; [split; [left; reflexivity|split; [lra|intros x []]]|].
  destruct (IH (Rmax a b)) as [H1 [H2 H3]]. cbv zeta. pose proof (Rmax_l a b). pose proof (Rmax_r a b). split; [|split; [lra|]].
  - destruct H1 as [->|H1]; [|right; right; exact H1]. unfold Rmax. destruct (Rle_dec a b); [right; left; reflexivity|left; reflexivity].
  - intros x [<-|Hx]; [lra|apply H3, Hx].
Qed.
Lemma fold_rmin l a : let m := fold_left Rmin l a in (m = a \/ In m l) /\ (m <= a)%R /\ forall x, In x l -> (m <= x)%R.
Proof.
  revert a. induction l as [|b l IH]; intros a; cbn [fold_left]; [split; [left; reflexivity|split; [lra|intros x []]]|].
  destruct (IH (Rmin a b)) as [H1 [H2 H3]]. cbv zeta. pose proof (Rmin_l a b). pose proof (Rmin_r a b). split; [|split; [lra|]].
  - destruct H1 as [->|H1]; [|right; right; exact H1]. unfold Rmin. destruct (Rle_dec a b); [left; reflexivity|right; left; reflexivity].
  - intros x [<-|Hx]; [lra|apply H3, Hx].
Qed.
Lemma amax_spec l : l <> [] -> exists m, amax l = Some m /\ largest (fun x => In x l) m.
Proof.
  destruct l as [|a l]; [contradiction|]. intros _. eexists. split; [reflexivity|]. destruct (fold_rmax l a) as [H1 [H2 H3]].
  split; [destruct H1 as [->|H1]; [left; reflexivity|right; exact H1]|]. intros x [<-|Hx]; [exact H2|apply H3, Hx].
Qed.
Lemma amin_spec l : l <> [] -> exists m, amin l = Some m /\ smallest (fun x => In x l) m.
Proof.
  destruct l as [|a l]; [contradiction|]. intros _. eexists. split; [reflexivity|]. destruct (fold_rmin l a) as [H1 [H2 H3]].
  split; [destruct H1 as [->|H1]; [left; reflexivity|right; exact H1]|]. intros x [<-|Hx]; [exact H2|apply H3, Hx].
Qed.
(** a listed plot has data, or its type has no such property *)
Definition fit (k : trace) : Prop := (exists v, has_data k v) \/ t_in k = Some false.
(** what the loop knows after the traces [ks] *)
Definition known (types : list text) (ks : list trace) (s : option (R * R) * (ext * ext)) : Prop :=
  match s with
  | (None, (cmax, cmin)) => cmax = NInf /\ cmin = PInf /\ forall k, In k ks -> ~ is_listed types k
  | (Some (kmax, kmin), (cmax, cmin)) =>
      among types ks kmax /\ among types ks kmin /\
      (exists m, cmax = Fin m /\ largest (among types ks) m) /\ (exists m, cmin = Fin m /\ smallest (among types ks) m)
  end.
Lemma among_app types a b x : among types (a ++ b) x <-> among types a x \/ among types b x.
Proof.
  unfold among. split.
  - intros [k [v [Hi H]]]. apply in_app_or in Hi as [Hi|Hi]; [left|right]; exists k, v; auto.
  - intros [[k [v [Hi H]]]|[k [v [Hi H]]]]; exists k, v; split; try exact H; apply in_or_app; auto.
Qed.
Lemma among_one types k x : among types [k] x <-> is_listed types k /\ exists v, has_data k v /\ In x v.
Proof.
  unfold among. split.
  - intros [k' [v [[<-|[]] [Hl [Hd Hx]]]]]. eauto.
  - intros [Hl [v [Hd Hx]]]. exists k, v. repeat split; auto; try apply Hd. left. reflexivity.
Qed.
Lemma scan_loop types ks : (forall k, In k ks -> is_listed types k -> fit k) ->
  forall pre s, known types pre s ->
  (fst s = None -> match filter (listed types) ks with [] => True | k :: _ => exists v, has_data k v end) ->
  exists s', foldM (fun k (s : option (R * R) * (ext * ext)) =>
    let '(kk, (cmax, cmin)) := s in
    if listed types k then
      b <- t_in k ;;
      kk <- (if b then v <- t_val k ;; mx <- amax v ;; mn <- amin v ;; Some (Some (mx, mn)) else Some kk) ;;
      match kk with
      | None => None
      | Some (kmax, kmin) =>
          Some (Some (kmax, kmin), (if gt_ext kmax cmax then Fin kmax else cmax, if lt_ext kmin cmin then Fin kmin else cmin))
      end
    else Some s) ks s = Some s' /\ known types (pre ++ ks) s'.
Proof.
  induction ks as [|k ks IH]; intros Hfit pre s Hs Hfirst.
  - exists s. rewrite app_nil_r. split; [reflexivity|exact Hs].
  - cbn [foldM]. destruct s as [kk [cmax cmin]].
    assert (forall k0, In k0 ks -> is_listed types k0 -> fit k0) as Hfit' by (intros; apply Hfit; [right|]; assumption).
    replace (pre ++ k :: ks) with ((pre ++ [k]) ++ ks) by (rewrite <- app_assoc; reflexivity).
    destruct (listed types k) eqn:El.
    + assert (is_listed types k) as Hl by (apply listed_spec, El).
      assert (forall v, has_data k v -> forall y, among types [k] y <-> In y v) as Hone.
      { intros v Hd y. rewrite among_one. split.
        - intros [_ [v' [Hd' Hy]]]. destruct Hd as [_ [E1 _]], Hd' as [_ [E2 _]]. congruence.
        - intros Hy. split; [exact Hl|]. exists v. auto. }
      destruct (Hfit k (or_introl eq_refl) Hl) as [[v Hd]|Hin].
      * specialize (Hone v Hd). pose proof Hd as [Hin [Hval Hne]]. rewrite Hin. cbn [bind]. rewrite Hval. cbn [bind].
        destruct (amax_spec v Hne) as [mx [Emx [Imx Bmx]]]. destruct (amin_spec v Hne) as [mn [Emn [Imn Bmn]]]. rewrite Emx, Emn. cbn [bind].
        apply IH; [exact Hfit'| |discriminate]. unfold known.
        assert (among types (pre ++ [k]) mx) as Amx by (apply among_app; right; apply Hone, Imx).
        assert (among types (pre ++ [k]) mn) as Amn by (apply among_app; right; apply Hone, Imn).
        split; [exact Amx|]. split; [exact Amn|]. destruct kk as [[kmax kmin]|].
        -- destruct Hs as [_ [_ [[a [-> [Ia Ba]]] [b [-> [Ib Bb]]]]]]. cbn [gt_ext lt_ext]. split.
           ++ destruct (Rlt_dec a mx) as [L|L]; [exists mx|exists a]; (split; [reflexivity|]); (split; [auto; apply among_app; auto|]);
                intros x Hx; apply among_app in Hx as [Hx|Hx]; try (apply Ba in Hx; lra); apply Hone, Bmx in Hx; lra.
           ++ destruct (Rlt_dec mn b) as [L|L]; [exists mn|exists b]; (split; [reflexivity|]); (split; [auto; apply among_app; auto|]);
                intros x Hx; apply among_app in Hx as [Hx|Hx]; try (apply Bb in Hx; lra); apply Hone, Bmn in Hx; lra.
        -- destruct Hs as [-> [-> Hno]]. cbn [gt_ext lt_ext].
           assert (forall x, among types pre x -> False) as Hnone by (intros x [k0 [v0 [Hi [Hl0 _]]]]; apply (Hno k0 Hi Hl0)).
           split; [exists mx|exists mn]; (split; [reflexivity|]); (split; [assumption|]); intros x Hx;
             apply among_app in Hx as [Hx|Hx]; try (destruct (Hnone x Hx)); apply Hone in Hx; [apply Bmx|apply Bmn]; exact Hx.
      * rewrite Hin. cbn [bind]. destruct kk as [[kmax kmin]|].
        -- cbn [bind]. apply IH; [exact Hfit'| |discriminate].
           assert (forall x, among types (pre ++ [k]) x <-> among types pre x) as Hsame.
           { intros x. rewrite among_app, among_one. split; [|auto]. intros [H|[_ [v [[H _] _]]]]; [exact H|congruence]. }
           unfold known in *. destruct Hs as [A [B [[a [-> [Ia Ba]]] [b [-> [Ib Bb]]]]]]. split; [apply Hsame, A|]. split; [apply Hsame, B|].
           apply Ba in A. apply Bb in B. cbn [gt_ext lt_ext]. destruct (Rlt_dec a kmax); [lra|]. destruct (Rlt_dec kmin b); [lra|].
           split; [exists a|exists b]; (split; [reflexivity|]); (split; [apply Hsame; assumption|]); intros x Hx; apply Hsame in Hx; auto.
        -- exfalso. specialize (Hfirst eq_refl). cbn [filter] in Hfirst. rewrite El in Hfirst. destruct Hfirst as [v [H _]]. congruence.
    + apply IH; [exact Hfit'| |].
      * assert (~ is_listed types k) as Hl by (rewrite <- listed_spec; congruence).
        assert (forall x, among types (pre ++ [k]) x <-> among types pre x) as Hsame.
        { intros x. rewrite among_app, among_one. tauto. }
        unfold known in *. destruct kk as [[kmax kmin]|].
        -- destruct Hs as [A [B [[a [-> [Ia Ba]]] [b [-> [Ib Bb]]]]]]. split; [apply Hsame, A|]. split; [apply Hsame, B|].
           split; [exists a|exists b]; (split; [reflexivity|]); (split; [apply Hsame; assumption|]); intros x Hx; apply Hsame in Hx; auto.
        -- destruct Hs as [-> [-> Hno]]. repeat split. intros k0 Hi. apply in_app_or in Hi as [Hi|[<-|[]]]; auto.
      * intros Hk. specialize (Hfirst Hk). cbn [filter] in Hfirst. rewrite El in Hfirst. exact Hfirst.
Qed.
Lemma rescale_all types cmax cmin ks :
  (forall k, In k ks -> is_listed types k -> (t_in k = Some true /\ t_scaled k = true) \/ t_in k = Some false) ->
  exists ks', mapM (rescale types cmax cmin) ks = Some ks' /\
    scaled (fun k => is_listed types k /\ t_in k = Some true)
      (fun k => match cmax with None => t_cmax k | Some _ => cmax end) (fun k => match cmin with None => t_cmin k | Some _ => cmin end) ks ks'.
Proof.
  induction ks as [|k ks IH]; intros H; [exists []; split; [reflexivity|constructor]|].
  destruct IH as [ks' [E S]]; [intros; apply H; [right|]; assumption|].
  cbn [mapM]. unfold rescale at 1. destruct (listed types k) eqn:El.
  - assert (is_listed types k) as Hl by (apply listed_spec, El). destruct (H k (or_introl eq_refl) Hl) as [[Ht Hs]|Ht]; rewrite Ht; cbn [bind].
    + rewrite Hs. cbn [bind]. rewrite E. cbn [bind]. eexists. split; [reflexivity|]. constructor; [|exact S]. left. split; [auto|]. unfold with_scale. rewrite Ht, Hs. reflexivity.
    + rewrite E. cbn [bind]. eexists. split; [reflexivity|]. constructor; [|exact S]. right. split; [intros [_ H']; congruence|reflexivity].
  - cbn [bind]. rewrite E. cbn [bind]. eexists. split; [reflexivity|]. constructor; [|exact S]. right. split; [|reflexivity].
    intros [Hl _]. apply listed_spec in Hl. congruence.
Qed.
