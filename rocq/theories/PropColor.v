(** Property C70: NormalizeColorScale gives all listed plots one colour scale. *)
From Coq Require Import Reals Lra List Bool String.
From Verif Require Import Base ModelPrinter ModelMplot ModelColor SpecColor ProofColor.
Import ListNotations.
Local Open Scope list_scope.

(** C70, partial: without limits, when every listed plot holds the named data and has a colour
    scale: all listed plots get the largest and smallest value over all of them, the others stay
    as they were.  Missing: listed plots without the data (refuted below). *)
Theorem C70_data_partial types ks :
  (forall k, In k ks -> is_listed types k -> (exists v, has_data k v) /\ t_scaled k = true) ->
  (exists k, In k ks /\ is_listed types k) ->
  exists ks' mx mn, NormalizeColorScale types None None ks = Some ks' /\
    largest (among types ks) mx /\ smallest (among types ks) mn /\
    scaled (is_listed types) (fun _ => Some (Fin mx)) (fun _ => Some (Fin mn)) ks ks'.
Proof.
  intros Hall [k0 [Hk0 Hl0]].
  destruct (scan_loop types ks) with (pre := @nil trace) (s := (@None (R * R), (NInf, PInf))) as [s [E Hk]].
  - intros k Hi Hl. left. apply (Hall k Hi Hl).
  - repeat split. intros k [].
  - intros _. destruct (filter (listed types) ks) as [|k l] eqn:Ef; [exact I|].
    assert (In k ks /\ listed types k = true) as [Hi Hl] by (apply filter_In; rewrite Ef; left; reflexivity).
    apply listed_spec in Hl. apply (Hall k Hi Hl).
  - unfold NormalizeColorScale. change (scan types ks) with (foldM (fun k (s : option (R * R) * (ext * ext)) =>
      let '(kk, (cmax, cmin)) := s in
      if listed types k then
        b <- t_in k ;;
        kk <- (if b then v <- t_val k ;; mx <- amax v ;; mn <- amin v ;; Some (Some (mx, mn)) else Some kk) ;;
        match kk with
        | None => None
        | Some (kmax, kmin) =>
            Some (Some (kmax, kmin), (if gt_ext kmax cmax then Fin kmax else cmax, if lt_ext kmin cmin then Fin kmin else cmin))
        end
      else Some s) ks (None, (NInf, PInf))). rewrite E. cbn [bind app] in *.
    destruct s as [[[kmax kmin]|] [cmax cmin]]; unfold known in Hk; cbn [app fst snd] in *.
    + destruct Hk as [_ [_ [[mx [-> Hmx]] [mn [-> Hmn]]]]].
      destruct (rescale_all types (Some (Fin mx)) (Some (Fin mn)) ks) as [ks' [Er S]].
      { intros k Hi Hl. destruct (Hall k Hi Hl) as [[v [Ht _]] Hs]. auto. }
      exists ks', mx, mn. split; [exact Er|]. split; [exact Hmx|]. split; [exact Hmn|].
      assert (forall k, In k ks -> is_listed types k -> t_in k = Some true) as Ht by (intros k Hi Hl; destruct (Hall k Hi Hl) as [[v [Ht _]] _]; exact Ht).
      clear - S Ht. unfold scaled in *. induction S as [|k k' ks ks' H S IH]; constructor.
      * destruct H as [[[Hl _] Hk]|[Hn Hk]]; [left; auto|right]. split; [|exact Hk]. intros Hl. apply Hn. split; [exact Hl|]. apply Ht; [left; reflexivity|exact Hl].
      * apply IH. intros; apply Ht; [right|]; assumption.
    + destruct Hk as [_ [_ Hno]]. destruct (Hno k0 Hk0 Hl0).
Qed.
Print Assumptions C70_data_partial.

(** C70, partial: with a limit given, it is assigned to every listed plot whose type has a property
    named [data]; a limit not given stays as it was, and so do all other plots *)
Theorem C70_limits_partial types cmax cmin ks : cmax <> None \/ cmin <> None ->
  (forall k, In k ks -> is_listed types k -> (t_in k = Some true /\ t_scaled k = true) \/ t_in k = Some false) ->
  exists ks', NormalizeColorScale types cmax cmin ks = Some ks' /\
    scaled (fun k => is_listed types k /\ t_in k = Some true)
      (fun k => if cmax then cmax else t_cmax k) (fun k => if cmin then cmin else t_cmin k) ks ks'.
Proof.
  intros Hc H. destruct (rescale_all types cmax cmin ks H) as [ks' [E S]]. exists ks'. split; [|exact S].
  unfold NormalizeColorScale. destruct cmax, cmin; cbn [bind fst snd]; try exact E. destruct Hc; congruence.
Qed.
Print Assumptions C70_limits_partial.

(** C70 is false when the first listed plot's type has no property named [data]: the call raises,
    although other plots may have the data *)
Theorem C70_first_refuted types before k after :
  (forall k', In k' before -> ~ is_listed types k') -> is_listed types k -> t_in k = Some false ->
  NormalizeColorScale types None None (before ++ k :: after) = None.
Proof.
  intros Hb Hl Ht. unfold NormalizeColorScale. assert (scan types (before ++ k :: after) = None) as ->; [|reflexivity].
  unfold scan. induction before as [|k' before IH].
  - cbn [app foldM]. apply listed_spec in Hl. rewrite Hl, Ht. reflexivity.
  - cbn [app foldM]. destruct (listed types k') eqn:El; [apply listed_spec in El; destruct (Hb k'); [left; reflexivity|exact El]|].
    cbn [bind]. apply IH. intros k0 H0. apply Hb. right. exact H0.
Qed.
Print Assumptions C70_first_refuted.

(** C70 is false with limits given: a listed plot whose type has no property named [data] is not
    assigned them, contrary to "the data variable is not used" *)
Theorem C70_limits_refuted types m k : is_listed types k -> t_in k = Some false -> t_cmax k <> Some m ->
  exists k', NormalizeColorScale types (Some m) None [k] = Some [k'] /\ t_cmax k' <> Some m.
Proof.
  intros Hl Ht Hm. exists k. split; [|exact Hm]. unfold NormalizeColorScale. cbn [bind fst snd mapM]. unfold rescale. apply listed_spec in Hl. rewrite Hl, Ht. reflexivity.
Qed.
Print Assumptions C70_limits_refuted.

(** and it raises on any listed plot when [data in plot] raises, as it does for the default None *)
Theorem C70_no_data_refuted types cmax cmin before k after : is_listed types k -> t_in k = None ->
  NormalizeColorScale types cmax cmin (before ++ k :: after) = None.
Proof.
  intros Hl Ht. unfold NormalizeColorScale. destruct (match cmax, cmin with None, None => _ | _, _ => _ end) as [[a b]|]; [|reflexivity]. cbn [bind fst snd].
  induction before as [|k' before IH].
  - cbn [app mapM]. unfold rescale at 1. apply listed_spec in Hl. rewrite Hl, Ht. reflexivity.
  - cbn [app mapM]. destruct (rescale types a b k'); [|reflexivity]. cbn [bind]. rewrite IH. reflexivity.
Qed.
Print Assumptions C70_no_data_refuted.

Example C70_case : let s := txt "Surface"%string in let v := txt "Volume"%string in
  NormalizeColorScale [s] None None
    [Trace s (Some true) (Some [1; 5]%R) true None None; Trace v (Some true) (Some [9]%R) true None None; Trace s (Some true) (Some [2; -3]%R) true None None]
  = Some [Trace s (Some true) (Some [1; 5]%R) true (Some (Fin 5)) (Some (Fin (-3))); Trace v (Some true) (Some [9]%R) true None None;
          Trace s (Some true) (Some [2; -3]%R) true (Some (Fin 5)) (Some (Fin (-3)))].
Proof.
  cbn -[Rmax Rmin Rlt_dec]. unfold Rmax, Rmin.
  destruct (Rle_dec 1 5); [|lra]. destruct (Rle_dec 2 (-3)); [lra|].
  destruct (Rlt_dec 5 2); [lra|]. destruct (Rlt_dec (-3) 1); [|lra]. reflexivity.
Qed.
