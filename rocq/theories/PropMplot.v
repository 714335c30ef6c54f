(** C64: every matplotlib subplot carries its own labels and title. *)
From Coq Require Import List Bool Arith Ascii String Sorted Lia.
From Verif Require Import Base ModelPrinter ModelMplot SpecMplot ProofMplot.
Import ListNotations.
Local Open Scope list_scope.

(** What __init__ does in every case: each labelled cell has its own labels, and the titles that
    are not None are dealt out to the subplots in turn; more titles than subplots is an error. *)
Theorem C64_titles_in_turn_partial x y titles tw z r c :
  grid x r c -> covers (Some y) r c -> covers tw r c -> covers z r c -> covers titles r c ->
  let ts := the_given (row_major r c (entry_opt titles)) in
  if List.length ts <=? List.length (the_given (row_major r c (entry x)))
  then exists f, MakePlot x y titles tw z = Some f /\
         labelled f x y tw z (fun j k => nth_error ts (List.length (the_given (firstn (j * c + k) (row_major r c (entry x)))))) r c
  else MakePlot x y titles tw z = None.
Proof. exact (figure_exact x y titles tw z r c). Qed.
Print Assumptions C64_titles_in_turn_partial.

Lemma row_major_nth {A} r c (e : nat -> nat -> A) j k : j < r -> k < c -> nth_error (row_major r c e) (j * c + k) = Some (e j k).
Proof.
  intros Hj Hk. rewrite <- cells_row_major. assert (In (j, k) (cells r c)) as H by (apply in_cells; auto).
  apply in_split in H as [l1 [l2 E]]. rewrite E, map_app, nth_error_app2; rewrite map_length, (cells_split _ _ _ _ _ _ E); [|lia].
  rewrite Nat.sub_diag. reflexivity.
Qed.
Lemma row_major_length {A} r c (e : nat -> nat -> A) : List.length (row_major r c e) = r * c.
Proof. rewrite <- cells_row_major, map_length. rewrite <- (map_length (num c)), nums. apply seq_length. Qed.
Lemma same_mask_given {A B} (l : list (option A)) (l' : list (option B)) : Forall2 (fun a b => given a = given b) l l' ->
  forall n, (forall b, nth_error l' n = Some (Some b) -> nth_error (the_given l') (List.length (the_given (firstn n l))) = Some b) /\
  List.length (the_given l) = List.length (the_given l').
Proof.
  intros H. unfold the_given. induction H as [|a b l l' Hab H IH]; intros n.
  - split; [|reflexivity]. destruct n; discriminate.
  - split.
    + destruct n as [|n]; intros b' Hb; cbn [nth_error] in Hb.
      * injection Hb as ->. reflexivity.
      * cbn [firstn flat_map]. rewrite app_length. destruct a, b; try discriminate; cbn [List.length app Nat.add nth_error]; apply (proj1 (IH n)), Hb.
    + cbn [flat_map]. rewrite !app_length, (proj2 (IH 0)). destruct a, b; try discriminate; reflexivity.
Qed.

(** with titles for exactly the cells that have an x label, or no titles at all, every subplot
    carries its own labels and its own title *)
Theorem C64_own_labels_partial x y titles tw z r c :
  grid x r c -> covers (Some y) r c -> covers tw r c -> covers z r c -> covers titles r c ->
  (titles <> None -> forall j k, j < r -> k < c -> given (entry_opt titles j k) = given (entry x j k)) ->
  exists f, MakePlot x y titles tw z = Some f /\ labelled f x y tw z (entry_opt titles) r c.
Proof.
  intros Hx Hy Hw Hz Ht Hm. pose proof (figure_exact x y titles tw z r c Hx Hy Hw Hz Ht) as E. cbv zeta in E.
  assert (forall f t t', (forall j k, j < r -> k < c -> given (entry x j k) = true -> t j k = t' j k) -> labelled f x y tw z t r c -> labelled f x y tw z t' r c) as Hext.
  { intros f t t' He [H1 [H2 [H3 [H4 [H5 H6]]]]]. unfold labelled. repeat split; try assumption.
    intros j k Hj Hk. rewrite H5 by assumption. specialize (He j k Hj Hk). destruct (entry x j k); [|reflexivity]. rewrite He by reflexivity. reflexivity. }
  destruct titles as [t|].
  - assert (Forall2 (fun a b : option text => given a = given b) (row_major r c (entry x)) (row_major r c (entry t))) as HF.
    { rewrite <- !cells_row_major. assert (forall j k, In (j, k) (cells r c) -> j < r /\ k < c) as Hi by (intros j k; apply in_cells).
      induction (cells r c) as [|[j k] cs IH]; [constructor|]. cbn [map fst snd]. constructor.
      - destruct (Hi j k (or_introl eq_refl)). symmetry. apply (Hm ltac:(discriminate)); assumption.
      - apply IH. intros j' k' H. apply Hi. right. exact H. }
    change (row_major r c (entry_opt (Some t))) with (row_major r c (entry t)) in E. rewrite <- (proj2 (same_mask_given _ _ HF 0)) in E. rewrite Nat.leb_refl in E. destruct E as [f [Ef Hf]]. exists f. split; [exact Ef|].
    revert Hf. apply Hext. intros j k Hj Hk Hg. cbn [entry_opt].
    pose proof (Hm ltac:(discriminate) j k Hj Hk) as G. rewrite Hg in G. cbn [entry_opt] in G. destruct (entry t j k) as [s|] eqn:Es; [|discriminate].
    apply (proj1 (same_mask_given _ _ HF (j * c + k))). rewrite row_major_nth by assumption. rewrite Es. reflexivity.
  - assert (the_given (row_major r c (entry_opt None)) = []) as E0.
    { unfold the_given. assert (forall o, In o (row_major r c (entry_opt None)) -> o = None) as Hn.
      { unfold row_major. intros o Ho. apply in_flat_map in Ho as [j [_ Ho]]. apply in_map_iff in Ho as [k [<- _]]. reflexivity. }
      clear E Ht Hm Hext; revert Hn; induction (row_major r c (entry_opt None)) as [|o l IH]; intros Hn; [reflexivity|]. cbn. rewrite (Hn o (or_introl eq_refl)). apply IH. intros o' H. apply Hn. right. exact H. }
    rewrite E0 in E. cbn [List.length Nat.leb] in E. destruct E as [f [Ef Hf]]. exists f. split; [exact Ef|]. revert Hf. apply Hext. intros j k _ _ _. destruct (rank r c x j k); reflexivity.
Qed.
Print Assumptions C64_own_labels_partial.

(** If the first subplot is to have no title but some other cell has one, the first subplot gets
    a title that is not its own (or the call raises). *)
Theorem C64_title_refuted x y titles tw z r c j k t f :
  grid x r c -> covers (Some y) r c -> covers tw r c -> covers z r c -> covers titles r c ->
  given (entry x 0 0) = true -> entry_opt titles 0 0 = None -> j < r -> k < c -> entry_opt titles j k = Some t ->
  MakePlot x y titles tw z = Some f ->
  exists a s, subplots_at f 0 0 = [a] /\ ax_title a = Some s.
Proof.
  intros Hx Hy Hw Hz Ht H0 Ht0 Hj Hk Hs Ef. pose proof (figure_exact x y titles tw z r c Hx Hy Hw Hz Ht) as E. cbv zeta in E.
  destruct (_ <=? _); [|congruence]. destruct E as [f' [Ef' Hf]]. rewrite Ef in Ef'. injection Ef' as <-.
  destruct Hf as [_ [_ [_ [_ [H _]]]]]. rewrite H by lia. destruct (entry x 0 0) as [s|]; [|discriminate].
  assert (In t (the_given (row_major r c (entry_opt titles)))) as Hin.
  { unfold the_given. apply in_flat_map. exists (Some t). split; [|left; reflexivity]. rewrite <- Hs. apply (nth_error_In _ (j * c + k)), row_major_nth; assumption. }
  destruct (the_given (row_major r c (entry_opt titles))) as [|t' ts]; [destruct Hin|].
  eexists. exists t'. split; [reflexivity|]. cbn [ax_title]. reflexivity.
Qed.
Print Assumptions C64_title_refuted.

(** a grid of two rows and two columns with an empty cell, twin axes and matching titles *)
Definition s (x : string) : option text := Some (txt x).
Example C64_ex : option_map (fun f => (f_r f, f_c f, map (fun a => (ax_num a, ax_x a, ax_title a)) (f_ax f), f_twin f))
   (MakePlot (LNested [[s "a"; None]; [s "b"; s "c"]]) (LNested [[s "p"; None]; [s "q"; s "r"]])
             (Some (LNested [[s "A"; None]; [s "B"; s "C"]])) (Some (LNested [[s "t"; None]; [s "u"; s "v"]])) None)
  = Some (2, 2, [(1, s "a", s "A"); (3, s "b", s "B"); (4, s "c", s "C")], Some [(1, s "t"); (3, s "u"); (4, s "v")]).
Proof. vm_compute. reflexivity. Qed.
(** the first plot should have no title and gets the second one's *)
Example C64_wrong : option_map (fun f => map (fun a => (ax_num a, ax_title a)) (f_ax f))
   (MakePlot (LFlat [s "x1"; s "x2"]) (LFlat [s "y1"; s "y2"]) (Some (LFlat [None; s "t2"])) None None)
  = Some [(1, s "t2"); (2, None)].
Proof. vm_compute. reflexivity. Qed.
(** a title for a cell without a subplot raises *)
Example C64_raises : MakePlot (LFlat [s "x1"; None]) (LFlat [s "y1"; s "y2"]) (Some (LFlat [s "t1"; s "t2"])) None None = None.
Proof. vm_compute. reflexivity. Qed.
