(** C56: LaTeX tables. *)
From Coq Require Import List Bool Arith Ascii String Lia.
From Verif Require Import Base ModelPrinter ModelLatex SpecLatex ProofLatex.
Import ListNotations.
Local Open Scope list_scope.

Lemma table_reads o c rows ch rh : proper_table c rows ch rh ->
  exists t, SimpleTable o (Arr2 c rows) ch rh = Some t /\
    read t = Some (c + one_if rh, Rule :: heading ch ++ ruled (with_heads rh (map (shown o) rows))).
Proof.
  intros [Hc [Hrows [Hch Hrh]]].
  assert (match rh with None => True | Some l => 0 + len rows <= len l end) as Hl by (destruct rh; [apply Hrh|exact I]).
  assert (forall row, In row rows -> row <> [] /\ clean_all (shown o row)) as Hs.
  { intros row Hr. destruct (Hrows row Hr) as [Hn Hcl]. split; [intros ->; cbn in Hn; lia|]. intros t Ht. unfold shown in Ht. destruct (_ && _); [|apply Hcl, Ht].
    rewrite !in_app_iff in Ht. destruct Ht as [Ht|[[<-|[]]|Ht]].
    - apply Hcl. rewrite <- (firstn_skipn (edgeitems o) row). apply in_app_iff. left. exact Ht.
    - intros d Hd. cbn in Hd. destruct Hd as [<-|[<-|[<-|[]]]]; repeat split; discriminate.
    - apply Hcl. rewrite <- (firstn_skipn (len row - max 1 (edgeitems o)) row). apply in_app_iff. right. exact Ht. }
  pose proof (pieces_ok o rh rows 0 Hl Hs) as HF.
  assert (map (fun kr : nat * list text => heads rh (fst kr) ++ shown o (snd kr)) (combine (seq 0 (len rows)) rows) = with_heads rh (map (shown o) rows)) as E.
  { destruct rh as [l|]; cbn [with_heads].
    - clear -Hl. change (combine l (map (shown o) rows)) with (combine (skipn 0 l) (map (shown o) rows)). revert Hl. generalize 0. cbn [heads].
      induction rows as [|row rows IH]; intros k Hl; [destruct (skipn k l); reflexivity|].
      cbn [len seq combine map fst snd] in *. destruct (nth_error l k) as [a|] eqn:En; [|apply nth_error_None in En; lia].
      rewrite IH by lia. assert (skipn k l = a :: skipn (S k) l) as ->; [|reflexivity].
      clear -En. revert l En. induction k; intros l En; destruct l as [|b l]; try discriminate; cbn in *; [injection En as ->; reflexivity|]. apply IHk, En.
    - cbn [heads app]. generalize 0. clear. induction rows as [|row rows IH]; intros k; [reflexivity|]. cbn [len seq combine map fst snd]. rewrite IH. reflexivity. }
  rewrite E in HF.
  assert (forall row d, In row (with_heads rh (map (shown o) rows)) -> In d row -> plain d) as Hp.
  { intros row d Hr Hd. apply clean_plain. destruct rh as [l|]; cbn [with_heads] in Hr.
    - apply in_map_iff in Hr as [[a r] [<- Hin]]. pose proof (in_combine_l _ _ _ _ Hin) as H1. apply in_combine_r in Hin. apply in_map_iff in Hin as [r' [<- Hin]].
      cbn in Hd. destruct Hd as [<-|Hd]; [apply (proj2 Hrh), H1|]. apply (Hs r' Hin), Hd.
    - apply in_map_iff in Hr as [r' [<- Hin]]. apply (Hs r' Hin), Hd. }
  unfold SimpleTable, Arr2Tab. rewrite rows_some by exact Hl. cbn [bind app].
  set (ps := pieces o rh 0 rows) in *.
  assert (forall a, forallb space a = true -> (ts <- ltoks (rstrip (List.concat (map (fun p => p ++ ends) ps)) ++ nl) ;; lines a [] ts) = Some (ruled (with_heads rh (map (shown o) rows)))) as Hb.
  { intros a Ha. rewrite tab_text. pose proof (body_lines ps _ a HF Hp Ha) as B. destruct ps as [|p ps']; [|exact B].
    inversion HF as [Eq|]. cbn [ruled flat_map]. change (lines a [] [LCh (ascii_of_nat 10)] = Some []). cbn [lines]. unfold blank.
    rewrite trim_all; [reflexivity|]. rewrite forallb_app, Ha. reflexivity. }
  set (tab := rstrip (List.concat (map (fun p => p ++ ends) ps))) in *.
  assert (forall n ls, (ts <- ltoks (nl ++ txt "\hline" ++ nl ++ match ch with None => [] | Some l => colHeader_ l ++ txt "\hline" ++ nl end ++ tab ++ nl) ;; lines [] [] ts) = Some ls ->
     read (Header n ++ (txt "\hline" ++ nl ++ match ch with None => [] | Some l => colHeader_ l ++ txt "\hline" ++ nl end ++ tab ++ nl) ++ Footer) = Some (n, ls)) as HR by (intros n ls; apply read_ok).
  assert ((ts <- ltoks (nl ++ txt "\hline" ++ nl ++ match ch with None => [] | Some l => colHeader_ l ++ txt "\hline" ++ nl end ++ tab ++ nl) ;; lines [] [] ts)
          = Some (Rule :: heading ch ++ ruled (with_heads rh (map (shown o) rows)))) as HL.
  { rewrite ltoks_nl, ltoks_rule. destruct ch as [l|]; cbn [heading app].
    - destruct Hch as [Hne Hcl]. unfold colHeader_. rewrite <- !app_assoc.
      destruct l as [|w ws]; [congruence|]. rewrite join_weave.
      pose proof (row_text_lines (w ++ weave (repeat false (len ws)) ws) (w :: ws) nl (nl ++ txt "\hline" ++ nl ++ tab ++ nl)) as R.
      specialize (R (ex_intro _ w (ex_intro _ ws (ex_intro _ (repeat false (len ws)) (conj eq_refl (conj (repeat_length _ _) eq_refl)))))
                    (fun d Hd => clean_plain d (Hcl d Hd)) eq_refl).
      rewrite ltoks_nl. rewrite ltoks_nl, ltoks_rule, ltoks_nl in R. specialize (Hb nl eq_refl).
      destruct (ltoks (tab ++ nl)) as [ts|]; [|discriminate]. cbn [bind] in R, Hb.
      change (lines [] [] (LCh (ascii_of_nat 10) :: LRule :: LCh (ascii_of_nat 10) :: ts)) with (ls <- lines nl [] ts ;; Some (Rule :: ls)) in R.
      rewrite Hb in R. cbn [bind] in R.
      destruct (ltoks ((w ++ weave (repeat false (len ws)) ws) ++ txt "\\" ++ nl ++ txt "\hline" ++ nl ++ tab ++ nl)) as [ts'|]; [|discriminate]. cbn [bind] in R |- *.
      change (lines [] [] (LCh (ascii_of_nat 10) :: LRule :: LCh (ascii_of_nat 10) :: ts')) with (ls <- lines nl [] ts' ;; Some (Rule :: ls)). rewrite R. reflexivity.
    - rewrite ltoks_nl. specialize (Hb nl eq_refl). destruct (ltoks (tab ++ nl)) as [ts|]; [|discriminate]. cbn [bind] in *.
      change (lines [] [] (LCh (ascii_of_nat 10) :: LRule :: LCh (ascii_of_nat 10) :: ts)) with (ls <- lines nl [] ts ;; Some (Rule :: ls)). rewrite Hb. reflexivity. }
  exists (Header (c + one_if rh) ++ (txt "\hline" ++ nl ++ match ch with None => [] | Some l => colHeader_ l ++ txt "\hline" ++ nl end ++ tab ++ nl) ++ Footer).
  split; [|apply HR, HL]. f_equal. destruct ch as [l|], rh as [l'|]; cbn [one_if]; rewrite ?Nat.add_0_r, <- ?app_assoc; reflexivity.
Qed.

(** ** C56 *)
(** For arrays that numpy shows in full, the table has a letter for each column, and its rows are
    the rows of the array with their headings, every row followed by a rule. *)
Theorem C56_reads_partial o c rows ch rh : proper_table c rows ch rh -> c <= threshold o \/ c <= 2 * edgeitems o ->
  exists t, SimpleTable o (Arr2 c rows) ch rh = Some t /\
    read t = Some (c + one_if rh, Rule :: heading ch ++ ruled (with_heads rh rows)).
Proof.
  intros H Hc. destruct (table_reads o c rows ch rh H) as [t [E R]]. exists t. split; [exact E|]. rewrite R. do 4 f_equal.
  f_equal. f_equal. rewrite <- (map_id rows) at 2. apply map_ext_in. intros row Hr. destruct H as [_ [Hrows _]]. destruct (Hrows row Hr) as [Hn _]. unfold shown.
  rewrite Hn. destruct (threshold o <? c) eqn:E1, (2 * edgeitems o <? c) eqn:E2; try reflexivity. apply Nat.ltb_lt in E1, E2. lia.
Qed.
(** So every row has as many cells as there are letters, if the column heading has. *)
Theorem C56_cells_partial o c rows ch rh : proper_table c rows ch rh -> c <= threshold o \/ c <= 2 * edgeitems o ->
  match ch with None => True | Some l => List.length l = c + one_if rh end ->
  exists t ls, SimpleTable o (Arr2 c rows) ch rh = Some t /\ read t = Some (c + one_if rh, ls) /\
    (forall cells, In (Row cells) ls -> List.length cells = c + one_if rh) /\
    List.length (List.filter (fun l => match l with Row _ => true | Rule => false end) ls) = List.length rows + one_if ch.
Proof.
  intros H Hc Hh. destruct (C56_reads_partial o c rows ch rh H Hc) as [t [E R]]. exists t. eexists. split; [exact E|]. split; [exact R|].
  destruct H as [_ [Hrows [_ Hrh]]].
  assert (forall row, In row (with_heads rh rows) -> len row = c + one_if rh) as Hw.
  { intros row Hr. destruct rh as [l|]; cbn [with_heads one_if] in *.
    - apply in_map_iff in Hr as [[a r] [<- Hin]]. apply in_combine_r in Hin. cbn. rewrite (proj1 (Hrows r Hin)). lia.
    - rewrite (proj1 (Hrows row Hr)). lia. }
  assert (len (with_heads rh rows) = len rows) as Hn.
  { destruct rh as [l|]; cbn [with_heads]; [|reflexivity]. rewrite map_length, combine_length. lia. }
  split.
  - intros cells [H|H]; [discriminate|]. apply in_app_iff in H as [H|H].
    + destruct ch as [l|]; [|destruct H]. destruct H as [H|[H|[]]]; [|discriminate]. injection H as <-. rewrite map_length. exact Hh.
    + unfold ruled in H. apply in_flat_map in H as [row [Hr [H|[H|[]]]]]; [|discriminate]. injection H as <-. rewrite map_length. apply Hw, Hr.
  - cbn [filter]. rewrite filter_app, app_length. rewrite <- Hn. rewrite Nat.add_comm. f_equal; [|destruct ch; reflexivity].
    clear. induction (with_heads rh rows) as [|row l IH]; [reflexivity|]. cbn [len]. rewrite <- IH. reflexivity.
Qed.
(** Wider arrays lose columns: the rows have a fixed number of cells, whatever the letters say. *)
Theorem C56_wide_refuted o c rows ch : proper_table c rows ch None -> threshold o < c -> 2 * edgeitems o < c ->
  exists t, SimpleTable o (Arr2 c rows) ch None = Some t /\
    exists cells, read t = Some (c, Rule :: heading ch ++ ruled cells) /\ List.length cells = List.length rows /\
      forall row, In row cells -> List.length row = edgeitems o + 1 + max 1 (edgeitems o).
Proof.
  intros H H1 H2. destruct (table_reads o c rows ch None H) as [t [E R]]. exists t. split; [exact E|]. exists (map (shown o) rows).
  cbn [one_if with_heads] in R. rewrite Nat.add_0_r in R. split; [exact R|]. split; [apply map_length|].
  intros row Hr. apply in_map_iff in Hr as [r [<- Hr]]. destruct H as [_ [Hrows _]]. destruct (Hrows r Hr) as [Hn _]. unfold shown. rewrite Hn.
  apply Nat.ltb_lt in H1, H2. rewrite H1, H2. cbn [andb]. apply Nat.ltb_lt in H1, H2. rewrite !app_length, firstn_length, skipn_length, Hn. cbn [len]. lia.
Qed.
(** An array without columns gives rows of one empty cell. *)
Theorem C56_no_columns_refuted o : exists t, SimpleTable o (Arr2 0 [[]]) None None = Some t /\ read t = Some (0, [Rule; Row [[]]; Rule]).
Proof. eexists. split; reflexivity. Qed.
(** Only two-dimensional arrays are accepted, and only with enough row headings. *)
Theorem C56_errors_partial o c rows sh ch rh l : SimpleTable o (ArrN sh) ch rh = None /\
  (List.length l < List.length rows -> SimpleTable o (Arr2 c rows) ch (Some l) = None).
Proof.
  split; [unfold SimpleTable; destruct (nth_error sh 1); reflexivity|]. intros H. unfold SimpleTable, Arr2Tab. rewrite rows_none by lia. reflexivity.
Qed.
Example C56_ex : let o := Popts 20 1000 3 in
  exists t, SimpleTable o (Arr2 3 [map txt ["1.00E+00"; "-2.50E+00"; "3.25E+00"]; map txt ["4.00E+00"; "5.00E+00"; "6.00E+00"]]%string)
              (Some (map txt ["case"; "x"; "y"; "z"]%string)) (Some (map txt ["a"; "b"]%string)) = Some t /\
    read t = Some (4, [Rule; Row (map txt ["case"; "x"; "y"; "z"]%string); Rule;
                       Row (map txt ["a"; "1.00E+00"; "-2.50E+00"; "3.25E+00"]%string); Rule;
                       Row (map txt ["b"; "4.00E+00"; "5.00E+00"; "6.00E+00"]%string); Rule]) /\
  proper_table 3 [map txt ["1.00E+00"; "-2.50E+00"; "3.25E+00"]; map txt ["4.00E+00"; "5.00E+00"; "6.00E+00"]]%string
    (Some (map txt ["case"; "x"; "y"; "z"]%string)) (Some (map txt ["a"; "b"]%string)).
Proof.
  cbv zeta. eexists. split; [reflexivity|]. split; [reflexivity|].
  assert (forall l, forallb (fun t => forallb (fun c => negb (Ascii.eqb c "&"%char || Ascii.eqb c "\"%char || Ascii.eqb c "["%char || Ascii.eqb c "]"%char || Ascii.eqb c (ascii_of_nat 10))) t) l = true -> clean_all l) as Hc.
  { intros l H t Ht c Hin. rewrite forallb_forall in H. specialize (H t Ht). cbv beta in H. rewrite forallb_forall in H. specialize (H c Hin). apply negb_true_iff in H.
    rewrite !orb_false_iff, !Ascii.eqb_neq in H. tauto. }
  split; [lia|]. split; [|split; [split; [discriminate|apply Hc; reflexivity]|split; [cbn; lia|apply Hc; reflexivity]]].
  intros row [<-|[<-|[]]]; (split; [reflexivity|apply Hc; reflexivity]).
Qed.

Print Assumptions C56_reads_partial. Print Assumptions C56_cells_partial. Print Assumptions C56_wide_refuted.
Print Assumptions C56_no_columns_refuted. Print Assumptions C56_errors_partial.
