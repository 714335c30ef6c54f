(** Proofs about the LaTeX tables. *)
From Coq Require Import List Bool Arith Ascii String Lia.
From Verif Require Import Base ModelPrinter ModelLatex SpecLatex.
Import ListNotations.
Local Open Scope list_scope.
Notation len := List.length.

(** ** Trimming *)
Lemma ltrim_ws a t : forallb space a = true -> ltrim (a ++ t) = ltrim t.
Proof. induction a as [|c a IH]; [reflexivity|]. cbn. intros H. apply andb_true_iff in H as [-> H]. apply IH, H. Qed.
Lemma ltrim_all a : forallb space a = true -> ltrim a = [].
Proof. intros H. rewrite <- (app_nil_r a). rewrite ltrim_ws by exact H. reflexivity. Qed.
Lemma forallb_rev {A} (p : A -> bool) l : forallb p (rev l) = forallb p l.
Proof.
  induction l as [|a l IH]; [reflexivity|]. cbn. rewrite forallb_app, IH. cbn. rewrite andb_true_r. apply andb_comm.
Qed.
Lemma ltrim_app a t : ltrim a <> [] -> ltrim (a ++ t) = ltrim a ++ t.
Proof. induction a as [|c a IH]; [cbn; congruence|]. cbn. destruct (space c); [exact IH|reflexivity]. Qed.
Lemma ltrim_nil a : ltrim a = [] -> forallb space a = true.
Proof. induction a as [|c a IH]; [reflexivity|]. cbn. destruct (space c); [exact IH|discriminate]. Qed.
Lemma trim_ws a t b : forallb space a = true -> forallb space b = true -> trim (a ++ t ++ b) = trim t.
Proof.
  intros Ha Hb. unfold trim. rewrite ltrim_ws by exact Ha. destruct (ltrim t) as [|c r] eqn:E.
  - rewrite ltrim_ws by (apply ltrim_nil, E). rewrite (ltrim_all b Hb). reflexivity.
  - rewrite ltrim_app by congruence. rewrite E, rev_app_distr. rewrite ltrim_ws by (rewrite forallb_rev; exact Hb). reflexivity.
Qed.
Lemma trim_l a t : forallb space a = true -> trim (a ++ t) = trim t.
Proof. intros H. rewrite <- (app_nil_r t) at 1. apply trim_ws; [exact H|reflexivity]. Qed.
Lemma trim_all a : forallb space a = true -> trim a = [].
Proof. intros H. unfold trim. rewrite (ltrim_all a H). reflexivity. Qed.
Lemma drop_while_ltrim t : drop_while space t = ltrim t.
Proof. induction t as [|c t IH]; [reflexivity|]. cbn. rewrite IH. reflexivity. Qed.
Lemma rstrip_app t c b : space c = false -> forallb space b = true -> rstrip (t ++ c :: b) = t ++ [c].
Proof.
  intros Hc Hb. unfold rstrip. rewrite drop_while_ltrim. rewrite rev_app_distr. cbn [rev]. rewrite <- app_assoc.
  rewrite ltrim_ws by (rewrite forallb_rev; exact Hb). cbn. rewrite Hc. cbn. rewrite rev_involutive. reflexivity.
Qed.

(** ** Rows as numpy writes them *)
(** words with a gap before each but the first *)
Fixpoint weave (gs : list bool) (ws : list text) : text :=
  match gs, ws with
  | g :: gs', w :: ws' => (if g then txt " &" ++ nl ++ txt " " else sep) ++ w ++ weave gs' ws'
  | _, _ => []
  end.
Lemma format_ok o : forall ws s l J w0, s ++ l = txt " " ++ J -> ws = w0 :: tl ws -> exists gs, len gs = len ws /\
  format_row o (s, l ++ sep) ws = txt " " ++ J ++ weave gs ws.
Proof.
  induction ws as [|w ws IH]; intros s l J w0 E Hne; [discriminate|]. clear Hne w0.
  assert (exists (g : bool) s' l', extend o (s, l ++ sep) w = (s', l') /\ s' ++ l' = txt " " ++ J ++ (if g then txt " &" ++ nl ++ txt " " else sep) ++ w) as [g [s' [l' [Ex E']]]].
  { unfold extend. destruct (_ && _) eqn:C.
    - exists true. eexists. eexists. split; [reflexivity|].
      replace (l ++ sep) with ((l ++ [" "%char]) ++ "&"%char :: txt " ") by (rewrite <- app_assoc; reflexivity).
      rewrite rstrip_app by reflexivity. rewrite <- !app_assoc. rewrite (app_assoc s l), E. rewrite <- !app_assoc. reflexivity.
    - exists false. eexists. eexists. split; [reflexivity|]. rewrite <- !app_assoc. rewrite (app_assoc s l), E. rewrite <- !app_assoc. reflexivity. }
  destruct ws as [|w' ws].
  - exists [g]. split; [reflexivity|]. cbn [format_row]. rewrite Ex, E'. cbn [weave]. rewrite app_nil_r. reflexivity.
  - destruct (IH s' l' (J ++ (if g then txt " &" ++ nl ++ txt " " else sep) ++ w) w') as [gs [Hl Hf]]; [exact E'|reflexivity|].
    exists (g :: gs). split; [cbn [len]; rewrite Hl; reflexivity|]. change (format_row o (s, l ++ sep) (w :: w' :: ws)) with
      (let '(s, line) := extend o (s, l ++ sep) w in format_row o (s, line ++ sep) (w' :: ws)). rewrite Ex; cbv beta iota; rewrite Hf.
    cbn [weave]. rewrite <- !app_assoc. reflexivity.
Qed.
Lemma array2string_ok o cells w ws : shown o cells = w :: ws -> exists gs, len gs = len ws /\
  array2string o cells = txt "[" ++ (w ++ weave gs ws) ++ txt "]".
Proof.
  intros E. unfold array2string. destruct cells as [|c cells]; [unfold shown in E; cbn in E; discriminate|]. rewrite E.
  destruct ws as [|w' ws].
  - exists []. split; [reflexivity|]. cbn [format_row]. unfold extend. cbn [txt list_ascii_of_string len Nat.leb negb]. rewrite andb_false_r. cbn. rewrite app_nil_r. reflexivity.
  - change (format_row o ([], txt " ") (w :: w' :: ws)) with (let '(s, line) := extend o ([], txt " ") w in format_row o (s, line ++ sep) (w' :: ws)).
    assert (extend o ([], txt " ") w = ([], txt " " ++ w)) as -> by (unfold extend; cbn [txt list_ascii_of_string len Nat.leb negb]; rewrite andb_false_r; reflexivity).
    destruct (format_ok o (w' :: ws) [] (txt " " ++ w) w w') as [gs [Hl ->]]; [reflexivity|reflexivity|].
    exists gs. split; [exact Hl|]. reflexivity.
Qed.
Lemma strip_ok t : forallb (fun c => negb (bracket c)) t = true -> strip bracket (txt "[" ++ t ++ txt "]") = t.
Proof.
  intros H. assert (forall u, forallb (fun c => negb (bracket c)) u = true -> drop_while bracket u = u) as Hd.
  { intros u. destruct u as [|c u]; [reflexivity|]. cbn. intros Hu. apply andb_true_iff in Hu as [Hc _]. destruct (bracket c); [discriminate|reflexivity]. }
  unfold strip. change (drop_while bracket (txt "[" ++ t ++ txt "]")) with (drop_while bracket (t ++ txt "]")).
  destruct t as [|c t]; [reflexivity|].
  assert (drop_while bracket ((c :: t) ++ txt "]") = (c :: t) ++ txt "]") as ->.
  { cbn [app drop_while]. cbn [forallb] in H. apply andb_true_iff in H as [Hc _]. destruct (bracket c); [discriminate|reflexivity]. }
  rewrite rev_app_distr. change (drop_while bracket (rev (txt "]") ++ rev (c :: t))) with (drop_while bracket (rev (c :: t))).
  rewrite Hd by (rewrite forallb_rev; exact H). apply rev_involutive.
Qed.

(** ** Reading *)
(** text without ampersands or backslashes *)
Definition plain (t : text) : Prop := forall c, In c t -> c <> "&"%char /\ c <> "\"%char.
Definition toks_of (t : text) : list ltok := map (fun c => if Ascii.eqb c "&"%char then LAmp else LCh c) t.
Lemma ltoks_ch c r : c <> "\"%char -> ltoks (c :: r) = (ts <- ltoks r ;; Some ((if Ascii.eqb c "&"%char then LAmp else LCh c) :: ts)).
Proof.
  intros H. destruct c as [[] [] [] [] [] [] [] []]; try reflexivity; congruence.
Qed.
Lemma ltoks_app t r : (forall c, In c t -> c <> "\"%char) -> ltoks (t ++ r) = (ts <- ltoks r ;; Some (toks_of t ++ ts)).
Proof.
  induction t as [|c t IH]; intros H; [cbn; destruct (ltoks r); reflexivity|]. cbn [app]. rewrite ltoks_ch by (apply H; left; reflexivity).
  rewrite IH by (intros; apply H; right; assumption). destruct (ltoks r); reflexivity.
Qed.
Lemma lines_plain t cell row r : plain t -> lines cell row (toks_of t ++ r) = lines (cell ++ t) row r.
Proof.
  revert cell. induction t as [|c t IH]; intros cell H; [rewrite app_nil_r; reflexivity|].
  cbn [toks_of map app]. destruct (H c (or_introl eq_refl)) as [Hc _]. apply Ascii.eqb_neq in Hc. rewrite Hc. cbn [lines].
  unfold toks_of in IH. rewrite IH by (intros d Hd; apply H; right; exact Hd). rewrite <- app_assoc. reflexivity.
Qed.
Lemma toks_app a b : toks_of (a ++ b) = toks_of a ++ toks_of b.
Proof. apply map_app. Qed.
Lemma lines_space t c r : forallb space t = true -> lines t [] (LRule :: r) = (ls <- lines [] [] r ;; Some (Rule :: ls)) /\
  (c = t -> lines c [] [] = Some []).
Proof. intros H. split; [|intros ->]; cbn; unfold blank; rewrite trim_all by exact H; reflexivity. Qed.
Lemma clean_plain t : clean t -> plain t.
Proof. intros H c Hc. destruct (H c Hc) as [H1 [H2 _]]. auto. Qed.
(** a row of words and gaps, then the end of the row *)
Lemma lines_weave gs : forall ws row a w r, len gs = len ws -> (forall t, In t ws -> plain t) -> plain w -> forallb space a = true ->
  lines a row (toks_of (w ++ weave gs ws) ++ LRow :: r) =
  (ls <- lines [] [] r ;; Some (Row (row ++ map trim (w :: ws)) :: ls)).
Proof.
  induction gs as [|g gs IH]; intros ws row a w r Hl Hw Hp Ha.
  - destruct ws; [|discriminate]. cbn [weave]. rewrite app_nil_r. rewrite lines_plain by exact Hp. cbn [lines map]. rewrite trim_l by exact Ha. reflexivity.
  - destruct ws as [|w' ws]; [discriminate|]. cbn [weave]. rewrite !toks_app, <- !app_assoc. rewrite lines_plain by exact Hp.
    destruct g.
    + change (toks_of (txt " &" ++ nl ++ txt " ")) with ([LCh " "%char; LAmp] ++ toks_of (nl ++ txt " ")).
      rewrite <- !app_assoc. cbn [app lines]. rewrite lines_plain by (intros c Hc; cbn in Hc; destruct Hc as [<-|[<-|[]]]; split; discriminate).
      rewrite !app_assoc. rewrite <- toks_app. rewrite IH; [|cbn in Hl; lia|intros t Ht; apply Hw; right; exact Ht|apply Hw; left; reflexivity|reflexivity].
      rewrite <- app_assoc. cbn [map app]. rewrite <- app_assoc, trim_ws by (exact Ha || reflexivity). reflexivity.
    + change (toks_of sep) with ([LCh " "%char; LAmp] ++ toks_of (txt " ")).
      rewrite <- !app_assoc. cbn [app lines]. rewrite lines_plain by (intros c Hc; cbn in Hc; destruct Hc as [<-|[]]; split; discriminate).
      rewrite !app_assoc. rewrite <- toks_app. rewrite IH; [|cbn in Hl; lia|intros t Ht; apply Hw; right; exact Ht|apply Hw; left; reflexivity|reflexivity].
      rewrite <- app_assoc. cbn [map app]. rewrite <- app_assoc, trim_ws by (exact Ha || reflexivity). reflexivity.
Qed.
Lemma join_weave w ws : join sep (w :: ws) = w ++ weave (repeat false (len ws)) ws.
Proof.
  revert w. induction ws as [|w' ws IH]; intros w; [cbn; rewrite app_nil_r; reflexivity|].
  change (join sep (w :: w' :: ws)) with (w ++ sep ++ join sep (w' :: ws)). rewrite IH. reflexivity.
Qed.
Lemma weave_chars (p : ascii -> bool) gs ws : p " "%char = true -> p "&"%char = true -> p (ascii_of_nat 10) = true ->
  (forall t, In t ws -> forallb p t = true) -> forallb p (weave gs ws) = true.
Proof.
  intros H1 H2 H3. revert ws. induction gs as [|g gs IH]; intros ws H; [reflexivity|]. destruct ws as [|w ws]; [reflexivity|].
  cbn [weave]. rewrite !forallb_app. rewrite (H w (or_introl eq_refl)), (IH ws) by (intros; apply H; right; assumption).
  destruct g; [unfold nl|unfold sep]; cbn [txt list_ascii_of_string app forallb]; rewrite ?H1, ?H2, ?H3; reflexivity.
Qed.
Lemma clean_bracket t : clean t -> forallb (fun c => negb (bracket c)) t = true.
Proof.
  intros H. apply forallb_forall. intros c Hc. destruct (H c Hc) as [_ [_ [H1 [H2 _]]]]. unfold bracket.
  apply Ascii.eqb_neq in H1, H2. rewrite H1, H2. reflexivity.
Qed.
Definition heads (rowHeader : option (list text)) (k : nat) : list text :=
  match rowHeader with None => [] | Some l => match nth_error l k with Some a => [a] | None => [] end end.
(** one row of the table: its text reads as its cells and a rule *)
Definition row_text (t : text) (cells : list text) : Prop :=
  exists w ws gs, cells = w :: ws /\ len gs = len ws /\ t = w ++ weave gs ws.
Lemma row_text_lines t cells a r : row_text t cells -> (forall c, In c cells -> plain c) -> forallb space a = true ->
  (ts <- ltoks (t ++ txt "\\" ++ r) ;; lines a [] ts) =
  (ts <- ltoks r ;; ls <- lines [] [] ts ;; Some (Row (map trim cells) :: ls)).
Proof.
  intros [w [ws [gs [-> [Hl ->]]]]] Hp Ha. rewrite ltoks_app.
  - change (ltoks (txt "\\" ++ r)) with (ts <- ltoks r ;; Some (LRow :: ts)). destruct (ltoks r) as [ts|]; [|reflexivity]. cbn [bind].
    rewrite lines_weave; [reflexivity|exact Hl| | |exact Ha].
    + intros t Ht. apply Hp. right. exact Ht.
    + apply Hp. left. reflexivity.
  - assert (forallb (fun c => negb (Ascii.eqb c "\"%char)) (w ++ weave gs ws) = true) as H.
    { rewrite forallb_app. apply andb_true_iff. split.
      - apply forallb_forall. intros c Hc. destruct (Hp w (or_introl eq_refl) c Hc) as [_ Hb]. apply Ascii.eqb_neq in Hb. rewrite Hb. reflexivity.
      - apply weave_chars; [reflexivity..|]. intros t Ht. apply forallb_forall. intros c Hc. destruct (Hp t (or_intror Ht) c Hc) as [_ Hb].
        apply Ascii.eqb_neq in Hb. rewrite Hb. reflexivity. }
    intros c Hc E. rewrite forallb_forall in H. specialize (H c Hc). subst c. discriminate.
Qed.
Lemma row_text_cons h t cells : row_text t cells -> row_text (h ++ sep ++ t) (h :: cells).
Proof. intros [w [ws [gs [-> [Hl ->]]]]]. exists h, (w :: ws), (false :: gs). split; [reflexivity|]. split; [cbn; lia|]. reflexivity. Qed.
(** the rows that are written *)
Definition piece (h : list text) (o : popts) (row : list text) : text :=
  match h with [] => [] | a :: _ => a ++ sep end ++ strip bracket (array2string o row).
Fixpoint pieces (o : popts) (rh : option (list text)) (k : nat) (rows : list (list text)) : list text :=
  match rows with [] => [] | row :: r => piece (heads rh k) o row :: pieces o rh (S k) r end.
Definition ends : text := txt "\\" ++ nl ++ txt "\hline" ++ nl.
Lemma rows_some o rh rows : forall k out, match rh with None => True | Some l => k + len rows <= len l end ->
  Arr2Tab_rows o rh k rows out = Some (out ++ List.concat (map (fun p => p ++ ends) (pieces o rh k rows))).
Proof.
  induction rows as [|row rows IH]; intros k out H; [cbn; rewrite app_nil_r; reflexivity|]. cbn [Arr2Tab_rows pieces map List.concat].
  destruct rh as [l|].
  - destruct (nth_error l k) as [a|] eqn:E; [|apply nth_error_None in E; cbn [len] in H; lia]. cbn [bind heads]. rewrite E. rewrite IH by (cbn [len] in H; lia).
    unfold piece, ends. rewrite <- !app_assoc. reflexivity.
  - cbn [bind heads]. rewrite IH by exact I. unfold piece, ends. rewrite <- !app_assoc. reflexivity.
Qed.
Lemma rows_none o l rows : forall k out, len l < k + len rows -> k <= len l -> Arr2Tab_rows o (Some l) k rows out = None.
Proof.
  induction rows as [|row rows IH]; intros k out H Hk; [cbn in H; lia|]. cbn [Arr2Tab_rows]. destruct (nth_error l k) as [a|] eqn:E; [|reflexivity].
  cbn [bind]. apply IH; [cbn [len] in H; lia|]. assert (nth_error l k <> None) as Hn by congruence. apply nth_error_Some in Hn. lia.
Qed.
(** the table body: each piece with its end of row and rule; the last newline is stripped and put back by the caller *)
Lemma tab_text ps : rstrip (List.concat (map (fun p => p ++ ends) ps)) ++ nl = match ps with [] => nl | _ => List.concat (map (fun p => p ++ ends) ps) end.
Proof.
  destruct ps as [|p ps]; [reflexivity|]. assert (exists u, List.concat (map (fun p => p ++ ends) (p :: ps)) = u ++ "e"%char :: nl) as [u ->].
  { revert p. induction ps as [|q ps IH]; intros p.
    - cbn. exists (p ++ txt "\\" ++ nl ++ txt "\hlin"). rewrite app_nil_r. unfold ends. rewrite <- !app_assoc. reflexivity.
    - destruct (IH q) as [u E]. exists ((p ++ ends) ++ u). change (List.concat (map (fun p => p ++ ends) (p :: q :: ps))) with ((p ++ ends) ++ List.concat (map (fun p => p ++ ends) (q :: ps))).
      rewrite E. rewrite <- !app_assoc. reflexivity. }
  rewrite rstrip_app by reflexivity. rewrite <- app_assoc. reflexivity.
Qed.
Lemma ltoks_rule r : ltoks (txt "\hline" ++ r) = (ts <- ltoks r ;; Some (LRule :: ts)).
Proof. reflexivity. Qed.
Lemma ltoks_nl r : ltoks (nl ++ r) = (ts <- ltoks r ;; Some (LCh (ascii_of_nat 10) :: ts)).
Proof. reflexivity. Qed.
Lemma body_lines ps : forall rows a, List.Forall2 row_text ps rows -> (forall row c, In row rows -> In c row -> plain c) -> forallb space a = true ->
  (ts <- ltoks (List.concat (map (fun p => p ++ ends) ps)) ;; lines a [] ts) = Some (ruled rows).
Proof.
  induction ps as [|p ps IH]; intros rows a HF Hp Ha; inversion HF as [|? row ? rows' Hr HF']; subst.
  - cbn. apply (proj2 (lines_space a a [] Ha)). reflexivity.
  - cbn [map List.concat]. unfold ends at 1. rewrite <- !app_assoc.
    rewrite (row_text_lines p row a _ Hr); [|intros c Hc; apply (Hp row); [left; reflexivity|exact Hc]|exact Ha].
    rewrite ltoks_nl, ltoks_rule, ltoks_nl.
    specialize (IH rows' nl HF' (fun row c h => Hp row c (or_intror h)) eq_refl).
    destruct (ltoks (List.concat (map (fun p0 => p0 ++ ends) ps))) as [ts|]; [|discriminate]. cbn [bind] in *.
    change (lines [] [] (LCh (ascii_of_nat 10) :: LRule :: LCh (ascii_of_nat 10) :: ts)) with
      (ls <- lines nl [] ts ;; Some (Rule :: ls)). rewrite IH. reflexivity.
Qed.
Lemma pieces_ok o rh rows : forall k, match rh with None => True | Some l => k + len rows <= len l end ->
  (forall row, In row rows -> row <> [] /\ clean_all (shown o row)) ->
  List.Forall2 row_text (pieces o rh k rows) (map (fun kr => heads rh (fst kr) ++ shown o (snd kr)) (combine (seq k (len rows)) rows)).
Proof.
  induction rows as [|row rows IH]; intros k H Hc; [constructor|]. cbn [pieces len seq combine map fst snd]. constructor.
  - destruct (Hc row (or_introl eq_refl)) as [Hne Hcl]. destruct (shown o row) as [|w ws] eqn:E.
    { exfalso. unfold shown in E. destruct (_ && _); [|congruence]. destruct (firstn _ row); discriminate. }
    destruct (array2string_ok o row w ws E) as [gs [Hl Ea]].
    assert (row_text (strip bracket (array2string o row)) (w :: ws)) as Hr.
    { exists w, ws, gs. split; [reflexivity|]. split; [exact Hl|]. rewrite Ea. apply strip_ok. rewrite forallb_app. apply andb_true_iff. split.
      - apply clean_bracket, Hcl. left. reflexivity.
      - apply weave_chars; [reflexivity..|]. intros t Ht. apply clean_bracket, Hcl. right. exact Ht. }
    unfold piece, heads. destruct rh as [l|]; [|exact Hr]. destruct (nth_error l k) as [a|] eqn:En; [|exact Hr].
    rewrite <- app_assoc. apply row_text_cons, Hr.
  - apply IH; [destruct rh; [cbn [len] in H; lia|exact I]|]. intros r Hr. apply Hc. right. exact Hr.
Qed.

(** ** The frame *)
Lemma after_app p t : after p (p ++ t) = Some t.
Proof. induction p as [|a p IH]; [reflexivity|]. cbn. rewrite Ascii.eqb_refl. exact IH. Qed.
Lemma before_app p t : before p (t ++ p) = Some t.
Proof. unfold before. rewrite rev_app_distr, after_app. cbn. rewrite rev_involutive. reflexivity. Qed.
Lemma upto_letters n r : upto "}"%char (List.concat (repeat (txt "|c") n) ++ txt "|}" ++ r) = Some (List.concat (repeat (txt "|c") n) ++ txt "|", r).
Proof. induction n as [|n IH]; [reflexivity|]. cbn [repeat List.concat]. rewrite <- !app_assoc. cbn [txt list_ascii_of_string app upto] in *. cbn in IH |- *. rewrite IH. reflexivity. Qed.
Lemma letters_ok n : letters (List.concat (repeat (txt "|c") n) ++ txt "|") = Some n.
Proof. induction n as [|n IH]; [reflexivity|]. cbn [repeat List.concat]. rewrite <- app_assoc. cbn [txt list_ascii_of_string app letters] in *. cbn in IH |- *. rewrite IH. destruct n; reflexivity. Qed.
Lemma read_ok n body ls : (ts <- ltoks (nl ++ body) ;; lines [] [] ts) = Some ls -> read (Header n ++ body ++ Footer) = Some (n, ls).
Proof.
  intros H. unfold read, Header. rewrite <- !app_assoc.
  replace (txt "\begin{center}" ++ nl ++ txt "\begin{tabular}{" ++ List.concat (repeat (txt "|c") n) ++ txt "|}" ++ nl ++ body ++ Footer)
    with ((txt "\begin{center}" ++ nl ++ txt "\begin{tabular}{") ++ List.concat (repeat (txt "|c") n) ++ txt "|}" ++ (nl ++ body) ++ Footer) by (rewrite <- !app_assoc; reflexivity).
  rewrite after_app. cbn [bind]. rewrite upto_letters. cbn [bind fst snd]. rewrite letters_ok. cbn [bind]. unfold Footer. rewrite before_app. cbn [bind].
  destruct (ltoks (nl ++ body)) as [ts|]; [|discriminate]. cbn [bind] in *. rewrite H. reflexivity.
Qed.
