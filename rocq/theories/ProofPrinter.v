(** Proofs about the printer: replacement, words, tokens. *)
From Coq Require Import List Bool Arith Ascii String DecimalString DecimalNat Lia Reals.
From Coquelicot Require Import Coquelicot.
From Verif Require Import Base ModelPrinter ModelEgrad SpecEgrad SpecPrinter.
Import ListNotations.
Local Open Scope nat_scope.
Local Open Scope list_scope.
Notation len := List.length.

(** ** Texts *)
Lemma teqb_eq s t : teqb s t = true <-> s = t.
Proof.
  revert t. induction s as [|a s IH]; destruct t as [|b t]; cbn; split; intros H; try discriminate; auto.
  - apply andb_true_iff in H as [H1 H2]. apply Ascii.eqb_eq in H1. apply IH in H2. congruence.
  - injection H as -> ->. rewrite Ascii.eqb_refl. apply IH. reflexivity.
Qed.
Lemma teqb_refl t : teqb t t = true.
Proof. apply teqb_eq. reflexivity. Qed.
Lemma teqb_neq s t : teqb s t = false <-> s <> t.
Proof. rewrite <- (teqb_eq s t). destruct (teqb s t); split; congruence. Qed.
Lemma prefixb_iff p s : prefixb p s = true <-> exists b, s = p ++ b.
Proof.
  revert s. induction p as [|a p IH]; intros s; cbn.
  - split; [exists s|]; reflexivity.
  - destruct s as [|b s]; cbn; [split; [discriminate|intros [? H]; discriminate]|].
    rewrite andb_true_iff, Ascii.eqb_eq, IH. split.
    + intros [-> [r ->]]. exists r. reflexivity.
    + intros [r H]. injection H as -> ->. split; [reflexivity|exists r; reflexivity].
Qed.
Lemma prefixb_len p s : prefixb p s = true -> len p <= len s.
Proof. intros H. apply prefixb_iff in H as [b ->]. rewrite app_length. lia. Qed.
Lemma rep_skip old new k s : rep old new k s = rep old new 0 (skipn k s).
Proof. revert s. induction k as [|k IH]; intros s; [reflexivity|]. destruct s; [reflexivity|]. cbn. apply IH. Qed.
(** the two cases of replacement *)
Lemma rep_found old new s : old <> [] -> py_replace old new (old ++ s) = new ++ py_replace old new s.
Proof.
  intros H. unfold py_replace. destruct old as [|a o]; [congruence|]. cbn [app rep].
  assert (prefixb (a :: o) (a :: o ++ s) = true) as -> by (apply prefixb_iff; exists s; reflexivity).
  rewrite rep_skip. cbn [List.length]. rewrite Nat.sub_succ, Nat.sub_0_r, skipn_app, skipn_all, Nat.sub_diag. reflexivity.
Qed.
Lemma rep_other old new c s : prefixb old (c :: s) = false -> py_replace old new (c :: s) = c :: py_replace old new s.
Proof. unfold py_replace. cbn [rep]. intros ->. reflexivity. Qed.
Lemma rep_ind old : old <> [] -> forall P : text -> Prop, P [] ->
  (forall s, P s -> P (old ++ s)) ->
  (forall c s, prefixb old (c :: s) = false -> P s -> P (c :: s)) -> forall s, P s.
Proof.
  intros Ho P H0 H1 H2 s. remember (len s) as n eqn:E. revert s E.
  induction n as [n IH] using lt_wf_ind. intros s ->. destruct s as [|c s]; [exact H0|].
  destruct (prefixb old (c :: s)) eqn:Hp.
  - apply prefixb_iff in Hp as [b E]. rewrite E. apply H1. apply (IH (len b)); [|reflexivity].
    rewrite E, app_length. destruct old; [congruence|cbn; lia].
  - apply H2; [exact Hp|]. apply (IH (len s)); [cbn; lia|reflexivity].
Qed.
Lemma occurs_cons s c t : occurs s (c :: t) <-> prefixb s (c :: t) = true \/ occurs s t.
Proof.
  split.
  - intros [a [b H]]. destruct a as [|d a]; cbn in H.
    + left. apply prefixb_iff. exists b. exact H.
    + injection H as -> ->. right. exists a, b. reflexivity.
  - intros [H|[a [b ->]]].
    + apply prefixb_iff in H as [b ->]. exists [], b. reflexivity.
    + exists (c :: a), b. reflexivity.
Qed.
Lemma isin_iff s t : isin s t = true <-> occurs s t.
Proof.
  induction t as [|c t IH].
  - cbn. rewrite orb_false_r. split.
    + destruct s; [|discriminate]. exists [], []. reflexivity.
    + intros [a [b H]]. symmetry in H. apply app_eq_nil in H as [_ H]. apply app_eq_nil in H as [-> _]. reflexivity.
  - rewrite occurs_cons, <- IH. cbn [isin]. rewrite orb_true_iff. reflexivity.
Qed.
Lemma rep_none old new s : old <> [] -> ~ occurs old s -> py_replace old new s = s.
Proof.
  intros Ho. pattern s. apply (rep_ind old Ho).
  - reflexivity.
  - intros r _ H. exfalso. apply H. exists [], r. reflexivity.
  - intros c r Hp IH H. rewrite rep_other by exact Hp. rewrite IH; [reflexivity|].
    intros Hc. apply H. apply occurs_cons. right. exact Hc.
Qed.
Lemma rep_self old new : old <> [] -> py_replace old new old = new.
Proof. intros Ho. rewrite <- (app_nil_r old) at 2. rewrite rep_found by exact Ho. cbn. apply app_nil_r. Qed.
Lemma rep_nil_len old s : old <> [] -> len (py_replace old [] s) <= len s.
Proof.
  intros Ho. pattern s. apply (rep_ind old Ho).
  - reflexivity.
  - intros r H. rewrite rep_found by exact Ho. rewrite !app_length. cbn. lia.
  - intros c r Hp IH. rewrite rep_other by exact Hp. cbn. lia.
Qed.
Lemma rep_nil_occ old s : old <> [] -> occurs old s -> len (py_replace old [] s) + len old <= len s.
Proof.
  intros Ho. pattern s. apply (rep_ind old Ho).
  - intros [a [b H]]. symmetry in H. apply app_eq_nil in H as [_ H]. apply app_eq_nil in H as [-> _]. congruence.
  - intros r H _. rewrite rep_found by exact Ho. pose proof (rep_nil_len old r Ho). rewrite !app_length. cbn. lia.
  - intros c r Hp IH H. rewrite rep_other by exact Hp. apply occurs_cons in H as [H|H]; [congruence|].
    specialize (IH H). cbn. lia.
Qed.

(** Replacing never makes a new occurrence when the new text shares no character with the old one. *)
Lemma rep_prefix old new p s : old <> [] -> new <> [] -> (forall c, In c p -> ~ In c new) ->
  prefixb p (py_replace old new s) = true -> prefixb p s = true.
Proof.
  intros Ho Hn. revert p. pattern s. apply (rep_ind old Ho).
  - intros p _ H. exact H.
  - intros r _ p Hd. rewrite rep_found by exact Ho. destruct new as [|d n]; [congruence|]. destruct p as [|a p]; [reflexivity|].
    cbn [app prefixb]. intros H. apply andb_true_iff in H as [H _]. apply Ascii.eqb_eq in H. subst a.
    exfalso. apply (Hd d); left; reflexivity.
  - intros c r Hp IH p Hd. rewrite rep_other by exact Hp. destruct p as [|a p]; [reflexivity|]. cbn [prefixb].
    intros H. apply andb_true_iff in H as [H1 H2]. rewrite H1. cbn. apply IH; [|exact H2].
    intros x Hx. apply Hd. right. exact Hx.
Qed.
Lemma occurs_app_l old new t : old <> [] -> (forall c, In c old -> ~ In c new) -> occurs old (new ++ t) -> occurs old t.
Proof.
  intros Ho Hd. induction new as [|d n IH]; [auto|]. cbn [app]. intros H. apply occurs_cons in H as [H|H].
  - destruct old as [|a o]; [congruence|]. cbn in H. apply andb_true_iff in H as [H _]. apply Ascii.eqb_eq in H. subst a.
    exfalso. apply (Hd d); left; reflexivity.
  - apply IH; [|exact H]. intros c Hc Hn. apply (Hd c Hc). right. exact Hn.
Qed.
Lemma rep_gone old new s : old <> [] -> new <> [] -> (forall c, In c old -> ~ In c new) -> ~ occurs old (py_replace old new s).
Proof.
  intros Ho Hn Hd. pattern s. apply (rep_ind old Ho).
  - intros [a [b H]]. symmetry in H. apply app_eq_nil in H as [_ H]. apply app_eq_nil in H as [-> _]. congruence.
  - intros r IH. rewrite rep_found by exact Ho. intros H. apply IH. apply (occurs_app_l old new); auto.
  - intros c r Hp IH. rewrite rep_other by exact Hp. intros H. apply occurs_cons in H as [H|H]; [|exact (IH H)].
    assert (prefixb old (c :: r) = true); [|congruence].
    destruct old as [|a o]; [congruence|]. cbn [prefixb] in *. apply andb_true_iff in H as [H1 H2]. rewrite H1. cbn.
    apply (rep_prefix (a :: o) new); auto. intros x Hx. apply Hd. right. exact Hx.
Qed.

(** ** Words *)
Definition word (x : text) : Prop := x <> [] /\ forallb wordc x = true.
Lemma ident_word x : ident x = true -> word x.
Proof.
  destruct x as [|c r]; [discriminate|]. cbn. intros H. apply andb_true_iff in H as [H1 H2]. split; [discriminate|].
  cbn. unfold wordc at 1. rewrite H1. exact H2.
Qed.
Lemma prefixb_sep x u c r : forallb wordc x = true -> wordc c = false -> prefixb x (u ++ c :: r) = prefixb x u.
Proof.
  revert u. induction x as [|a x IH]; intros u Hx Hc; [destruct u; reflexivity|].
  cbn in Hx. apply andb_true_iff in Hx as [Ha Hx]. destruct u as [|b u]; cbn.
  - destruct (Ascii.eqb a c) eqn:E; [|reflexivity]. apply Ascii.eqb_eq in E. congruence.
  - rewrite IH by assumption. reflexivity.
Qed.
Lemma rep_sep x v u c r : word x -> wordc c = false -> py_replace x v (u ++ c :: r) = py_replace x v u ++ c :: py_replace x v r.
Proof.
  intros [Hx Hw] Hc. pattern u. apply (rep_ind x Hx).
  - cbn [app]. rewrite rep_other; [reflexivity|].
    pose proof (prefixb_sep x [] c r Hw Hc) as E. cbn [app] in E. rewrite E. destruct x; [congruence|reflexivity].
  - intros s IH. rewrite <- app_assoc, !rep_found by exact Hx. rewrite IH, app_assoc. reflexivity.
  - intros d s Hp IH. cbn [app]. rewrite rep_other.
    + rewrite (rep_other x v d s) by exact Hp. rewrite IH. reflexivity.
    + pose proof (prefixb_sep x (d :: s) c r Hw Hc) as E. cbn [app] in E. rewrite E. exact Hp.
Qed.
Lemma words_word w : forallb wordc w = true -> words w = match w with [] => [] | _ => [w] end.
Proof.
  induction w as [|c w IH]; [reflexivity|]. cbn. intros H. apply andb_true_iff in H as [Hc Hw]. rewrite Hc, IH by exact Hw.
  destruct w as [|d w]; [reflexivity|]. cbn in Hw. apply andb_true_iff in Hw as [Hd _]. rewrite Hd. reflexivity.
Qed.
Lemma words_sep w c r : forallb wordc w = true -> wordc c = false ->
  words (w ++ c :: r) = match w with [] => [] | _ => [w] end ++ [c] :: words r.
Proof.
  intros Hw Hc. induction w as [|d w IH]; [cbn; rewrite Hc; reflexivity|].
  cbn in Hw. apply andb_true_iff in Hw as [Hd Hw]. cbn. rewrite Hd, IH by exact Hw.
  destruct w as [|e w]; cbn; [rewrite Hc; reflexivity|]. cbn in Hw. apply andb_true_iff in Hw as [He _]. rewrite He. reflexivity.
Qed.
Lemma words_ind (P : text -> Prop) : (forall w, forallb wordc w = true -> P w) ->
  (forall w c r, forallb wordc w = true -> wordc c = false -> P r -> P (w ++ c :: r)) -> forall t, P t.
Proof.
  intros H0 H1 t. remember (len t) as n eqn:E. revert t E. induction n as [n IH] using lt_wf_ind. intros t ->.
  assert (forallb wordc t = true \/ exists w c r, t = w ++ c :: r /\ forallb wordc w = true /\ wordc c = false) as [H|[w [c [r [-> [Hw Hc]]]]]].
  { clear. induction t as [|c t IH]; [left; reflexivity|]. cbn. destruct (wordc c) eqn:Hc.
    - destruct IH as [->|[w [d [r [-> [Hw Hd]]]]]]; [left; reflexivity|]. right. exists (c :: w), d, r. cbn. rewrite Hc, Hw. auto.
    - right. exists [], c, t. auto. }
  - apply H0, H.
  - apply H1; [exact Hw|exact Hc|]. apply (IH (len r)); [|reflexivity]. rewrite app_length. cbn. lia.
Qed.
Lemma concat_words t : List.concat (words t) = t.
Proof.
  apply (words_ind (fun t => List.concat (words t) = t)).
  - intros w Hw. rewrite words_word by exact Hw. destruct w; [reflexivity|]. cbn. rewrite app_nil_r. reflexivity.
  - intros w c r Hw Hc IH. rewrite words_sep by assumption. rewrite concat_app. cbn. rewrite IH. destruct w; cbn; [reflexivity|rewrite app_nil_r; reflexivity].
Qed.
(** every piece is a word or a single other character *)
Lemma words_kinds t w : In w (words t) -> word w \/ exists c, w = [c] /\ wordc c = false.
Proof.
  apply (words_ind (fun t => In w (words t) -> word w \/ exists c, w = [c] /\ wordc c = false)); clear t.
  - intros u Hu. rewrite words_word by exact Hu. destruct u as [|a u]; [intros []|]. intros [<-|[]]. left. split; [discriminate|exact Hu].
  - intros u c r Hu Hc IH. rewrite words_sep by assumption. rewrite in_app_iff. intros [H|[<-|H]].
    + destruct u as [|a u]; [destruct H|]. destruct H as [<-|[]]. left. split; [discriminate|exact Hu].
    + right. exists c. auto.
    + exact (IH H).
Qed.
Definition names_ok (subs : list (text * text)) : Prop := List.Forall (fun s => word (fst s)) subs.
Lemma Subs_sep subs u c r : names_ok subs -> wordc c = false ->
  print_Subs (u ++ c :: r) subs = print_Subs u subs ++ c :: print_Subs r subs.
Proof.
  unfold print_Subs. intros H Hc. revert u r. induction H as [|[x v] subs Hx H IH]; intros u r; [reflexivity|].
  cbn [fold_left fst snd]. rewrite rep_sep by assumption. apply IH.
Qed.
Lemma Subs_nil subs : names_ok subs -> print_Subs [] subs = [].
Proof. unfold print_Subs. induction 1 as [|[x v] subs Hx H IH]; [reflexivity|]. cbn. exact IH. Qed.
Lemma sep_noocc x c : word x -> wordc c = false -> ~ occurs x [c].
Proof.
  intros [Hx Hw] Hc H. apply occurs_cons in H as [H|[a [b H]]].
  - destruct x as [|a x]; [congruence|]. cbn in *. apply andb_true_iff in H as [H _]. apply Ascii.eqb_eq in H. subst a.
    rewrite Hc in Hw. discriminate.
  - symmetry in H. apply app_eq_nil in H as [_ H]. apply app_eq_nil in H as [-> _]. congruence.
Qed.
Lemma Subs_none subs w : names_ok subs -> (forall s, In s subs -> ~ occurs (fst s) w) -> print_Subs w subs = w.
Proof.
  unfold print_Subs. induction 1 as [|[x v] subs Hx H IH]; intros Hn; [reflexivity|]. cbn [fold_left fst snd].
  rewrite rep_none; [|apply Hx|apply (Hn (x, v)); left; reflexivity]. apply IH. intros s Hs. apply Hn. right. exact Hs.
Qed.
Lemma Subs_words subs t : names_ok subs -> print_Subs t subs = List.concat (map (fun w => print_Subs w subs) (words t)).
Proof.
  intros H. apply (words_ind (fun t => print_Subs t subs = List.concat (map (fun w => print_Subs w subs) (words t)))).
  - intros w Hw. rewrite words_word by exact Hw. destruct w; cbn [map List.concat]; [apply Subs_nil; exact H|rewrite app_nil_r; reflexivity].
  - intros w c r Hw Hc IH. rewrite Subs_sep, words_sep by assumption. rewrite map_app, concat_app. cbn [map List.concat].
    rewrite IH, (Subs_none subs [c]); [|exact H|].
    + destruct w; cbn [map List.concat]; [rewrite Subs_nil by exact H; reflexivity|rewrite app_nil_r; reflexivity].
    + intros s Hs. apply sep_noocc; [|exact Hc]. unfold names_ok in H. rewrite List.Forall_forall in H. apply H, Hs.
Qed.
(** one word *)
Lemma Subs_word subs w : names_ok subs -> NoDup (map fst subs) ->
  (forall s, In s subs -> w = fst s \/ ~ occurs (fst s) w) ->
  ForallOrdPairs (fun p q : text * text => ~ occurs (fst q) (snd p)) subs ->
  print_Subs w subs = match lookup w subs with Some v => v | None => w end.
Proof.
  intros H. induction H as [|[x v] subs Hx H IH]; intros Hd Hw Hp; [reflexivity|].
  inversion Hd as [|? ? Hnx Hd' ]; subst. inversion Hp as [|? ? Hv Hp' ]; subst. cbn [lookup].
  unfold print_Subs. cbn [fold_left fst snd]. destruct (teqb w x) eqn:E.
  - apply teqb_eq in E. subst w. rewrite rep_self by apply Hx. apply Subs_none; [exact H|].
    rewrite List.Forall_forall in Hv. intros s Hs. apply (Hv s Hs).
  - apply teqb_neq in E. destruct (Hw (x, v)) as [Ew|Hn]; [left; reflexivity|exact (False_ind _ (E Ew))|].
    cbn in Hn. rewrite rep_none; [|apply Hx|exact Hn]. apply IH; [exact Hd'| |exact Hp'].
    intros s Hs. apply Hw. right. exact Hs.
Qed.
Lemma sum_eq {A} (f g : A -> nat) (l : list A) : (forall a, In a l -> f a <= g a) ->
  list_sum (map f l) = list_sum (map g l) -> forall a, In a l -> f a = g a.
Proof.
  induction l as [|b l IH]; intros Hle Hs a; [intros []|]. change (f b + list_sum (map f l) = g b + list_sum (map g l)) in Hs.
  assert (list_sum (map f l) <= list_sum (map g l)) as Hl.
  { assert (forall c, In c l -> f c <= g c) as Hc by (intros; apply Hle; right; assumption). clear -Hc.
    induction l as [|b l IH]; [apply Nat.le_refl|]. change (f b + list_sum (map f l) <= g b + list_sum (map g l)). pose proof (Hc b (or_introl eq_refl)). specialize (IH (fun c h => Hc c (or_intror h))). lia. }
  pose proof (Hle b (or_introl eq_refl)). intros [<-|Ha]; [lia|]. apply IH; [intros; apply Hle; right; assumption|lia|exact Ha].
Qed.

(** ** Numbers *)
Lemma digits_of u : forallb digit (txt (NilEmpty.string_of_uint u)) = true.
Proof. induction u; cbn; auto. Qed.
Lemma to_uint_nonnil n : Nat.to_uint n <> Decimal.Nil.
Proof.
  intros H. pose proof (Unsigned.of_to n) as E. rewrite H in E. cbn in E. subst n. discriminate.
Qed.
Lemma dec_numeral n : numeral (dec n) = true.
Proof.
  pose proof (to_uint_nonnil n) as H. pose proof (digits_of (Nat.to_uint n)) as D. unfold dec, numeral.
  destruct (Nat.to_uint n); [congruence|..]; exact D.
Qed.
Lemma dec_inj m n : dec m = dec n -> m = n.
Proof.
  unfold dec, txt. intros H. apply (f_equal string_of_list_ascii) in H. rewrite !string_of_list_ascii_of_string in H.
  apply (f_equal NilEmpty.uint_of_string) in H. rewrite !NilEmpty.usu in H. injection H as H.
  apply (f_equal Nat.of_uint) in H. rewrite !Unsigned.of_to in H. exact H.
Qed.
Lemma digit_word c : digit c = true -> wordc c = true.
Proof. unfold wordc. intros ->. apply orb_true_r. Qed.
Lemma dec_word n : forallb wordc (dec n) = true.
Proof.
  pose proof (dec_numeral n) as H. unfold numeral in H. destruct (dec n) as [|a l]; [reflexivity|].
  rewrite forallb_forall in *. intros c Hc. apply digit_word, H, Hc.
Qed.
Lemma digit_not_letter c : digit c = true -> letter c = false.
Proof.
  unfold digit, letter, between. intros H. apply andb_true_iff in H as [H1 H2]. apply Nat.leb_le in H1, H2.
  apply orb_false_iff. split; [apply orb_false_iff; split|].
  - apply andb_false_iff. left. apply Nat.leb_gt. lia.
  - apply andb_false_iff. left. apply Nat.leb_gt. lia.
  - apply Ascii.eqb_neq. intros ->. cbn in H2. lia.
Qed.
Lemma num_not_ident w : numeral w = true -> ident w = false.
Proof.
  destruct w as [|c w]; [discriminate|]. cbn. intros H. apply andb_true_iff in H as [H _].
  rewrite (digit_not_letter c H). reflexivity.
Qed.

(** ** Tokens *)
Lemma lex_word acc w t : forallb wordc w = true -> lex acc (w ++ t) = lex (acc ++ w) t.
Proof.
  revert acc. induction w as [|c w IH]; intros acc H; [rewrite app_nil_r; reflexivity|].
  cbn in H. apply andb_true_iff in H as [Hc Hw]. cbn [app lex]. rewrite Hc, IH by exact Hw. rewrite <- app_assoc. reflexivity.
Qed.
Lemma tok_name w : ident w = true -> word_token w = Some [TName w].
Proof. intros H. unfold word_token. rewrite H. destruct w; [discriminate|reflexivity]. Qed.
Lemma tok_num w : numeral w = true -> word_token w = Some [TNum w].
Proof. intros H. unfold word_token. rewrite (num_not_ident w H), H. destruct w; [discriminate|reflexivity]. Qed.
Lemma lex_open acc w r : forallb wordc w = true ->
  lex acc (w ++ "("%char :: r) = (k <- word_token (acc ++ w) ;; ts <- lex [] r ;; Some (k ++ [TOpen] ++ ts)).
Proof. intros H. rewrite lex_word by exact H. reflexivity. Qed.
Lemma lex_close acc w r : forallb wordc w = true ->
  lex acc (w ++ ")"%char :: r) = (k <- word_token (acc ++ w) ;; ts <- lex [] r ;; Some (k ++ [TClose] ++ ts)).
Proof. intros H. rewrite lex_word by exact H. reflexivity. Qed.
Lemma lex_comma acc w r : forallb wordc w = true ->
  lex acc (w ++ ","%char :: r) = (k <- word_token (acc ++ w) ;; ts <- lex [] r ;; Some (k ++ [TComma] ++ ts)).
Proof. intros H. rewrite lex_word by exact H. reflexivity. Qed.

(** ** The derivative printer *)
Definition unit_text (g : text) (i : nat) : text := txt "egrad(" ++ g ++ txt "," ++ dec i.
Definition flat (pos : list (nat * nat)) : list nat := flat_map (fun pv => repeat (fst pv) (snd pv)) pos.
Lemma opens_flat g pos :
  List.concat (map (fun pv : nat * nat => List.concat (repeat (unit_text g (fst pv)) (snd pv))) pos) = List.concat (map (unit_text g) (flat pos)).
Proof.
  induction pos as [|[i n] pos IH]; [reflexivity|]. cbn [map List.concat flat flat_map fst snd]. unfold flat in IH. rewrite IH, map_app, concat_app.
  f_equal. clear. induction n; [reflexivity|].
  change (unit_text g i ++ List.concat (repeat (unit_text g i) n) = unit_text g i ++ List.concat (map (unit_text g) (repeat i n))).
  f_equal. exact IHn.
Qed.
Lemma counter_flat pos k : fold_left (fun n (pv : nat * nat) => n + snd pv) pos k = k + len (flat pos).
Proof.
  revert k. induction pos as [|[i n] pos IH]; intros k; cbn [fold_left flat flat_map fst snd]; [cbn; lia|].
  rewrite IH, app_length, repeat_length. unfold flat. lia.
Qed.
Lemma print_text d pos :
  mapM (fun v : text * nat => i <- index_of (fst v) (d_args d) ;; Some (i, snd v)) (d_vars d) = Some pos ->
  print_Derivative d = Some (List.concat (map (unit_text (d_name d)) (flat pos)) ++ List.concat (repeat (txt ")") (len (flat pos)))
     ++ txt "(" ++ List.concat (map fst (d_vars d)) ++ txt ")").
Proof. intros H. unfold print_Derivative. rewrite H. cbn [bind]. rewrite counter_flat, Nat.add_0_l. rewrite <- opens_flat. reflexivity. Qed.
(** two egrads next to each other are not code *)
Lemma lex_two g i j r : ident g = true -> lex [] (unit_text g i ++ unit_text g j ++ r) = None.
Proof.
  intros Hg. unfold unit_text. rewrite <- !app_assoc.
  change (txt "egrad(") with (txt "egrad" ++ txt "("). rewrite <- !app_assoc.
  change (txt "(" ++ ?x) with ("("%char :: x) at 1. rewrite lex_open by reflexivity.
  cbn [app]. rewrite tok_name by reflexivity. cbn [bind].
  change (txt "," ++ ?x) with (","%char :: x) at 1. rewrite lex_comma by (apply ident_word, Hg).
  cbn [app]. rewrite tok_name by exact Hg. cbn [bind].
  rewrite lex_word by apply dec_word. change (txt "(" ++ ?x) with ("("%char :: x) at 1.
  rewrite lex_open by reflexivity. cbn [app].
  assert (word_token (dec i ++ txt "egrad") = None) as ->; [|reflexivity].
  pose proof (dec_numeral i) as H. destruct (dec i) as [|a l]; [discriminate|]. cbn in H. apply andb_true_iff in H as [Ha Hl].
  unfold word_token. cbn [app ident numeral forallb]. rewrite (digit_not_letter a Ha). cbn [andb].
  rewrite forallb_app. rewrite (andb_comm (forallb digit l)). cbn. rewrite andb_false_r. reflexivity.
Qed.
Lemma lex_one g i x : ident g = true -> ident x = true ->
  lex [] (unit_text g i ++ txt ")" ++ txt "(" ++ x ++ txt ")") =
  Some [TName (txt "egrad"); TOpen; TName g; TComma; TNum (dec i); TClose; TOpen; TName x; TClose].
Proof.
  intros Hg Hx. unfold unit_text. rewrite <- !app_assoc.
  change (txt "egrad(") with (txt "egrad" ++ txt "("). rewrite <- !app_assoc.
  change (txt "(" ++ ?x) with ("("%char :: x) at 1. rewrite lex_open by reflexivity.
  cbn [app]. rewrite tok_name by reflexivity. cbn [bind].
  change (txt "," ++ ?x) with (","%char :: x) at 1. rewrite lex_comma by (apply ident_word, Hg).
  cbn [app]. rewrite tok_name by exact Hg. cbn [bind].
  change (txt ")" ++ ?x) with (")"%char :: x) at 1. rewrite lex_close by apply dec_word.
  cbn [app]. rewrite tok_num by apply dec_numeral. cbn [bind].
  change (txt "(" ++ ?x) with ([] ++ "("%char :: x) at 1. rewrite lex_open by reflexivity. cbn [app word_token bind].
  change (txt ")") with (")"%char :: []). rewrite lex_close by (apply ident_word, Hx).
  cbn [app]. rewrite tok_name by exact Hx. reflexivity.
Qed.
Lemma parse_one g i x : ident g = true -> ident x = true ->
  parse (unit_text g i ++ txt ")" ++ txt "(" ++ x ++ txt ")") = Some (PCall (egrad_of (PName g) i) [PName x]).
Proof. intros Hg Hx. unfold parse. rewrite lex_one by assumption. reflexivity. Qed.
Lemma index_position x args : In x args -> exists i, index_of x args = Some i /\ position x args i.
Proof.
  induction args as [|y args IH]; [intros []|]. intros H. cbn. destruct (teqb x y) eqn:E.
  - apply teqb_eq in E. subst y. exists 0. split; [reflexivity|]. split; [reflexivity|]. intros j Hj. lia.
  - apply teqb_neq in E. destruct H as [->|H]; [congruence|]. destruct (IH H) as [i [-> [H1 H2]]]. exists (S i).
    split; [reflexivity|]. split; [exact H1|]. intros [|j] Hj; cbn; [congruence|]. apply H2. lia.
Qed.
Lemma position_unique x args i j : position x args i -> position x args j -> i = j.
Proof.
  intros [H1 H2] [H3 H4]. destruct (lt_eq_lt_dec i j) as [[H|H]|H]; [|exact H|].
  - destruct (H4 i H H1).
  - destruct (H2 j H H3).
Qed.
Lemma positions args vars : (forall x n, In (x, n) vars -> In x args /\ (0 < n)%nat) ->
  exists pos, mapM (fun v : text * nat => i <- index_of (fst v) args ;; Some (i, snd v)) vars = Some pos /\
    List.Forall2 (fun v p => position (fst v) args (fst p) /\ snd p = snd v) vars pos.
Proof.
  induction vars as [|[x n] vars IH]; intros H; [exists []; split; [reflexivity|constructor]|].
  destruct (index_position x args) as [i [E Hp]]; [apply (H x n); left; reflexivity|].
  destruct IH as [pos [Em HF]]; [intros; apply H; right; assumption|]. exists ((i, n) :: pos). cbn [mapM fst snd]. rewrite E. cbn [bind].
  rewrite Em. split; [reflexivity|]. constructor; [split; [exact Hp|reflexivity]|exact HF].
Qed.
Lemma flat_len vars args pos :
  List.Forall2 (fun v p => position (fst v) args (fst p) /\ snd p = snd v) vars pos -> len (flat pos) = list_sum (map snd vars).
Proof.
  induction 1 as [|[x n] [i m] vars pos [_ E] _ IH]; [reflexivity|]. cbn [flat flat_map map list_sum fold_right fst snd] in *. subst m.
  rewrite app_length, repeat_length. unfold flat in IH. rewrite IH. reflexivity.
Qed.
Lemma one_var (vars : list (text * nat)) (Q : text -> Prop) : vars <> [] -> (forall x n, In (x, n) vars -> Q x /\ 0 < n) -> list_sum (map snd vars) = 1 ->
  exists x, vars = [(x, 1)] /\ Q x.
Proof.
  intros Hne H Hs. destruct vars as [|[x n] vars]; [congruence|]. destruct (H x n (or_introl eq_refl)) as [Hq Hn].
  destruct vars as [|[y m] vars].
  - exists x. cbn in Hs. assert (n = 1) by lia. subst n. auto.
  - destruct (H y m (or_intror (or_introl eq_refl))) as [_ Hm]. cbn in Hs. lia.
Qed.
