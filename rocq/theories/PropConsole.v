(** Properties C86, C87, C88. *)
From Coq Require Import List Arith Lia Bool Ascii String.
From Verif Require Import ModelConsole SpecConsole.
Import ListNotations.

(** ** C86 *)
Lemma display_plain s t t' : ~ In esc t ->
  display s Plain (t ++ t') = (let '(o, s', r') := display s Plain t' in (map (fun c => (c, s)) t ++ o, s', r')).
Proof.
  induction t as [|c t IH]; intros H.
  - cbn [app map]. destruct (display s Plain t') as [[o s'] r']. reflexivity.
  - cbn [app display map]. destruct (Ascii.eqb_spec c esc) as [E|E]; [exfalso; apply H; left; exact E|].
    rewrite IH by (intros K; apply H; right; exact K). destruct (display s Plain t') as [[o s'] r']. reflexivity.
Qed.
Definition bright_in (c : nat) (s : style) : style := Style (Some c) true (st_underline s).
Lemma display_message col code s t : ~ In esc t ->
  (forall rest, display s Plain (sgr code ++ rest) = display (Style (Some col) (st_bright s) (st_underline s)) Plain rest) ->
  display s Plain (sgr code ++ style_BRIGHT ++ t ++ nl ++ style_RESET_ALL) =
    (map (fun c => (c, bright_in col s)) (t ++ nl), default, Plain).
Proof.
  intros H Hc. rewrite Hc. unfold style_BRIGHT.
  change (display ?s' Plain (sgr "1" ++ ?r)) with (display (Style (st_color s') true (st_underline s')) Plain r).
  cbn [st_color st_underline]. rewrite (app_assoc t nl). rewrite display_plain.
  - cbn. rewrite app_nil_r. reflexivity.
  - intros K. apply in_app_or in K as [K|[K|[]]]; [exact (H K)|discriminate K].
Qed.

(** A message without escape sequences is shown entirely in bright yellow (bright red), whatever the
    style before, and the terminal is back in its default style. *)
Theorem C86_shown : forall s t, ~ In esc t ->
  display s Plain (fst (Warning t)) = (map (fun c => (c, bright_in yellow s)) (t ++ nl), default, Plain) /\
  display s Plain (fst (Error t)) = (map (fun c => (c, bright_in red s)) (t ++ nl), default, Plain).
Proof.
  intros s t H. split.
  - replace (fst (Warning t)) with (sgr "33" ++ style_BRIGHT ++ t ++ nl ++ style_RESET_ALL).
    2:{ unfold Warning, print_, seqs. cbn [fst]. rewrite app_nil_r, <- !app_assoc. reflexivity. }
    apply (display_message 3); [exact H|reflexivity].
  - replace (fst (Error t)) with (sgr "31" ++ style_BRIGHT ++ t ++ nl ++ style_RESET_ALL).
    2:{ unfold Error, print_, sys_exit, seqs. cbn [fst]. rewrite !app_nil_r, <- !app_assoc. reflexivity. }
    apply (display_message 1); [exact H|reflexivity].
Qed.
Print Assumptions C86_shown.

(** A warning returns; an error does not, and a handler of [Exception] does not stop it. *)
Theorem C86_ends : forall X t (k : unit -> stmt X) (h : stmt unit),
  snd (Warning t) = Returns tt /\ seqs (Error t) k = (fst (Error t), Raises_exit None) /\
  try_ H_Exception (Error t) h = Error t /\
  try_ H_BaseException (Error t) h = (fst (Error t) ++ fst h, snd h).
Proof.
  intros X t k h. split; [reflexivity|]. split; [reflexivity|]. split; [reflexivity|].
  unfold try_. cbn [Error seqs print_ sys_exit fst]. destruct h. reflexivity.
Qed.
Print Assumptions C86_ends.

(** The process reports success after an error, as after a warning. *)
Theorem C86_status_refuted : forall X t (k : unit -> stmt X), status (seqs (Error t) k) = 0.
Proof. reflexivity. Qed.
Print Assumptions C86_status_refuted.
(** The style the caller had chosen is lost. *)
Theorem C86_style_restored_refuted : forall s t, ~ In esc t -> s <> default ->
  exists o s', display s Plain (fst (Warning t)) = (o, s', Plain) /\ s' <> s.
Proof.
  intros s t H Hs. exists (map (fun c => (c, bright_in yellow s)) (t ++ nl)), default. split; [apply C86_shown, H|]. congruence.
Qed.
Print Assumptions C86_style_restored_refuted.
(** A message with a reset sequence in it is not coloured after it. *)
Theorem C86_escape_refuted : forall s a b, ~ In esc a -> ~ In esc b ->
  exists o, display s Plain (fst (Error (a ++ style_RESET_ALL ++ b))) = (o, default, Plain) /\
    o = map (fun c => (c, bright_in red s)) a ++ map (fun c => (c, default)) (b ++ nl).
Proof.
  intros s a b Ha Hb. eexists. split; [|reflexivity].
  replace (fst (Error (a ++ style_RESET_ALL ++ b))) with (sgr "31" ++ sgr "1" ++ a ++ sgr "0" ++ (b ++ nl) ++ sgr "0" ++ []).
  2:{ unfold Error, print_, sys_exit, seqs. cbn [fst]. rewrite !app_nil_r, <- !app_assoc. reflexivity. }
  change (display s Plain (sgr "31" ++ sgr "1" ++ ?r)) with (display (bright_in red s) Plain r).
  rewrite display_plain by exact Ha.
  change (display ?s' Plain (sgr "0" ++ ?r)) with (display default Plain r).
  rewrite display_plain.
  - cbn. rewrite app_nil_r. reflexivity.
  - intros K. apply in_app_or in K as [K|[K|[]]]; [exact (Hb K)|discriminate K].
Qed.
Print Assumptions C86_escape_refuted.

Example C86_case : display (Style (Some 4) false true) Plain (fst (Warning (txt "no"))) =
  ([("n"%char, Style (Some 3) true true); ("o"%char, Style (Some 3) true true); ("010"%char, Style (Some 3) true true)],
   default, Plain).
Proof. reflexivity. Qed.

(** ** C87 *)
Lemma text_eqb_spec a b : reflect (a = b) (text_eqb a b).
Proof.
  revert b; induction a as [|x a IH]; intros [|y b]; cbn; try (constructor; congruence).
  destruct (Ascii.eqb_spec x y) as [->|N]; cbn; [|constructor; congruence].
  destruct (IH b) as [->|N]; constructor; congruence.
Qed.
Lemma set_type s i v : s_type (fst (set_print_type s i v)) = type_set (s_type s) i v.
Proof. unfold set_print_type. repeat (destruct (text_eqb _ _); [reflexivity|]). reflexivity. Qed.
Lemma set_printer s i v p : printer_for v p -> s_printer (fst (set_print_type s i v)) = Some p /\ snd (set_print_type s i v) = ret tt.
Proof. intros [[-> ->]|[[-> ->]|[[-> ->]|[-> ->]]]]; split; reflexivity. Qed.
Lemma set_invalid s i v : ~ valid_type v ->
  s_printer (fst (set_print_type s i v)) = s_printer s /\ snd (set_print_type s i v) = Error (bad_type v).
Proof.
  intros H. unfold set_print_type, valid_type in *. cbn [In] in H.
  destruct (text_eqb_spec v (txt "tfc")); [exfalso; apply H; left; congruence|].
  destruct (text_eqb_spec v (txt "str")); [exfalso; apply H; do 3 right; left; congruence|].
  destruct (text_eqb_spec v (txt "pretty")); [exfalso; apply H; right; left; congruence|].
  destruct (text_eqb_spec v (txt "latex")); [exfalso; apply H; do 2 right; left; congruence|].
  split; reflexivity.
Qed.
Lemma assign_snoc l i v : assign_all (l ++ [(i, v)]) = fst (set_print_type (assign_all l) i v).
Proof. unfold assign_all. rewrite fold_left_app. reflexivity. Qed.
Lemma assign_app l l' : assign_all (l ++ l') = fold_left (fun s a => fst (set_print_type s (fst a) (snd a))) l' (assign_all l).
Proof. unfold assign_all. apply fold_left_app. Qed.

(** An assignment returns for the four names and ends with an error message for any other text. *)
Theorem C87_accepted : forall s i v,
  (valid_type v -> snd (set_print_type s i v) = ret tt) /\
  (~ valid_type v -> snd (set_print_type s i v) = Error (bad_type v)).
Proof.
  intros s i v. split; intros H; [|apply set_invalid, H].
  assert (exists p, printer_for v p) as [p Hp].
  { destruct H as [<-|[<-|[<-|[<-|[]]]]]; [exists P_tfc|exists P_pretty|exists P_latex|exists P_str]; unfold printer_for; tauto. }
  apply (set_printer s i v p Hp).
Qed.
Print Assumptions C87_accepted.
(** The message quotes the rejected text and then names the four accepted ones. *)
Theorem C87_message : forall s i v, ~ valid_type v -> exists before after,
  snd (set_print_type s i v) = Error (before ++ v ++ after) /\
  forall u, valid_type u -> exists c d, after = c ++ txt """" ++ u ++ txt """" ++ d.
Proof.
  intros s i v H. destruct (set_invalid s i v H) as [_ E].
  exists (txt "print_type was specified as "), (txt " but only ""tfc"", ""pretty"", ""latex"", and ""str"" are accepted.").
  split; [exact E|]. intros u [<-|[<-|[<-|[<-|[]]]]].
  - exists (txt " but only "), (txt ", ""pretty"", ""latex"", and ""str"" are accepted."). reflexivity.
  - exists (txt " but only ""tfc"", "), (txt ", ""latex"", and ""str"" are accepted."). reflexivity.
  - exists (txt " but only ""tfc"", ""pretty"", "), (txt ", and ""str"" are accepted."). reflexivity.
  - exists (txt " but only ""tfc"", ""pretty"", ""latex"", and "), (txt " are accepted."). reflexivity.
Qed.
Print Assumptions C87_message.

(** An attribute read gives the text last assigned to that object, accepted or not; without an
    assignment it is an error. *)
Theorem C87_read : forall l i,
  (~ In i (map fst l) -> snd (get_print_type (assign_all l) i) = Raises_other) /\
  (forall l1 v l2, l = l1 ++ (i, v) :: l2 -> ~ In i (map fst l2) -> get_print_type (assign_all l) i = ret v).
Proof.
  assert (K : forall l s i, ~ In i (map fst l) ->
    s_type (fold_left (fun s a => fst (set_print_type s (fst a) (snd a))) l s) i = s_type s i).
  { induction l as [|[j w] l IH]; intros s i H; [reflexivity|]. cbn [fold_left fst snd]. cbn in H.
    rewrite IH by tauto. rewrite set_type. unfold type_set. destruct (Nat.eqb_spec i j) as [->|]; [tauto|reflexivity]. }
  intros l i. split.
  - intros H. unfold get_print_type, assign_all. rewrite K by exact H. reflexivity.
  - intros l1 v l2 -> H. change ((i, v) :: l2) with ([(i, v)] ++ l2). rewrite app_assoc, assign_app.
    unfold get_print_type. rewrite K by exact H. rewrite assign_snoc, set_type. unfold type_set. rewrite Nat.eqb_refl. reflexivity.
Qed.
Print Assumptions C87_read.

(** The printer in use belongs to the last accepted assignment to any object. *)
Theorem C87_printer : forall l,
  ((forall i v, In (i, v) l -> ~ valid_type v) -> s_printer (assign_all l) = None) /\
  (forall l1 i v l2 p, l = l1 ++ (i, v) :: l2 -> printer_for v p -> (forall j w, In (j, w) l2 -> ~ valid_type w) ->
     s_printer (assign_all l) = Some p).
Proof.
  assert (K : forall l s, (forall i v, In (i, v) l -> ~ valid_type v) ->
    s_printer (fold_left (fun s a => fst (set_print_type s (fst a) (snd a))) l s) = s_printer s).
  { induction l as [|[j w] l IH]; intros s H; [reflexivity|]. cbn [fold_left fst snd].
    rewrite IH by (intros i v Hi; apply (H i v); right; exact Hi). apply set_invalid, (H j w). left. reflexivity. }
  intros l. split.
  - intros H. unfold assign_all. rewrite K by exact H. reflexivity.
  - intros l1 i v l2 p -> Hp H. change ((i, v) :: l2) with ([(i, v)] ++ l2). rewrite app_assoc, assign_app.
    rewrite K by exact H. rewrite assign_snoc. apply (set_printer _ i v p Hp).
Qed.
Print Assumptions C87_printer.

(** A rejected text is kept as the attribute while the printer stays as it was. *)
Theorem C87_rejected_kept_refuted : forall l i v, ~ valid_type v ->
  get_print_type (assign_all (l ++ [(i, v)])) i = ret v /\
  s_printer (assign_all (l ++ [(i, v)])) = s_printer (assign_all l).
Proof.
  intros l i v H. split.
  - apply (C87_read (l ++ [(i, v)]) i) with (l1 := l) (l2 := []); [reflexivity|intros []].
  - rewrite assign_snoc. apply set_invalid, H.
Qed.
Print Assumptions C87_rejected_kept_refuted.
(** The printer is not that of the object asked: another object's assignment replaces it. *)
Theorem C87_own_printer_refuted : exists l i v p q, get_print_type (assign_all l) i = ret v /\ printer_for v p /\
  s_printer (assign_all l) = Some q /\ q <> p.
Proof.
  exists [(0, txt "latex"); (1, txt "str")], 0, (txt "latex"), P_latex, P_str.
  split; [reflexivity|]. split; [right; right; left; split; reflexivity|]. split; [reflexivity|discriminate].
Qed.
Print Assumptions C87_own_printer_refuted.
Example C87_case : s_printer (assign_all [(0, txt "latex"); (1, txt "tfc"); (0, txt "html")]) = Some P_tfc /\
  get_print_type (assign_all [(0, txt "latex"); (1, txt "tfc"); (0, txt "html")]) 0 = ret (txt "html").
Proof. split; reflexivity. Qed.

(** ** C88 *)
Lemma shell_word p t w l : forallb ordinary p = true -> shell (p ++ t) w l = shell t (rev p ++ w) l.
Proof.
  revert w. induction p as [|c p IH]; intros w H; [reflexivity|].
  cbn [forallb] in H. apply andb_true_iff in H as [Hc Hp]. unfold ordinary in Hc.
  apply andb_true_iff in Hc as [Hc He]. apply andb_true_iff in Hc as [Hb Ho].
  cbn [app shell]. apply negb_true_iff in Hb, Ho, He. rewrite He, Hb, Ho, IH by exact Hp.
  cbn [rev]. rewrite <- app_assoc. reflexivity.
Qed.
Lemma shell_arg p t l : ordinary_text p -> shell (p ++ sp :: t) [] l = shell t [] (p :: l).
Proof.
  intros [Hn H]. rewrite shell_word by exact H. rewrite app_nil_r.
  change (shell (sp :: t) (rev p) l) with (shell t [] (flush (rev p) l)).
  assert (E : flush (rev p) l = p :: l); [|rewrite E; reflexivity].
  unfold flush. destruct (rev p) as [|c q] eqn:E; [|rewrite <- E, rev_involutive; reflexivity].
  exfalso. apply Hn. rewrite <- (rev_involutive p), E. reflexivity.
Qed.
Lemma join_ord l : Forall (fun p => forallb ordinary p = true) l -> forallb ordinary (join_slash l) = true.
Proof.
  intros H. unfold join_slash. destruct l as [|p0 l0] eqn:E; [reflexivity|]. rewrite <- E in *. clear E p0 l0.
  induction H as [|p l Hp Hl IH]; [reflexivity|]. cbn [map List.concat]. rewrite forallb_app, IH.
  cbn [forallb]. rewrite Hp. reflexivity.
Qed.
Lemma absolute_slash cwd dir : exists t, absolute cwd dir = "/"%char :: t.
Proof.
  unfold absolute, join_slash. destruct (if rooted dir then parts dir else cwd ++ parts dir); eexists; reflexivity.
Qed.
Lemma split_ord t cur : forallb ordinary t = true -> forallb ordinary cur = true ->
  Forall (fun p => forallb ordinary p = true) (split_slash t cur).
Proof.
  assert (R : forall c, forallb ordinary c = true -> forallb ordinary (rev c) = true).
  { intros c H. apply forallb_forall. intros x Hx. apply (proj1 (forallb_forall _ _) H). apply in_rev. exact Hx. }
  revert cur. induction t as [|c t IH]; intros cur Ht Hc; cbn [split_slash].
  - constructor; [apply R, Hc|constructor].
  - cbn [forallb] in Ht. apply andb_true_iff in Ht as [H1 H2]. destruct (Ascii.eqb c "/").
    + constructor; [apply R, Hc|]. apply IH; [exact H2|reflexivity].
    + apply IH; [exact H2|]. cbn. rewrite H1, Hc. reflexivity.
Qed.
Lemma absolute_ord cwd dir : Forall (fun p => forallb ordinary p = true) cwd -> forallb ordinary dir = true ->
  forallb ordinary (absolute cwd dir) = true.
Proof.
  intros Hc Hd.
  assert (Hp : Forall (fun p => forallb ordinary p = true) (parts dir)).
  { apply Forall_forall. intros p Hp. unfold parts in Hp. apply filter_In in Hp as [Hp _].
    exact (proj1 (Forall_forall _ _) (split_ord dir [] Hd eq_refl) p Hp). }
  unfold absolute. apply join_ord. destruct (rooted dir); [exact Hp|]. apply Forall_app. split; assumption.
Qed.


Lemma command_arg (um : bool) pid p t l :
  ordinary_text pid -> l = rev (if um then words ["criu"; "dump"; "--unpriviledged"; "-t"]%string else words ["sudo"; "criu"; "dump"; "-t"]%string) ->
  command um pid p = t -> runs t = shell (p ++ txt " --shell-job --leave-running &) &") [] (txt "-D" :: pid :: l).
Proof.
  intros Hpid -> <-. unfold runs, command.
  assert (O : forall r : option (list (list text)), match r with Some r => Some r | None => None end = r) by (intros [r|]; reflexivity).
  destruct um.
  - change (shell (txt "(criu dump --unpriviledged -t " ++ ?t) [] []) with
      (match shell t [] (rev (words ["criu"; "dump"; "--unpriviledged"; "-t"]%string)) with Some r => Some r | None => None end).
    rewrite O. change (txt " -D " ++ ?t) with (sp :: (txt "-D " ++ t)). rewrite (shell_arg pid) by exact Hpid. reflexivity.
  - change (shell (txt "(sudo criu dump -t " ++ ?t) [] []) with
      (match shell t [] (rev (words ["sudo"; "criu"; "dump"; "-t"]%string)) with Some r => Some r | None => None end).
    rewrite O. change (txt " -D " ++ ?t) with (sp :: (txt "-D " ++ t)). rewrite (shell_arg pid) by exact Hpid. reflexivity.
Qed.
Lemma ran_command ex par cwd pid dir um : (ex (absolute cwd dir) = true \/ par (absolute cwd dir) = true) ->
  ran (criuCheckpoint ex par cwd pid dir um) = runs (command um pid (absolute cwd dir)).
Proof.
  intros H. unfold criuCheckpoint. destruct (ex _).
  - cbn. destruct (runs _); [rewrite app_nil_r|]; reflexivity.
  - destruct (par _); [|destruct H; discriminate]. cbn. destruct (runs _); [rewrite app_nil_r|]; reflexivity.
Qed.
Lemma absolute_one cwd a : ~ In "/"%char a -> a <> [] -> a <> txt "." -> absolute cwd ("/"%char :: a) = "/"%char :: a.
Proof.
  intros Hs Hn Hd. unfold absolute. cbn [rooted Ascii.eqb Bool.eqb]. unfold parts. cbn [split_slash Ascii.eqb Bool.eqb rev filter].
  assert (E : forall a c, ~ In "/"%char a -> split_slash a c = [rev c ++ a]).
  { clear. induction a as [|x a IH]; intros c H; cbn [split_slash]; [rewrite app_nil_r; reflexivity|].
    destruct (Ascii.eqb_spec x "/"%char) as [->|N]; [exfalso; apply H; left; reflexivity|].
    rewrite IH by (intros K; apply H; right; exact K). cbn [rev]. rewrite <- app_assoc. reflexivity. }
  rewrite E by exact Hs. cbn [rev app filter text_eqb andb negb].
  destruct (text_eqb_spec a []); [contradiction|]. destruct (text_eqb_spec a (txt ".")); [contradiction|].
  cbn. rewrite app_nil_r. reflexivity.
Qed.

(** The directory of a call: an absolute path stands for itself, any other text, the empty one
    included, is looked up in the working directory; repeated slashes and [.] do not matter. *)
Lemma split_plain a : forall c, ~ In "/"%char a -> split_slash a c = [rev c ++ a].
Proof.
  induction a as [|x a IH]; intros c H; cbn [split_slash]; [rewrite app_nil_r; reflexivity|].
  destruct (Ascii.eqb_spec x "/"%char) as [->|N]; [exfalso; apply H; left; reflexivity|].
  rewrite IH by (intros K; apply H; right; exact K). cbn [rev]. rewrite <- app_assoc. reflexivity.
Qed.
Lemma split_more a t : forall c, ~ In "/"%char a -> split_slash (a ++ "/"%char :: t) c = (rev c ++ a) :: split_slash t [].
Proof.
  induction a as [|x a IH]; intros c H; cbn [split_slash app]; [rewrite app_nil_r; reflexivity|].
  destruct (Ascii.eqb_spec x "/"%char) as [->|N]; [exfalso; apply H; left; reflexivity|].
  rewrite IH by (intros K; apply H; right; exact K). cbn [rev]. rewrite <- app_assoc. reflexivity.
Qed.
Lemma name_filter s l r : name_of s l ->
  filter (fun p => negb (text_eqb p []) && negb (text_eqb p (txt "."))) (s :: r) =
  l ++ filter (fun p => negb (text_eqb p []) && negb (text_eqb p (txt "."))) r.
Proof.
  intros [[[-> | ->] ->]|(H1 & H2 & ->)]; [reflexivity|reflexivity|]. cbn [filter].
  destruct (text_eqb_spec s []); [contradiction|]. destruct (text_eqb_spec s (txt ".")); [contradiction|]. reflexivity.
Qed.
Lemma parts_names dir l : path_names dir l -> parts dir = l.
Proof.
  induction 1 as [s l Hs Hn|s k t l Hs Hn Ht IH]; unfold parts in *.
  - rewrite split_plain by exact Hs. etransitivity; [exact (name_filter s l [] Hn)|]. apply app_nil_r.
  - rewrite split_more by exact Hs. etransitivity; [exact (name_filter s k _ Hn)|]. rewrite IH. reflexivity.
Qed.
Lemma join_root l t : from_root l t -> join_slash l = t.
Proof.
  induction 1 as [|a|a b l t H IH]; [reflexivity|cbn; rewrite app_nil_r; reflexivity|].
  cbn [join_slash map List.concat app] in *. rewrite <- IH. reflexivity.
Qed.
Theorem C88_directory : forall cwd dir l t, path_names dir l ->
  (from_root l ("/"%char :: t) -> (exists r, dir = "/"%char :: r) -> absolute cwd dir = "/"%char :: t) /\
  (from_root (cwd ++ l) ("/"%char :: t) -> ~ (exists r, dir = "/"%char :: r) -> absolute cwd dir = "/"%char :: t).
Proof.
  intros cwd dir l t Hp. unfold absolute. rewrite (parts_names dir l Hp). split.
  - intros Ht [r ->]. apply join_root, Ht.
  - intros Ht Hn. assert (E : rooted dir = false).
    { destruct dir as [|c r]; [reflexivity|]. cbn [rooted]. destruct (Ascii.eqb_spec c "/"%char) as [->|]; [|reflexivity].
      exfalso. apply Hn. exists r. reflexivity. }
    rewrite E. apply join_root, Ht.
Qed.
Print Assumptions C88_directory.
Example C88_directory_case :
  absolute [txt "home"; txt "u"] (txt "a//./b") = txt "/home/u/a/b" /\ absolute [txt "home"] (txt "/a/") = txt "/a" /\
  absolute [txt "home"] [] = txt "/home" /\ absolute [] (txt ".") = txt "/".
Proof. repeat split. Qed.

(** If neither the directory nor the working directory contains a character that the shell treats
    specially, then a call makes the directory if it is missing, runs the dump of this process into
    it and nothing else, and prints a command that restores from it; without the parent directory it
    raises before running anything. *)
Theorem C88_call : forall ex par cwd pid dir um, ordinary_text pid -> Forall (fun p => forallb ordinary p = true) cwd ->
  forallb ordinary dir = true ->
  let p := absolute cwd dir in let r := criuCheckpoint ex par cwd pid dir um in
  (ex p = false -> par p = false -> r = None) /\
  (ex p = true \/ par p = true -> exists c said,
     r = Some ((if ex p then [] else [Mkdir p]) ++ [System c; Printed (txt "Creating a checkpoint. To restart run: " ++ said ++ nl)]) /\
     ran r = Some [dump um pid p] /\ runs c = Some [dump um pid p] /\
     runs said = Some [words ["sudo"; "criu"; "restore"; "-D"]%string ++ [p; txt "--shell-job"]]).
Proof.
  intros ex par cwd pid dir um Hpid Hc Hd p r. subst r.
  assert (Hp : ordinary_text p).
  { split; [|apply absolute_ord; assumption]. destruct (absolute_slash cwd dir) as [t Et]. unfold p. rewrite Et. discriminate. }
  assert (Hrun : runs (command um pid p) = Some [dump um pid p]).
  { rewrite (command_arg um pid p _ _ Hpid eq_refl eq_refl).
    change (txt " --shell-job --leave-running &) &") with (sp :: txt "--shell-job --leave-running &) &").
    rewrite (shell_arg p) by exact Hp. destruct um; reflexivity. }
  split; [unfold criuCheckpoint; fold p; intros -> ->; reflexivity|]. intros H.
  exists (command um pid p), (txt "sudo criu restore -D " ++ p ++ txt " --shell-job"). split; [|split; [|split; [exact Hrun|]]].
  - unfold criuCheckpoint. fold p. unfold hint.
    replace (txt "Creating a checkpoint. To restart run: " ++ (txt "sudo criu restore -D " ++ p ++ txt " --shell-job") ++ nl)
      with ((txt "Creating a checkpoint. To restart run: sudo criu restore -D " ++ p ++ txt " --shell-job") ++ nl)
      by (rewrite !app_assoc; reflexivity).
    destruct (ex p); [reflexivity|]. destruct (par p); [reflexivity|destruct H; discriminate].
  - rewrite ran_command by exact H. exact Hrun.
  - unfold runs. change (shell (txt "sudo criu restore -D " ++ ?t) [] []) with
      (shell t [] (rev (words ["sudo"; "criu"; "restore"; "-D"]%string))).
    change (txt " --shell-job") with (sp :: txt "--shell-job"). rewrite (shell_arg p) by exact Hp. reflexivity.
Qed.
Print Assumptions C88_call.

Definition plain_name (a : text) : Prop := ordinary_text a /\ ~ In "/"%char a.
(** A blank in the name of the directory splits it: the dump goes elsewhere. *)
Theorem C88_blank_refuted : forall ex par cwd pid a b, ordinary_text pid -> plain_name a -> plain_name b ->
  let dir := "/"%char :: a ++ sp :: b in ex dir = true ->
  ran (criuCheckpoint ex par cwd pid dir false) =
    Some [words ["sudo"; "criu"; "dump"; "-t"]%string ++ [pid; txt "-D"; "/"%char :: a; b] ++ words ["--shell-job"; "--leave-running"]%string].
Proof.
  intros ex par cwd pid a b Hpid [Ha Ha'] [Hb Hb'] dir Hex.
  assert (E : absolute cwd dir = dir).
  { apply absolute_one.
    - intros K. apply in_app_or in K as [K|[K|K]]; [contradiction|discriminate|contradiction].
    - destruct a; discriminate.
    - destruct a as [|x [|y a]]; discriminate. }
  rewrite ran_command by (left; rewrite E; exact Hex). rewrite E, (command_arg false pid dir _ _ Hpid eq_refl eq_refl).
  unfold dir. change ("/"%char :: a ++ sp :: b) with (("/"%char :: a) ++ sp :: b). rewrite <- app_assoc. cbn [app].
  change ("/"%char :: a ++ ?t) with (("/"%char :: a) ++ t). rewrite shell_arg by (split; [discriminate|apply Ha]).
  change (txt " --shell-job --leave-running &) &") with (sp :: txt "--shell-job --leave-running &) &").
  rewrite (shell_arg b) by exact Hb. reflexivity.
Qed.
Print Assumptions C88_blank_refuted.
(** A semicolon in it starts a second command named by the rest. *)
Theorem C88_injection_refuted : forall ex par cwd pid a b, ordinary_text pid -> plain_name a -> plain_name b ->
  let dir := "/"%char :: a ++ ";"%char :: b in ex dir = true ->
  ran (criuCheckpoint ex par cwd pid dir false) =
    Some [words ["sudo"; "criu"; "dump"; "-t"]%string ++ [pid; txt "-D"; "/"%char :: a];
          b :: words ["--shell-job"; "--leave-running"]%string].
Proof.
  intros ex par cwd pid a b Hpid [Ha Ha'] [Hb Hb'] dir Hex.
  assert (E : absolute cwd dir = dir).
  { apply absolute_one.
    - intros K. apply in_app_or in K as [K|[K|K]]; [contradiction|discriminate|contradiction].
    - destruct a; discriminate.
    - destruct a as [|x [|y a]]; discriminate. }
  rewrite ran_command by (left; rewrite E; exact Hex). rewrite E, (command_arg false pid dir _ _ Hpid eq_refl eq_refl).
  unfold dir. change ("/"%char :: a ++ ";"%char :: b) with (("/"%char :: a) ++ ";"%char :: b). rewrite <- app_assoc. cbn [app].
  change ("/"%char :: a ++ ?t) with (("/"%char :: a) ++ t).
  rewrite shell_word by (cbn [forallb]; rewrite (proj2 Ha); reflexivity). rewrite app_nil_r.
  change (shell (";"%char :: ?t) ?w ?l) with (match shell t [] [] with
     | Some r => Some (match flush w l with [] => r | l' => rev l' :: r end) | None => None end).
  change (txt " --shell-job --leave-running &) &") with (sp :: txt "--shell-job --leave-running &) &").
  rewrite (shell_arg b) by exact Hb. unfold flush. destruct (rev ("/"%char :: a)) as [|c q] eqn:E'.
  - apply (f_equal (@rev ascii)) in E'. rewrite rev_involutive in E'. discriminate E'.
  - rewrite <- E', rev_involutive. reflexivity.
Qed.
Print Assumptions C88_injection_refuted.
(** criu's option is spelled --unprivileged; user mode never passes it. *)
Theorem C88_user_mode_refuted : forall ex par cwd pid dir, ordinary_text pid -> Forall (fun p => forallb ordinary p = true) cwd ->
  forallb ordinary dir = true -> pid <> txt "--unprivileged" -> ex (absolute cwd dir) = true ->
  exists c, ran (criuCheckpoint ex par cwd pid dir true) = Some [c] /\ ~ In (txt "--unprivileged") c.
Proof.
  intros ex par cwd pid dir Hpid Hc Hd Hu Hex.
  destruct (C88_call ex par cwd pid dir true Hpid Hc Hd) as [_ H]. destruct H as (c & said & _ & E & _); [left; exact Hex|].
  exists (dump true pid (absolute cwd dir)). split; [exact E|]. destruct (absolute_slash cwd dir) as [t Et]. rewrite Et.
  cbn [dump words map app In]. intros K. repeat (destruct K as [K|K]; [first [discriminate K|congruence]|]). exact K.
Qed.
Print Assumptions C88_user_mode_refuted.

Example C88_case : criuCheckpoint (fun _ => false) (fun _ => true) [txt "home"; txt "me"] (txt "42") (txt "./out//a") false =
  Some [Mkdir (txt "/home/me/out/a");
        System (txt "(sudo criu dump -t 42 -D /home/me/out/a --shell-job --leave-running &) &");
        Printed (txt "Creating a checkpoint. To restart run: sudo criu restore -D /home/me/out/a --shell-job" ++ nl)] /\
  runs (command false (txt "42") (absolute [txt "home"] (txt "a;reboot"))) =
    Some [words ["sudo"; "criu"; "dump"; "-t"; "42"; "-D"; "/home/a"]%string; words ["reboot"; "--shell-job"; "--leave-running"]%string].
Proof. split; reflexivity. Qed.
