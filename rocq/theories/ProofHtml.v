From Coq Require Import List Bool Arith Lia Ascii String.
From Verif Require Import Base ModelPrinter ProofPrinter ModelSave SpecSave ProofSave ModelHtml SpecHtml.
Import ListNotations.
Local Open Scope list_scope.

Lemma path_eqb_eq p q : path_eqb p q = true <-> p = q.
Proof.
  revert q. induction p as [|a p IH]; intros [|b q]; cbn; split; try discriminate; try reflexivity.
  - rewrite andb_true_iff, teqb_eq, IH. intros [-> ->]. reflexivity.
  - intros E. injection E as -> ->. rewrite teqb_refl. apply IH. reflexivity.
Qed.
Lemma put_same fs p n : put fs p n p = Some n.
Proof. unfold put. rewrite (proj2 (path_eqb_eq p p) eq_refl). reflexivity. Qed.
Lemma put_other fs p n q : q <> p -> put fs p n q = fs q.
Proof. intros H. unfold put. destruct (path_eqb q p) eqn:E; [apply path_eqb_eq in E; contradiction|reflexivity]. Qed.
Lemma path_parts_parts t ps : path_parts t ps -> parts t = ps.
Proof.
  induction 1 as [p Hp|p r ps Hp Hr IH].
  - destruct (list_eq_dec _ p []) as [->|H1]; [reflexivity|]. destruct (list_eq_dec _ p ["."%char]) as [->|H2]; [reflexivity|]. apply parts_plain; assumption.
  - rewrite parts_app, IH. f_equal. destruct (list_eq_dec _ p []) as [->|H1]; [reflexivity|].
    destruct (list_eq_dec _ p ["."%char]) as [->|H2]; [reflexivity|]. apply parts_plain; assumption.
Qed.
Lemma up_to_slash_plain t : ~ In "/"%char t -> up_to_slash t = [].
Proof.
  induction t as [|c t IH]; intros H; [reflexivity|]. cbn. rewrite IH by (intros X; apply H; right; exact X).
  destruct (Ascii.eqb c slash) eqn:E; [|reflexivity]. apply eqb_slash in E. destruct H. left. exact E.
Qed.
Lemma up_to_slash_at h t : ~ In "/"%char t -> up_to_slash (h ++ "/"%char :: t) = h ++ ["/"%char].
Proof.
  intros H. induction h as [|c h IH]; cbn [app up_to_slash]; [rewrite up_to_slash_plain by exact H; reflexivity|]. rewrite IH. destruct h; reflexivity.
Qed.
Lemma rstrip_parts t : parts (rstrip_slash t) = parts t /\ (rstrip_slash t = [] -> parts t = []) /\
  match t with [] => True | c :: _ => rstrip_slash t = [] \/ exists r, rstrip_slash t = c :: r end.
Proof.
  assert (exists s, t = rstrip_slash t ++ s /\ Forall (eq "/"%char) s) as [s [E Hs]].
  { induction t as [|c t [s [E Hs]]]; [exists []; split; [reflexivity|constructor]|]. cbn [rstrip_slash]. destruct (rstrip_slash t) as [|d r] eqn:Er.
    - destruct (Ascii.eqb c slash) eqn:Ec.
      + apply eqb_slash in Ec. exists (c :: s). split; [cbn; rewrite E at 1; reflexivity|]. constructor; [congruence|exact Hs].
      + exists s. split; [cbn in *; congruence|exact Hs].
    - exists s. split; [cbn in *; congruence|exact Hs]. }
  assert (forall r s, Forall (eq "/"%char) s -> parts (r ++ s) = parts r) as P.
  { intros r s0 H0. revert r. induction H0 as [|c s0 Hc H0 IH]; intros r; [rewrite app_nil_r; reflexivity|].
    subst c. change "/"%char with slash. rewrite parts_app. specialize (IH []). cbn [app] in IH. rewrite IH. apply app_nil_r. }
  assert (parts t = parts (rstrip_slash t)) as HP by (rewrite E at 1; apply P, Hs).
  split; [congruence|]. split; [intros H; rewrite HP, H; reflexivity|].
  destruct t as [|c t]; [exact I|]. destruct (rstrip_slash (c :: t)) as [|d r]; [left; reflexivity|right]. cbn in E. injection E as -> _. eauto.
Qed.
Lemma split_last t acc : exists pre, split_at acc t = pre ++ [last (split_at acc t) []].
Proof.
  revert acc. induction t as [|c t IH]; intros acc; cbn; [exists []; reflexivity|]. destruct (Ascii.eqb c slash).
  - destruct (IH []) as [pre E]. exists (acc :: pre). cbn [app]. f_equal. destruct (split_at [] t) as [|a l] eqn:Es; [destruct pre; discriminate|].
    rewrite <- Es in *. rewrite E at 1. f_equal. f_equal. rewrite Es. reflexivity.
  - apply IH.
Qed.
Lemma names_dir_at h t : ~ In "/"%char t -> t <> [] -> t <> ["."%char] -> names_dir (h ++ "/"%char :: t) = false.
Proof.
  intros H H1 H2. unfold names_dir. change "/"%char with slash. rewrite split_app, (split_plain t []) by exact H. rewrite last_last. cbn [app].
  apply orb_false_iff. split; apply teqb_neq; assumption.
Qed.
Lemma head_dirname h t : ~ In "/"%char t -> exists d, dirname (h ++ "/"%char :: t) = d /\ d <> [] /\ parts d = parts h /\
  match d, h ++ "/"%char :: t with c :: _, c' :: _ => c = c' | _, _ => False end.
Proof.
  intros H. unfold dirname. rewrite up_to_slash_at by exact H. destruct (rstrip_parts (h ++ ["/"%char])) as [P [Q R]].
  assert (parts (h ++ ["/"%char]) = parts h) as Ph by (change ["/"%char] with (slash :: []); rewrite parts_app; apply app_nil_r).
  destruct (rstrip_slash (h ++ ["/"%char])) as [|c r] eqn:E.
  - eexists. split; [reflexivity|]. split; [destruct h; discriminate|]. split; [exact Ph|]. destruct h; reflexivity.
  - eexists. split; [reflexivity|]. split; [discriminate|]. split; [congruence|].
    destruct h as [|a h]; cbn [app] in *; destruct R as [R|[r' R]]; congruence.
Qed.
(** where the file and its directory are *)
Lemma resolve_names cwd f dir name : names_file cwd f dir name ->
  resolve cwd f = Some (dir ++ [name]) /\ resolve cwd (dirname f) = Some dir /\ names_dir f = false.
Proof.
  intros [h [ps [-> [H1 [H2 [H3 [H4 [Hp [Hd ->]]]]]]]]]. apply path_parts_parts in Hp.
  destruct (head_dirname h name H1) as [d [Ed [Hne [Pd Hc]]]]. rewrite Ed.
  assert (parts (h ++ "/"%char :: name) = ps ++ [name]) as PF.
  { change "/"%char with slash. rewrite parts_app, Hp, parts_plain by assumption. reflexivity. }
  split; [|split; [|apply names_dir_at; assumption]].
  - unfold resolve. rewrite PF. destruct (memb (txt "..") (ps ++ [name])) eqn:E.
    { apply memb_in, in_app_or in E as [E|[E|[]]]; [contradiction|congruence]. }
    destruct (h ++ "/"%char :: name) as [|c r]; [destruct d; destruct Hc|]. change slash with "/"%char.
    destruct (Ascii.eqb c "/"%char); [reflexivity|]. rewrite app_assoc. reflexivity.
  - unfold resolve. rewrite Pd, Hp. destruct (memb (txt "..") ps) eqn:E; [apply memb_in in E; contradiction|].
    destruct d as [|c d]; [contradiction|]. destruct (h ++ "/"%char :: name) as [|c' r]; [destruct Hc|]. subst c'. change slash with "/"%char. reflexivity.
Qed.

(** directories made *)
Definition made (fs fs' : fsys) (dir : list text) : Prop :=
  (forall p q, dir = p ++ q -> fs' p = Some Dir) /\ (forall r, (forall q, dir <> r ++ q) -> fs' r = fs r).
Lemma prefix_dir fs dir : sound fs -> fs dir <> None -> (forall t, fs dir <> Some (File t)) -> made fs fs dir.
Proof.
  intros [H0 Hs] Hd Hf. split; [|reflexivity]. intros p q. revert p dir Hd Hf. induction q as [|a q IH] using rev_ind; intros p dir Hd Hf E.
  - rewrite app_nil_r in E. subst p. destruct (fs dir) as [[|t]|] eqn:Ed; [reflexivity| |contradiction]. destruct (Hf t eq_refl).
  - subst dir. rewrite app_assoc in Hd, Hf. destruct (fs ((p ++ q) ++ [a])) as [n|] eqn:En; [|contradiction].
    apply Hs in En. apply (IH p (p ++ q)); [congruence|congruence|reflexivity].
Qed.
Lemma list_rev_case {A} (l : list A) : l = [] \/ exists l' a, l = l' ++ [a].
Proof. induction l as [|a l _] using rev_ind; eauto. Qed.
Lemma makedirs_ok n fs dir : sound fs -> (forall p q t, dir = p ++ q -> fs p <> Some (File t)) -> fs dir = None -> List.length dir < n ->
  exists fs', makedirs_path n fs dir = Some fs' /\ made fs fs' dir.
Proof.
  intros Hs. revert dir. induction n as [|n IH]; intros dir Hf Hd Hn; [lia|]. cbn [makedirs_path].
  destruct (list_rev_case dir) as [->|[d [a ->]]]; [rewrite (proj1 Hs) in Hd; discriminate|].
  rewrite removelast_last. rewrite app_length in Hn. cbn in Hn.
  assert (exists fs', (match fs d with Some _ => Some fs | None => makedirs_path n fs d end) = Some fs' /\ made fs fs' d) as [fs' [E Hm]].
  { destruct (fs d) as [nd|] eqn:Ed.
    - exists fs. split; [reflexivity|]. apply prefix_dir; [exact Hs|congruence|]. intros t. apply (Hf d [a] t eq_refl).
    - apply IH; [|exact Ed|lia]. intros p q t Eq. apply (Hf p (q ++ [a])). rewrite Eq, app_assoc. reflexivity. }
  rewrite E. cbn [bind]. destruct Hm as [M1 M2].
  assert (forall q, d <> (d ++ [a]) ++ q) as Hlong by (intros q X; apply (f_equal (@List.length _)) in X; rewrite !app_length in X; cbn in X; lia).
  assert (mkdir fs' (d ++ [a]) = Some (put fs' (d ++ [a]) Dir)) as Emk.
  { assert (fs' (removelast (d ++ [a])) = Some Dir) as X1 by (rewrite removelast_last; apply (M1 d []); rewrite app_nil_r; reflexivity).
    assert (fs' (d ++ [a]) = None) as X2 by (rewrite M2; assumption).
    unfold mkdir. destruct (d ++ [a]) eqn:X; [destruct d; discriminate|]. rewrite X2, X1. reflexivity. }
  rewrite Emk. eexists. split; [reflexivity|]. split.
  - intros p q Eq. destruct (list_eq_dec (list_eq_dec ascii_dec) p (d ++ [a])) as [->|Hne]; [apply put_same|]. rewrite put_other by exact Hne.
    destruct (list_rev_case q) as [->|[q' [b ->]]]; [rewrite app_nil_r in Eq; congruence|].
    rewrite app_assoc in Eq. apply app_inj_tail in Eq as [Eq _]. apply (M1 p q' Eq).
  - intros r Hr. rewrite put_other by (intros ->; apply (Hr []); rewrite app_nil_r; reflexivity). apply M2. intros q ->. apply (Hr (q ++ [a])). apply app_assoc_reverse.
Qed.
