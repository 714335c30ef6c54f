(** Property C72: HTML.WriteFile leaves the page in the named file. *)
From Coq Require Import List Bool Arith Lia Ascii String.
From Verif Require Import Base ModelPrinter ProofPrinter ModelSave SpecSave ProofSave ModelHtml SpecHtml ProofHtml.
Import ListNotations.
Local Open Scope list_scope.

(** C72, partial: for names with a directory part (any slash), when nothing on the way is a file
    and the file itself is not a directory.  Missing: names without a slash (refuted below). *)
Theorem C72_written_partial fs cwd f dir name page : sound fs -> names_file cwd f dir name -> free fs dir name ->
  exists fs', WriteFile fs cwd f page = Some fs' /\ written fs fs' dir name page /\ ReadFile fs' cwd f = Some page.
Proof.
  intros Hs Hn [Hf Hd]. destruct (resolve_names cwd f dir name Hn) as [R1 [R2 R3]]. unfold WriteFile.
  assert (exists fs1, (if exists_ fs cwd (dirname f) then Some fs else makedirs fs cwd (dirname f)) = Some fs1 /\ made fs fs1 dir) as [fs1 [E [M1 M2]]].
  { unfold exists_, makedirs. rewrite R2. destruct (fs dir) as [n|] eqn:En.
    - exists fs. split; [reflexivity|]. apply prefix_dir; [exact Hs|congruence|]. intros t. apply (Hf dir []). rewrite app_nil_r. reflexivity.
    - cbn [bind]. apply makedirs_ok; [exact Hs|exact Hf|exact En|lia]. }
  rewrite E. cbn [bind]. unfold write_file, ReadFile, read_file. rewrite R1, R3. cbn [bind].
  assert (forall q, dir <> (dir ++ [name]) ++ q) as Hlong by (intros q X; apply (f_equal (@List.length _)) in X; rewrite !app_length in X; cbn in X; lia).
  rewrite removelast_last, (M1 dir []) by (rewrite app_nil_r; reflexivity). rewrite (M2 (dir ++ [name])) by exact Hlong.
  assert ((match fs (dir ++ [name]) with Some Dir => None | _ => Some (put fs1 (dir ++ [name]) (File page)) end) = Some (put fs1 (dir ++ [name]) (File page))) as ->.
  { destruct (fs (dir ++ [name])) as [[|t]|]; [contradiction|reflexivity|reflexivity]. }
  eexists. split; [reflexivity|]. rewrite put_same. split; [|reflexivity]. split; [apply put_same|]. split.
  - intros p q Eq. rewrite put_other by (intros ->; apply (Hlong q Eq)). apply (M1 p q Eq).
  - intros r Hr Hq. rewrite put_other by exact Hr. apply M2, Hq.
Qed.
Print Assumptions C72_written_partial.

(** the file system is still sound, so any number of pages can be written in turn *)
Theorem C72_sound_partial fs cwd f dir name page fs' : sound fs -> names_file cwd f dir name -> free fs dir name ->
  WriteFile fs cwd f page = Some fs' -> sound fs'.
Proof.
  intros Hs Hn Hfree E. destruct (C72_written_partial fs cwd f dir name page Hs Hn Hfree) as [fs1 [E1 [[W1 [W2 W3]] _]]].
  assert (fs1 = fs') by congruence. subst fs1. split; [apply (W2 [] dir eq_refl)|].
  intros p a n En. destruct (list_eq_dec (list_eq_dec ascii_dec) (p ++ [a]) (dir ++ [name])) as [X|Hne].
  - apply app_inj_tail in X as [-> _]. apply (W2 dir []). rewrite app_nil_r. reflexivity.
  - assert (forall r, (exists q, dir = r ++ q) \/ forall q, dir <> r ++ q) as Dec.
    { clear. induction dir as [|d dir IH]; intros [|b r]; [left; exists []; reflexivity|right; discriminate|left; eexists; reflexivity|].
      destruct (list_eq_dec ascii_dec d b) as [->|Hdb]; [|right; intros q X; injection X; congruence].
      destruct (IH r) as [[q ->]|H]; [left; exists q; reflexivity|right; intros q X; injection X; apply H]. }
    destruct (Dec (p ++ [a])) as [[q Hq]|Hq].
    + apply (W2 p (a :: q)). rewrite Hq, <- app_assoc. reflexivity.
    + rewrite (W3 (p ++ [a]) Hne Hq) in En. apply (proj2 Hs) in En. destruct (Dec p) as [[q' Hq']|Hq']; [apply (W2 p q' Hq')|].
      destruct (list_eq_dec (list_eq_dec ascii_dec) p (dir ++ [name])) as [->|Hp].
      * exfalso. apply (proj2 Hfree). exact En.
      * rewrite W3; assumption.
Qed.
Print Assumptions C72_sound_partial.

(** C72 is false of every name without a slash: WriteFile raises *)
Theorem C72_plain_name_refuted fs cwd f page : ~ In "/"%char f -> WriteFile fs cwd f page = None.
Proof.
  intros H. assert (dirname f = []) as E by (unfold dirname; rewrite up_to_slash_plain by exact H; reflexivity).
  unfold WriteFile. rewrite E. reflexivity.
Qed.
Print Assumptions C72_plain_name_refuted.

(** outside these conditions nothing is written over: a file on the way, or a directory of that
    name, is an error *)
Theorem C72_blocked_partial fs cwd f dir name page : sound fs -> names_file cwd f dir name ->
  fs (dir ++ [name]) = Some Dir \/ (exists t, fs dir = Some (File t)) -> WriteFile fs cwd f page = None.
Proof.
  intros Hs Hn H. destruct (resolve_names cwd f dir name Hn) as [R1 [R2 R3]]. unfold WriteFile, exists_. rewrite R2.
  assert (fs dir <> None) as Hd.
  { destruct H as [H|[t H]]; [apply (proj2 Hs) in H|]; congruence. }
  destruct (fs dir) as [n|] eqn:En; [|contradiction]. cbn [bind]. unfold write_file. rewrite R1, R3. cbn [bind]. rewrite removelast_last, En.
  destruct H as [H|[t H]]; [rewrite H; reflexivity|]. injection H as ->. destruct (fs (dir ++ [name])) as [[|]|]; reflexivity.
Qed.
Print Assumptions C72_blocked_partial.

(** a page in a directory that has to be made *)
Definition one_dir : fsys := fun p => match p with [] => Some Dir | [a] => if teqb a (txt "home") then Some Dir else None | _ => None end.
Example C72_case : exists fs', WriteFile one_dir [txt "home"] (txt "out//htmlFiles/tree0.html") (txt "<html>") = Some fs' /\
  fs' [txt "home"; txt "out"] = Some Dir /\ fs' [txt "home"; txt "out"; txt "htmlFiles"] = Some Dir /\
  fs' [txt "home"; txt "out"; txt "htmlFiles"; txt "tree0.html"] = Some (File (txt "<html>")) /\
  fs' [txt "out"] = None /\ ReadFile fs' [txt "home"] (txt "./out/htmlFiles/tree0.html") = Some (txt "<html>").
Proof. eexists. split; [reflexivity|]. repeat split. Qed.
Example C72_sound_case : sound one_dir /\
  names_file [txt "home"] (txt "out//htmlFiles/tree0.html") [txt "home"; txt "out"; txt "htmlFiles"] (txt "tree0.html").
Proof.
  split.
  - split; [reflexivity|]. intros [|a [|b p]] c n; cbn; intros H; [reflexivity|destruct (teqb a _); discriminate|destruct p; discriminate].
  - exists (txt "out//htmlFiles"), [txt "out"; txt "htmlFiles"].
    split; [reflexivity|]. split; [cbn; intuition discriminate|]. split; [discriminate|]. split; [discriminate|]. split; [discriminate|]. split.
    + change (txt "out//htmlFiles") with (txt "out" ++ "/"%char :: [] ++ "/"%char :: txt "htmlFiles").
      change [txt "out"; txt "htmlFiles"] with ([txt "out"] ++ [] ++ [txt "htmlFiles"]).
      apply (pp_cons (txt "out")); [cbn; intuition discriminate|]. apply (pp_cons []); [intros []|]. apply (pp_last (txt "htmlFiles")). cbn; intuition discriminate.
    + split; [cbn; intuition discriminate|reflexivity].
Qed.
