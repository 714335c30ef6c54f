(** C72: what HTML.ReadFile returns, for every file system and name. *)
From Coq Require Import List Bool Arith Lia Ascii String.
From Verif Require Import Base ModelPrinter ProofPrinter ModelSave SpecSave ProofSave ModelHtml SpecHtml ProofHtml.
Import ListNotations.
Local Open Scope list_scope.

(** the text of the file, and an exception when there is no such file (nothing, or a directory) *)
Theorem C72_read_partial fs cwd f dir name : names_file cwd f dir name ->
  forall t, ReadFile fs cwd f = Some t <-> fs (dir ++ [name]) = Some (File t).
Proof.
  intros Hn t. destruct (resolve_names cwd f dir name Hn) as [R1 [R2 R3]]. unfold ReadFile, read_file. rewrite R1, R3. cbn [bind].
  destruct (fs (dir ++ [name])) as [[|c]|]; split; congruence.
Qed.
Print Assumptions C72_read_partial.
Theorem C72_missing_partial fs cwd f dir name : names_file cwd f dir name ->
  (forall t, fs (dir ++ [name]) <> Some (File t)) -> ReadFile fs cwd f = None.
Proof.
  intros Hn H. destruct (ReadFile fs cwd f) as [t|] eqn:E; [|reflexivity]. apply (C72_read_partial fs cwd f dir name Hn) in E. destruct (H t E).
Qed.
Print Assumptions C72_missing_partial.
