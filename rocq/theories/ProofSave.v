(** Proofs about file names, suffixes and frame numbers. *)
From Coq Require Import List Bool Arith ZArith Ascii String Lia DecimalNat DecimalString.
From Verif Require Import Base ModelPrinter ModelSave SpecSave ProofPrinter.
Import ListNotations.
Local Open Scope list_scope.

(** ** Parts of a path *)
Lemma eqb_slash c : Ascii.eqb c slash = true <-> c = "/"%char.
Proof. apply Ascii.eqb_eq. Qed.
Lemma split_plain p acc : ~ In "/"%char p -> split_at acc p = [acc ++ p].
Proof.
  revert acc. induction p as [|c p IH]; intros acc H; cbn [split_at]; [rewrite List.app_nil_r; reflexivity|].
  destruct (Ascii.eqb c slash) eqn:E; [apply eqb_slash in E; exfalso; apply H; left; auto|].
  rewrite IH by (intros Hi; apply H; right; exact Hi). rewrite <- app_assoc. reflexivity.
Qed.
Lemma split_app d r acc : split_at acc (d ++ slash :: r) = split_at acc d ++ split_at [] r.
Proof.
  revert acc. induction d as [|c d IH]; intros acc; cbn [app split_at]; [reflexivity|]. destruct (Ascii.eqb c slash); rewrite IH; reflexivity.
Qed.
Lemma parts_app d r : parts (d ++ slash :: r) = parts d ++ parts r.
Proof. unfold parts. rewrite split_app, filter_app. reflexivity. Qed.
Lemma parts_plain p : ~ In "/"%char p -> p <> [] -> p <> ["."%char] -> parts p = [p].
Proof.
  intros H H1 H2. unfold parts. rewrite (split_plain p [] H). cbn [app filter].
  apply teqb_neq in H1, H2. unfold dot. rewrite H1, H2. reflexivity.
Qed.
Lemma name_of dir name : dir = [] \/ (exists d, dir = d ++ ["/"%char]) -> ~ In "/"%char name -> name <> [] -> name <> ["."%char] ->
  path_name (dir ++ name) = name.
Proof.
  intros [->|[d ->]] H H1 H2; unfold path_name; [rewrite parts_plain by assumption; reflexivity|].
  rewrite <- app_assoc. cbn [app]. change ("/"%char) with slash. rewrite parts_app, (parts_plain name) by assumption. apply last_last.
Qed.
Lemma last_part t : exists dir a, t = dir ++ a /\ (dir = [] \/ exists d, dir = d ++ ["/"%char]) /\ ~ In "/"%char a.
Proof.
  induction t as [|c t [dir [a [-> [Hd Ha]]]]]; [exists [], []; repeat split; auto|].
  destruct Hd as [->|[d ->]].
  - destruct (ascii_dec c "/"%char) as [->|Hc].
    + exists ["/"%char], a. repeat split; [right; exists []; reflexivity|exact Ha].
    + exists [], (c :: a). repeat split; [left; reflexivity|]. intros [H|H]; [congruence|apply Ha, H].
  - exists ((c :: d) ++ ["/"%char]), a. repeat split; [right; exists (c :: d); reflexivity|exact Ha].
Qed.

(** ** Suffixes *)
Lemma rfind_none i t : ~ In "."%char t -> rfind i t = None.
Proof.
  revert i. induction t as [|c t IH]; intros i H; [reflexivity|]. cbn [rfind]. rewrite IH by (intros Hi; apply H; right; exact Hi).
  destruct (Ascii.eqb c dot) eqn:E; [|reflexivity]. apply Ascii.eqb_eq in E. exfalso. apply H. left. exact E.
Qed.
Lemma rfind_at i a b : ~ In "."%char b -> rfind i (a ++ "."%char :: b) = Some (i + List.length a).
Proof.
  revert i. induction a as [|c a IH]; intros i H; cbn [app rfind List.length].
  - rewrite rfind_none by exact H. cbn. rewrite Nat.add_0_r. reflexivity.
  - rewrite IH by exact H. f_equal. lia.
Qed.
Lemma last_dot t : In "."%char t -> exists a b, t = a ++ "."%char :: b /\ ~ In "."%char b.
Proof.
  induction t as [|c t IH]; intros H; [destruct H|]. destruct (in_dec ascii_dec "."%char t) as [Hi|Hi].
  - destruct (IH Hi) as [a [b [-> Hb]]]. exists (c :: a), b. auto.
  - destruct H as [->|H]; [|contradiction]. exists [], t. auto.
Qed.
Lemma suffix_of_name name f : path_name f = name -> suffix f = match rfind 0 name with
  | Some i => if (0 <? i) && (i <? List.length name - 1) then skipn i name else [] | None => [] end.
Proof. intros <-. reflexivity. Qed.
Lemma has_suffix_suffix f t : has_suffix f t -> suffix f = "."%char :: t.
Proof.
  intros [[Ht [Hd Hs]] [stem [-> [Hn Hl]]]]. destruct (last_part stem) as [dir [a [-> [Hdir Ha]]]].
  assert (a <> []) as Ha0.
  { intros ->. rewrite List.app_nil_r in *. destruct Hdir as [->|[d ->]]; [congruence|]. apply (Hl d eq_refl). }
  rewrite <- app_assoc. rewrite (suffix_of_name (a ++ "."%char :: t)).
  - rewrite rfind_at by exact Hd. cbn [Nat.add]. destruct a as [|c a]; [congruence|]. destruct t as [|c' t]; [congruence|].
    rewrite app_length. cbn [List.length].
    assert ((0 <? S (List.length a)) = true) as -> by (apply Nat.ltb_lt; lia).
    assert ((S (List.length a) <? S (List.length a) + S (S (List.length t)) - 1) = true) as -> by (apply Nat.ltb_lt; lia).
    cbn [andb]. rewrite skipn_app. rewrite skipn_all2 by (cbn; lia). cbn [List.length]. rewrite Nat.sub_diag. reflexivity.
  - apply name_of; [exact Hdir| | |].
    + rewrite in_app_iff. intros [H|[H|H]]; [apply Ha, H|discriminate|apply Hs, H].
    + destruct a; discriminate.
    + destruct a as [|c [|c' a]]; [congruence| |]; cbn; intros E; injection E; intros; discriminate.
Qed.
Lemma suffix_has_suffix f t : file_name f -> suffix f = "."%char :: t -> has_suffix f t.
Proof.
  intros [dir [name [-> [Hdir [Hs [H1 H2]]]]]]. rewrite (suffix_of_name name) by (apply name_of; assumption).
  destruct (in_dec ascii_dec "."%char name) as [Hi|Hi]; [|rewrite rfind_none by exact Hi; discriminate].
  destruct (last_dot name Hi) as [a [b [-> Hb]]]. rewrite rfind_at by exact Hb. cbn [Nat.add].
  destruct (0 <? List.length a) eqn:E1; [|discriminate]. destruct (List.length a <? _) eqn:E2; [|discriminate]. cbn [andb].
  apply Nat.ltb_lt in E1, E2. rewrite app_length in E2. cbn [List.length] in E2.
  rewrite skipn_app, skipn_all2, Nat.sub_diag by lia. cbn [app skipn]. intros E. injection E as ->. split.
  - split; [|split]; [destruct t; [cbn in E2; lia|discriminate]|exact Hb|]. intros H. apply Hs. rewrite in_app_iff. right. right. exact H.
  - exists (dir ++ a). repeat split; [rewrite <- app_assoc; reflexivity| |].
    + destruct a; [cbn in E1; lia|]. destruct dir; discriminate.
    + intros d Hd. assert (last (dir ++ a) dot = "/"%char) as Hl by (rewrite Hd; apply last_last).
      destruct a as [|c a] using rev_ind; [cbn in E1; lia|]. rewrite app_assoc, last_last in Hl. subst c. apply Hs. rewrite !in_app_iff. left. right. left. reflexivity.
Qed.
Lemma suffix_head f : suffix f = [] \/ exists t, suffix f = "."%char :: t.
Proof.
  unfold suffix. destruct (in_dec ascii_dec "."%char (path_name f)) as [Hi|Hi]; [|rewrite rfind_none by exact Hi; left; reflexivity].
  destruct (last_dot _ Hi) as [a [b [-> Hb]]]. rewrite rfind_at by exact Hb. cbn [Nat.add].
  destruct (_ && _); [|left; reflexivity]. right. exists b. rewrite skipn_app, skipn_all2, Nat.sub_diag by lia. reflexivity.
Qed.
Lemma typed_suffix f t : file_name f -> plain_type t -> has_suffix (f ++ "."%char :: t) t.
Proof.
  intros [dir [name [-> [Hdir [Hs [H1 H2]]]]]] Ht. split; [exact Ht|]. exists (dir ++ name). repeat split.
  - destruct name; [congruence|]. destruct dir; discriminate.
  - intros d Hd. assert (last (dir ++ name) dot = "/"%char) as Hl by (rewrite Hd; apply last_last).
    destruct name as [|c name] using rev_ind; [congruence|]. rewrite app_assoc, last_last in Hl. subst c. apply Hs. rewrite in_app_iff. right. left. reflexivity.
Qed.
Lemma memb_in x l : memb x l = true <-> In x l.
Proof.
  unfold memb. rewrite existsb_exists. split; [intros [y [Hy E]]; apply teqb_eq in E; subst; exact Hy|]. intros H. exists x. split; [exact H|apply teqb_refl].
Qed.
Lemma plain_no_type t : plain_type t -> no_type (Some t) = Some t.
Proof. intros [H _]. destruct t; [congruence|reflexivity]. Qed.
Lemma unsupported f types : file_name f -> Forall plain_type types -> (forall t, In t types -> ~ has_suffix f t) -> memb (tl (suffix f)) types = false.
Proof.
  intros Hf HT Hn. destruct (memb _ _) eqn:E; [|reflexivity]. apply memb_in in E. exfalso. apply (Hn _ E).
  apply suffix_has_suffix; [exact Hf|]. destruct (suffix_head f) as [H|[t H]]; rewrite H in *; [|reflexivity].
  cbn in E. rewrite Forall_forall in HT. destruct (HT _ E) as [H0 _]. congruence.
Qed.
Lemma mpl_plain : Forall plain_type mpl_types.
Proof. repeat constructor; try discriminate; cbn; intros H; repeat (destruct H as [H|H]; [discriminate|]); exact H. Qed.
Lemma plotly_plain : Forall plain_type plotly_types.
Proof. repeat constructor; try discriminate; cbn; intros H; repeat (destruct H as [H|H]; [discriminate|]); exact H. Qed.
Lemma mayavi_plain : Forall plain_type mayavi_types.
Proof. repeat constructor; try discriminate; cbn; intros H; repeat (destruct H as [H|H]; [discriminate|]); exact H. Qed.

Lemma named f t : has_suffix f t -> named_type f = Some t.
Proof. intros H. unfold named_type. rewrite (has_suffix_suffix f t H). reflexivity. Qed.
Lemma html_or (full ty : text) : has_suffix full ty ->
  (if teqb ty (txt "html") then Some (full, txt "html") else ty' <- named_type full ;; Some (full, ty')) = Some (full, ty).
Proof.
  intros H. destruct (teqb ty (txt "html")) eqn:E; [apply teqb_eq in E; subst; reflexivity|]. rewrite (named _ _ H). reflexivity.
Qed.
Theorem plotly_well : saves_well plotly_save plotly_types (txt "png").
Proof.
  assert (plain_type (txt "png")) as Hp by (pose proof plotly_plain as H; rewrite Forall_forall in H; apply H; cbn; auto).
  split; [|split; [|split; [|reflexivity]]]; intros f.
  - intros t Hf Ht. pose proof (typed_suffix f t Hf Ht) as H. split; [|exact H]. unfold plotly_save. rewrite plain_no_type by exact Ht. apply html_or, H.
  - intros t H Hi. unfold plotly_save. cbn [no_type]. rewrite (has_suffix_suffix f t H). cbn [tl].
    assert (memb t plotly_types = true) as -> by (apply memb_in, Hi). apply html_or, H.
  - intros Hf Hn. pose proof (typed_suffix f _ Hf Hp) as H. split; [|exact H]. unfold plotly_save. cbn [no_type].
    rewrite unsupported; [apply html_or, H|exact Hf|exact plotly_plain|exact Hn].
Qed.
Theorem mayavi_well : saves_well mayavi_save mayavi_types (txt "pdf").
Proof.
  assert (plain_type (txt "pdf")) as Hp by (pose proof mayavi_plain as H; rewrite Forall_forall in H; apply H; cbn; auto 10).
  split; [|split; [|split; [|reflexivity]]]; intros f.
  - intros t Hf Ht. pose proof (typed_suffix f t Hf Ht) as H. split; [|exact H]. unfold mayavi_save. rewrite plain_no_type by exact Ht. unfold dot. rewrite (named _ _ H). reflexivity.
  - intros t H Hi. unfold mayavi_save. cbn [no_type]. rewrite (has_suffix_suffix f t H). cbn [tl].
    assert (memb t mayavi_types = true) as -> by (apply memb_in, Hi). rewrite (named _ _ H). reflexivity.
  - intros Hf Hn. pose proof (typed_suffix f _ Hf Hp) as H. split; [|exact H]. unfold mayavi_save. cbn [no_type].
    rewrite unsupported; [unfold dot; rewrite (named _ _ H); reflexivity|exact Hf|exact mayavi_plain|exact Hn].
Qed.
Theorem mpl_typed f t : file_name f -> plain_type t -> mpl_save f (Some t) = Some (f ++ "."%char :: t, t) /\ has_suffix (f ++ "."%char :: t) t.
Proof.
  intros Hf Ht. split; [|apply typed_suffix; assumption]. unfold mpl_save. rewrite plain_no_type by exact Ht. reflexivity.
Qed.
Theorem mpl_inferred f t : has_suffix f t -> In t mpl_types -> mpl_save f None = Some (f, t).
Proof.
  intros H Hi. unfold mpl_save. cbn [no_type]. rewrite (has_suffix_suffix f t H). cbn [tl]. assert (memb t mpl_types = true) as -> by (apply memb_in, Hi). reflexivity.
Qed.
Theorem mpl_default f : file_name f -> (forall t, In t mpl_types -> ~ has_suffix f t) -> mpl_save f None = Some (f, txt "pdf").
Proof. intros Hf Hn. unfold mpl_save. cbn [no_type]. rewrite unsupported; [reflexivity|exact Hf|exact mpl_plain|exact Hn]. Qed.
