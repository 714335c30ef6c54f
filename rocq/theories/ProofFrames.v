(** Proofs about numbered frames. *)
From Coq Require Import List Bool Arith ZArith Ascii String Lia DecimalNat DecimalString.
From Verif Require Import Base ModelPrinter ModelSave SpecSave ProofPrinter ProofSave.
Import ListNotations.
Local Open Scope list_scope.

(** ** Numerals *)
Notation step10 := (fun v c => 10 * v + (nat_of_ascii c - 48)).
Lemma value_from v t : fold_left step10 t v = v * 10 ^ List.length t + value t.
Proof.
  unfold value. revert v. induction t as [|c t IH]; intros v; [cbn; lia|]. cbn [fold_left List.length]. rewrite IH, (IH (10 * 0 + _)).
  rewrite Nat.pow_succ_r'. lia.
Qed.
Lemma value_cons c t : value (c :: t) = (nat_of_ascii c - 48) * 10 ^ List.length t + value t.
Proof. unfold value at 1. cbn [fold_left]. rewrite value_from. lia. Qed.
Lemma value_lt t : Forall digit t -> value t < 10 ^ List.length t.
Proof.
  induction 1 as [|c t Hc Ht IH]; [cbn; lia|]. rewrite value_cons. cbn [List.length]. rewrite Nat.pow_succ_r'. unfold digit in Hc. nia.
Qed.
Lemma digit_code a b : digit a -> digit b -> nat_of_ascii a - 48 = nat_of_ascii b - 48 -> a = b.
Proof.
  unfold digit. intros Ha Hb E. assert (nat_of_ascii a = nat_of_ascii b) as H by lia. apply (f_equal ascii_of_nat) in H.
  rewrite !ascii_nat_embedding in H. exact H.
Qed.
Lemma value_inj t t' : Forall digit t -> Forall digit t' -> List.length t = List.length t' -> value t = value t' -> t = t'.
Proof.
  intros H. revert t'. induction H as [|a t Ha Ht IH]; intros [|b t'] H' L E; try discriminate; [reflexivity|].
  inversion H' as [|? ? Hb Ht']; subst. injection L as L. rewrite !value_cons, L in E. pose proof (value_lt t Ht) as V. pose proof (value_lt t' Ht') as V'. rewrite L in V.
  assert (nat_of_ascii a - 48 = nat_of_ascii b - 48) as Ed by nia. rewrite (digit_code a b Ha Hb Ed). f_equal. apply IH; [exact Ht'|exact L|]. rewrite Ed in E. lia.
Qed.
Lemma value_before t t' : Forall digit t -> Forall digit t' -> List.length t = List.length t' -> value t < value t' -> before t t'.
Proof.
  intros H. revert t'. induction H as [|a t Ha Ht IH]; intros [|b t'] H' L E; try discriminate; [cbn in E; lia|].
  inversion H' as [|? ? Hb Ht']; subst. injection L as L. rewrite !value_cons, L in E. pose proof (value_lt t Ht) as V. pose proof (value_lt t' Ht') as V'. rewrite L in V.
  destruct (Nat.eq_dec (nat_of_ascii a - 48) (nat_of_ascii b - 48)) as [Ed|Ed].
  - rewrite (digit_code a b Ha Hb Ed). apply bf_tail, IH; [exact Ht'|exact L|]. rewrite Ed in E. lia.
  - apply bf_head. unfold digit in *. nia.
Qed.
Lemma before_app t t' s s' : before t t' -> List.length t = List.length t' -> before (t ++ s) (t' ++ s').
Proof. induction 1; intros L; [discriminate|apply bf_head; assumption|]. injection L as L. apply bf_tail, IHbefore, L. Qed.
Lemma before_prefix p t t' : before t t' -> before (p ++ t) (p ++ t').
Proof. intros H. induction p; [exact H|]. apply bf_tail, IHp. Qed.
Lemma before_irrefl t : ~ before t t.
Proof. induction t; intros H; inversion H; subst; [lia|auto]. Qed.
Lemma before_asym t t' : before t t' -> ~ before t' t.
Proof. induction 1; intros H'; inversion H'; subst; [lia|lia|lia|auto]. Qed.

Lemma value_zeros n t : value (repeat "0"%char n ++ t) = value t.
Proof. induction n; [reflexivity|]. cbn [repeat app]. rewrite value_cons. cbn [nat_of_ascii]. change (nat_of_ascii "0" - 48) with 0. lia. Qed.
Lemma uint_value u v : fold_left step10 (txt (NilEmpty.string_of_uint u)) v = Nat.of_uint_acc u v.
Proof.
  revert v. induction u; intros v; [reflexivity|..]; cbn [NilEmpty.string_of_uint Nat.of_uint_acc]; unfold txt in *; cbn [list_ascii_of_string fold_left]; rewrite IHu; f_equal; rewrite ?Nat.tail_mul_spec;
    match goal with |- 10 * v + (nat_of_ascii ?c - 48) = _ => let n := eval vm_compute in (nat_of_ascii c - 48) in change (nat_of_ascii c - 48) with n end; lia.
Qed.
Lemma dec_value k : value (dec k) = k.
Proof. unfold dec, value. rewrite uint_value. apply (Unsigned.of_to k). Qed.
Lemma dec_digits k : Forall digit (dec k).
Proof.
  unfold dec. generalize (Nat.to_uint k). intros u. induction u; unfold txt in *; cbn [NilEmpty.string_of_uint list_ascii_of_string]; constructor; auto; unfold digit; cbn; lia.
Qed.
Lemma dec_head k : 1 < List.length (dec k) -> hd "0"%char (dec k) <> "0"%char.
Proof.
  assert (Nat.to_uint k = Decimal.unorm (Nat.to_uint k)) as E by (rewrite <- (Unsigned.to_of (Nat.to_uint k)), Unsigned.of_to; reflexivity).
  assert (forall u, Decimal.nzhead u <> Decimal.Nil -> hd "0"%char (txt (NilEmpty.string_of_uint (Decimal.nzhead u))) <> "0"%char) as H.
  { induction u; cbn [Decimal.nzhead]; [congruence|exact IHu|..]; intros _; cbn; discriminate. }
  unfold dec. rewrite E. unfold Decimal.unorm. destruct (Decimal.nzhead (Nat.to_uint k)) eqn:Eu; try (cbn; lia); intros _; rewrite <- Eu; apply H; congruence.
Qed.
Lemma dec_nonempty k : 1 <= List.length (dec k).
Proof.
  unfold dec. pose proof (to_uint_nonnil k) as H. destruct (Nat.to_uint k); [congruence|..]; unfold txt; cbn [NilEmpty.string_of_uint list_ascii_of_string List.length]; lia.
Qed.
Lemma pad6_printf k : printf06 k (pad6 k).
Proof.
  unfold pad6. split; [|split; [|split]].
  - apply Forall_app. split; [|apply dec_digits]. apply Forall_forall. intros c Hc. apply repeat_spec in Hc. subst c. unfold digit. cbn. lia.
  - rewrite value_zeros. apply dec_value.
  - rewrite app_length, repeat_length. lia.
  - rewrite app_length, repeat_length. intros H. replace (6 - List.length (dec k)) with 0 by lia. cbn [repeat app]. apply dec_head. lia.
Qed.
Lemma value_ge t : Forall digit t -> t <> [] -> hd "0"%char t <> "0"%char -> 10 ^ (List.length t - 1) <= value t.
Proof.
  intros H Hn Hh. destruct H as [|c t Hc Ht]; [congruence|]. cbn [hd List.length] in *. rewrite value_cons. replace (S (List.length t) - 1) with (List.length t) by lia.
  assert (nat_of_ascii c - 48 <> 0); [|nia]. intros E. apply Hh, digit_code; [exact Hc|unfold digit; cbn; lia|exact E].
Qed.
Lemma printf_unique k t t' : printf06 k t -> printf06 k t' -> t = t'.
Proof.
  assert (forall t t', printf06 k t -> printf06 k t' -> List.length t' <= List.length t) as H.
  { intros s s' [D [V [L Hh]]] [D' [V' [L' Hh']]]. destruct (le_lt_dec (List.length s') (List.length s)) as [|Hl]; [assumption|exfalso].
    pose proof (value_lt s D) as B. assert (s' <> []) as Hn by (destruct s'; [cbn in L'; lia|discriminate]).
    pose proof (value_ge s' D' Hn (Hh' ltac:(lia))) as B'. assert (10 ^ List.length s <= 10 ^ (List.length s' - 1)) by (apply Nat.pow_le_mono_r; lia). lia. }
  intros P P'. pose proof (H t t' P P'). pose proof (H t' t P' P). destruct P as [D [V _]], P' as [D' [V' _]]. apply value_inj; [exact D|exact D'|lia|congruence].
Qed.
Lemma printf_six k t : printf06 k t -> k < 10 ^ 6 -> List.length t = 6.
Proof.
  intros [D [V [L Hh]]] Hk. destruct (Nat.eq_dec (List.length t) 6) as [|Hn]; [assumption|exfalso]. assert (6 < List.length t) as Hl by lia.
  assert (t <> []) as H0 by (destruct t; [cbn in L; lia|discriminate]). pose proof (value_ge t D H0 (Hh Hl)) as B.
  assert (10 ^ 6 <= 10 ^ (List.length t - 1)) by (apply Nat.pow_le_mono_r; lia). lia.
Qed.

(** ** Paths *)
Lemma parts_path f : path_parts f (parts f).
Proof.
  remember (List.length f) as n eqn:En. revert f En. induction n as [n IH] using lt_wf_ind. intros f ->.
  assert (forall p, ~ In "/"%char p -> parts p = if list_eq_dec ascii_dec p [] then [] else if list_eq_dec ascii_dec p ["."%char] then [] else [p]) as Hp.
  { intros p H. unfold parts. rewrite split_plain by exact H. cbn [app filter]. destruct (list_eq_dec ascii_dec p []) as [->|H1]; [reflexivity|].
    destruct (list_eq_dec ascii_dec p ["."%char]) as [->|H2]; [reflexivity|]. apply teqb_neq in H1, H2. unfold dot. rewrite H1, H2. reflexivity. }
  destruct (in_dec ascii_dec "/"%char f) as [Hi|Hi].
  - assert (exists p r, f = p ++ "/"%char :: r /\ ~ In "/"%char p) as [p [r [-> Hp']]].
    { clear -Hi. induction f as [|c f IHf]; [destruct Hi|]. destruct (ascii_dec c "/"%char) as [->|Hc]; [exists [], f; auto|].
      destruct Hi as [Hi|Hi]; [congruence|]. destruct (IHf Hi) as [p [r [-> H]]]. exists (c :: p), r. split; [reflexivity|]. intros [E|E]; [congruence|auto]. }
    change ("/"%char) with slash at 2. rewrite parts_app, (Hp p Hp'). apply pp_cons; [exact Hp'|]. apply (IH (List.length r)); [rewrite app_length; cbn; lia|reflexivity].
  - rewrite Hp by exact Hi. apply pp_last, Hi.
Qed.
Definition dig (t : text) : Prop := Forall digit t /\ t <> [].
Lemma digit_noslash c : digit c -> Ascii.eqb c slash = false.
Proof. intros H. apply Ascii.eqb_neq. intros ->. unfold digit in H. cbn in H. lia. Qed.
(** the part of a frame's path before its number *)
Lemma join_prefix outDir fileName : (forall r, fileName <> "/"%char :: r) -> exists q, (forall t, dig t -> join_path outDir (fileName ++ t) = q ++ t) /\
  forall t, parts (q ++ t) = parts (txt "./" ++ outDir ++ "/"%char :: fileName ++ t).
Proof.
  intros Hf.
  assert (forall t, dig t -> exists c r, fileName ++ t = c :: r /\ Ascii.eqb c slash = false) as H0.
  { intros t [Hd Hn]. destruct fileName as [|c f].
    - destruct t as [|c t]; [congruence|]. inversion Hd; subst. exists c, t. split; [reflexivity|apply digit_noslash; assumption].
    - exists c, (f ++ t). split; [reflexivity|]. apply Ascii.eqb_neq. intros ->. apply (Hf f eq_refl). }
  assert (forall t, dig t -> join_path outDir (fileName ++ t) = match outDir with [] => fileName ++ t | _ => if Ascii.eqb (last outDir dot) slash then outDir ++ fileName ++ t else outDir ++ slash :: fileName ++ t end) as H1.
  { intros t Ht. destruct (H0 t Ht) as [c [r [E Hc]]]. rewrite E. cbn [join_path]. rewrite Hc. reflexivity. }
  assert (forall x, parts (txt "./" ++ outDir ++ "/"%char :: x) = parts outDir ++ parts x) as H2.
  { intros x. change (txt "./" ++ outDir ++ "/"%char :: x) with (["."%char] ++ slash :: (outDir ++ slash :: x)). rewrite !parts_app. reflexivity. }
  destruct outDir as [|c o].
  - exists fileName. split; [exact H1|]. intros t. rewrite H2. reflexivity.
  - set (d := c :: o) in *. destruct (Ascii.eqb (last d dot) slash) eqn:E.
    + exists (d ++ fileName). split; [intros t Ht; rewrite H1, app_assoc by exact Ht; reflexivity|]. intros t. rewrite H2, <- app_assoc.
      apply eqb_slash in E. assert (d = removelast d ++ [slash]) as Ed by (rewrite (app_removelast_last dot (l := d)) at 1 by discriminate; rewrite E; reflexivity).
      rewrite Ed, <- app_assoc. cbn [app]. rewrite !parts_app. change (parts []) with (@nil text). rewrite List.app_nil_r. reflexivity.
    + exists (d ++ slash :: fileName). split; [intros t Ht; rewrite H1, <- app_assoc by exact Ht; reflexivity|]. intros t. rewrite H2, <- app_assoc. cbn [app]. rewrite parts_app. reflexivity.
Qed.
Lemma digits_file q t : dig t -> file_name (q ++ t).
Proof.
  intros [Hd Hn]. destruct (last_part q) as [dir [a [-> [Hdir Ha]]]]. exists dir, (a ++ t). rewrite app_assoc. repeat split; [exact Hdir| | |].
  - rewrite in_app_iff. intros [H|H]; [exact (Ha H)|]. rewrite Forall_forall in Hd. apply Hd in H. unfold digit in H. cbn in H. lia.
  - destruct a, t; try congruence; discriminate.
  - destruct a as [|x [|y a]]; cbn; intros E.
    + destruct t as [|z t]; [congruence|]. injection E as -> ->. inversion Hd as [|? ? H _]; subst. unfold digit in H. cbn in H. lia.
    + injection E as _ ->. congruence.
    + discriminate.
Qed.
Lemma pad6_dig k : dig (pad6 k).
Proof. destruct (pad6_printf k) as [D [_ [L _]]]. split; [exact D|]. destruct (pad6 k); [cbn in L; lia|discriminate]. Qed.

(** ** Frames *)
Definition writes_png (save : text -> option text -> option (text * text)) : Prop :=
  forall f, file_name f -> save f (Some (txt "png")) = Some (f ++ txt ".png", txt "png").
Definition frame (outDir fileName : text) (k : nat) : text := join_path outDir (fileName ++ pad6 k) ++ txt ".png".
Fixpoint before_stop (ys : list yielded) : nat :=
  match ys with [] => 0 | y :: ys => if goes_on y then S (before_stop ys) else 0 end.
Lemma join_file outDir fileName t : dig t -> exists q, join_path outDir (fileName ++ t) = q ++ t.
Proof.
  intros [Hd Hn]. destruct fileName as [|c f].
  - destruct t as [|x t]; [congruence|]. cbn [app join_path]. inversion Hd; subst. rewrite digit_noslash by assumption.
    destruct outDir as [|y o]; [exists []; reflexivity|]. destruct (Ascii.eqb (last (y :: o) dot) slash); [exists (y :: o); reflexivity|exists ((y :: o) ++ [slash])].
    rewrite <- app_assoc. reflexivity.
  - cbn [app join_path]. destruct (Ascii.eqb c slash); [exists (c :: f); reflexivity|].
    destruct outDir as [|y o]; [exists (c :: f); reflexivity|]. destruct (Ascii.eqb (last (y :: o) dot) slash); [exists ((y :: o) ++ c :: f); rewrite <- app_assoc; reflexivity|].
    exists ((y :: o) ++ slash :: c :: f). rewrite <- app_assoc. reflexivity.
Qed.
Lemma frames_are save outDir fileName ys k : writes_png save ->
  frames save outDir fileName k ys = Some (map (fun i => (frame outDir fileName i, txt "png")) (seq k (before_stop ys))).
Proof.
  intros Hs. revert k. induction ys as [|y ys IH]; intros k; [reflexivity|]. cbn [frames before_stop]. destruct (goes_on y); [|reflexivity].
  destruct (join_file outDir fileName (pad6 k) (pad6_dig k)) as [q E]. rewrite Hs by (rewrite E; apply digits_file, pad6_dig). cbn [bind]. rewrite IH. reflexivity.
Qed.
Lemma mpl_png : writes_png mpl_save.
Proof. intros f Hf. reflexivity. Qed.
Lemma mayavi_png : writes_png mayavi_save.
Proof.
  intros f Hf. apply (proj1 mayavi_well f (txt "png") Hf). pose proof mayavi_plain as H. rewrite Forall_forall in H. apply H. cbn. auto.
Qed.
