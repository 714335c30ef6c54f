From Coq Require Import Reals List Bool Arith String Lia Lra.
From Coquelicot Require Import Coquelicot.
From Verif Require Import Base ModelEgrad SpecEgrad.
Import ListNotations.
Local Open Scope R_scope.

Definition tan_of (j k : nat) (a : arg) : arg :=
  match a with
  | AArr x => AArr (if (k =? j)%nat then ones (a_sh x) else zeros (a_sh x))
  | _ => a
  end.
Definition is_arr (a : arg) : Prop := exists x, a = AArr x /\ wf_arr x.
Lemma tans_from j k args : List.Forall is_arr args ->
  mapM (fun p : nat * arg => match snd p with
        | AArr a => Some (AArr (if (fst p =? j)%nat then ones (a_sh a) else zeros (a_sh a)))
        | _ => None
        end) (combine (seq k (List.length args)) args)
  = Some (map (fun p => tan_of j (fst p) (snd p)) (combine (seq k (List.length args)) args)).
Proof.
  intros H. revert k. induction H as [|a args [x [-> _]] _ IH]; intros k; [reflexivity|].
  cbn [List.length seq combine mapM map fst snd tan_of]. rewrite IH. reflexivity.
Qed.
Lemma tans_robust j k args : List.Forall is_arr args ->
  mapM (fun p : nat * arg => if (fst p =? j)%nat then onesRobust (snd p) else zerosRobust (snd p)) (combine (seq k (List.length args)) args)
  = Some (map (fun p => tan_of j (fst p) (snd p)) (combine (seq k (List.length args)) args)).
Proof.
  intros H. revert k. induction H as [|a args [x [-> _]] _ IH]; intros k; [reflexivity|].
  cbn [List.length seq combine mapM map fst snd tan_of]. rewrite IH.
  destruct (k =? j)%nat; reflexivity.
Qed.
Lemma map_combine_repeat (h : R -> R) c t : forall (l : list R) n, List.length l = n -> (forall x, x + t * c = h x) ->
  map (fun p => fst p + t * snd p) (combine l (repeat c n)) = map h l.
Proof. induction l as [|x l IH]; intros [|n] E Hh; cbn in *; try discriminate; [reflexivity|]. rewrite Hh, IH by (auto; lia). reflexivity. Qed.
Definition moved (j k : nat) (t : R) (a : arg) : arg :=
  match a with AArr x => AArr (Arr (a_sh x) (if (k =? j)%nat then map (fun y => y + t) (a_dat x) else a_dat x)) | _ => a end.
Lemma along_tan j k t a : is_arr a -> along_arg t a (tan_of j k a) = moved j k t a.
Proof.
  intros [x [-> Hx]]. cbn. unfold along. destruct (k =? j)%nat; cbn.
  - rewrite (map_combine_repeat (fun y => y + t)); [reflexivity|exact Hx|intros; lra].
  - rewrite (map_combine_repeat (fun y => y)); [rewrite map_id; reflexivity|exact Hx|intros; lra].
Qed.
Lemma along_from j k t args : List.Forall is_arr args ->
  along_args t args (map (fun p => tan_of j (fst p) (snd p)) (combine (seq k (List.length args)) args))
  = map (fun p => moved j (fst p) t (snd p)) (combine (seq k (List.length args)) args).
Proof.
  intros H. revert k. induction H as [|a args Ha _ IH]; intros k; [reflexivity|].
  cbn [List.length seq combine map]. unfold along_args in *. cbn [combine map fst snd]. rewrite (IH (S k)), (along_tan j k t a Ha).
  reflexivity.
Qed.
Lemma fits_arr sh args : List.Forall (fits sh) args -> List.Forall is_arr args.
Proof. intros H. eapply Forall_impl; [|exact H]. intros a [x [E [W _]]]. exists x. auto. Qed.
Lemma moved_conform n sh j k t args : conform n sh args ->
  conform n sh (map (fun p => moved j (fst p) t (snd p)) (combine (seq k (List.length args)) args)).
Proof.
  intros [Hn [HF [x [Hx Hsh]]]]. split; [|split].
  - rewrite map_length, combine_length, seq_length. lia.
  - clear Hn Hx. revert k. induction HF as [|a args [y [-> [W Hs]]] _ IH]; intros k; cbn; constructor; [|apply IH].
    eexists. split; [reflexivity|]. split; [|exact Hs].
    unfold wf_arr in *. cbn. destruct (k =? j)%nat; rewrite ?map_length; exact W.
  - revert k Hx. clear Hn HF. induction args as [|a args IH]; intros k []; cbn.
    + subst a. eexists. split; [left; reflexivity|exact Hsh].
    + destruct (IH (S k) H) as [y [Hy E]]. exists y. split; [right; exact Hy|exact E].
Qed.
Lemma entry_moved sh i j k t a : fits sh a -> (i < numel sh)%nat ->
  entry i (moved j k t a) = if (k =? j)%nat then entry i a + t else entry i a.
Proof.
  intros [x [-> [W Hs]]] Hi. cbn. destruct (k =? j)%nat; [|reflexivity].
  set (m := match a_sh x with [] => 0%nat | _ => i end).
  assert (m < List.length (a_dat x))%nat as Hm.
  { rewrite W. unfold m. destruct Hs as [->| ->]; [|cbn; lia]. destruct sh; cbn; [lia|exact Hi]. }
  rewrite (nth_indep _ 0 (0 + t)) by (rewrite map_length; exact Hm).
  apply (map_nth (fun y => y + t)).
Qed.
Lemma entries_moved sh i j t args k : List.Forall (fits sh) args -> (i < numel sh)%nat -> (k <= j < k + List.length args)%nat ->
  map (entry i) (map (fun p => moved j (fst p) t (snd p)) (combine (seq k (List.length args)) args))
  = put (j - k) (nth (j - k) (map (entry i) args) 0 + t) (map (entry i) args).
Proof.
  intros H Hi. revert k. induction H as [|a args Ha HF IH]; intros k Hk; cbn [List.length] in Hk; [lia|].
  cbn [List.length seq combine map fst snd]. rewrite (entry_moved sh) by assumption.
  destruct (Nat.eqb_spec k j) as [<-|Hne].
  - rewrite Nat.sub_diag. unfold put. cbn. f_equal.
    clear -HF Hi. assert (forall m, (k < m)%nat -> map (entry i) (map (fun p => moved k (fst p) t (snd p)) (combine (seq m (List.length args)) args)) = map (entry i) args) as H; [|apply H; lia].
    induction HF as [|a args Ha _ IH]; intros m Hm; [reflexivity|].
    cbn [List.length seq combine map fst snd]. rewrite (entry_moved sh) by assumption.
    destruct (Nat.eqb_spec m k); [lia|]. rewrite IH by lia. reflexivity.
  - rewrite IH by lia. replace (j - k)%nat with (S (j - S k)) by lia. reflexivity.
Qed.
Lemma shift_derive (F : R -> R) x l : is_derive F x l <-> is_derive (fun t => F (x + t)) 0 l.
Proof.
  split; intros H.
  - replace l with (1 * l) by ring. apply (is_derive_comp F (fun t => x + t)).
    + rewrite Rplus_0_r. exact H.
    + auto_derive; [exact I|ring].
  - apply (is_derive_ext (fun y => F (x + (y - x)))); [intros; f_equal; ring|].
    replace l with (1 * l) by ring. apply (is_derive_comp (fun t => F (x + t)) (fun y => y - x)).
    + rewrite Rminus_eq_0. exact H.
    + auto_derive; [exact I|ring].
Qed.

Section Main.
Variables (n : nat) (f : list R -> R) (g : list arg -> arr) (j : nat).
Hypothesis Hg : elementwise n f g.
Hypothesis Hj : (j < n)%nat.
Lemma jvp_iff sh args v : conform n sh args ->
  is_jvp g args (map (fun p => tan_of j (fst p) (snd p)) (combine (seq 0 (List.length args)) args)) v <->
  a_sh v = sh /\ List.length (a_dat v) = numel sh /\
  forall i, (i < numel sh)%nat ->
    is_derive (fun x => f (put j x (map (entry i) args))) (nth j (map (entry i) args) 0) (nth i (a_dat v) 0).
Proof.
  intros Hc. pose proof Hc as [Hn [HF _]]. unfold is_jvp. rewrite (Hg sh args Hc). cbn [a_sh a_dat].
  rewrite map_length, seq_length.
  assert (forall i t, (i < numel sh)%nat ->
    nth i (a_dat (g (along_args t args (map (fun p => tan_of j (fst p) (snd p)) (combine (seq 0 (List.length args)) args))))) 0
    = f (put j (nth j (map (entry i) args) 0 + t) (map (entry i) args))) as E.
  { intros i t Hi. rewrite along_from by (eapply fits_arr; exact HF).
    rewrite (Hg sh) by (apply moved_conform; exact Hc). cbn [a_dat].
    rewrite (nth_indep _ 0 (f (map (entry 0) (map (fun p => moved j (fst p) t (snd p)) (combine (seq 0 (List.length args)) args)))))
      by (rewrite map_length, seq_length; exact Hi).
    rewrite (map_nth (fun i => f (map (entry i) (map (fun p => moved j (fst p) t (snd p)) (combine (seq 0 (List.length args)) args))))).
    rewrite seq_nth by exact Hi. cbn [Nat.add].
    rewrite (entries_moved sh) by (auto; lia). rewrite Nat.sub_0_r. reflexivity. }
  split; intros [H1 [H2 H3]]; (split; [exact H1|split; [exact H2|]]); intros i Hi.
  - rewrite shift_derive. eapply is_derive_ext; [|apply (H3 i); lia]. intros t. exact (E i t Hi).
  - rewrite H2 in Hi. pose proof (H3 i Hi) as H. rewrite shift_derive in H.
    refine (is_derive_ext _ _ _ _ _ H). intros t. symmetry. exact (E i t Hi).
Qed.
End Main.
Lemma arr_ext a b : a_sh a = a_sh b -> List.length (a_dat a) = List.length (a_dat b) ->
  (forall i, (i < List.length (a_dat a))%nat -> nth i (a_dat a) 0 = nth i (a_dat b) 0) -> a = b.
Proof. destruct a, b. cbn. intros -> L H. f_equal. eapply nth_ext; eauto. Qed.
