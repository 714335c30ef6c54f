(** C53, C62: egradRobust when some of the arguments are dictionaries of arrays. *)
From Coq Require Import Reals List Bool Arith String Lia Lra.
From Coquelicot Require Import Coquelicot.
From Verif Require Import Base ModelEgrad SpecEgrad ProofEgrad.
Import ListNotations.
Local Open Scope R_scope.

(** ** What is differentiated: every entry of argument [j], array or dictionary, moves together. *)
Definition raise_arr (t : R) (x : arr) : arr := Arr (a_sh x) (map (fun y => y + t) (a_dat x)).
Definition raise_arg (t : R) (a : arg) : arg :=
  match a with
  | AArr x => AArr (raise_arr t x)
  | ADict d => ADict (map (fun p => (fst p, raise_arr t (snd p))) d)
  | ANum x => ANum (x + t)
  end.
Definition bumped (j : nat) (t : R) (args : list arg) : list arg :=
  firstn j args ++ map (raise_arg t) (firstn 1 (skipn j args)) ++ skipn (S j) args.
(** arguments with a shape *)
Definition shaped (a : arg) : Prop :=
  match a with
  | AArr x => wf_arr x
  | ADict d => List.Forall (fun p => wf_arr (snd p)) d
  | ANum _ => False
  end.

Definition tan_any (j k : nat) (a : arg) : arg :=
  let c := fun x : arr => if (k =? j)%nat then ones (a_sh x) else zeros (a_sh x) in
  match a with
  | AArr x => AArr (c x)
  | ADict d => ADict (map (fun p => (fst p, c (snd p))) d)
  | ANum _ => a
  end.
Lemma robust_tans j k args : List.Forall shaped args ->
  mapM (fun p : nat * arg => if (fst p =? j)%nat then onesRobust (snd p) else zerosRobust (snd p)) (combine (seq k (List.length args)) args)
  = Some (map (fun p => tan_any j (fst p) (snd p)) (combine (seq k (List.length args)) args)).
Proof.
  intros H. revert k. induction H as [|a args Ha _ IH]; intros k; [reflexivity|].
  cbn [List.length seq combine mapM map fst snd]. rewrite IH. destruct a as [x|d|x]; [| |destruct Ha];
  cbn [tan_any]; destruct (k =? j)%nat; reflexivity.
Qed.
Lemma along_one t x : wf_arr x -> along t x (ones (a_sh x)) = raise_arr t x.
Proof. intros W. unfold along, raise_arr, ones. cbn. rewrite (map_combine_repeat (fun y => y + t)); [reflexivity|exact W|intros; lra]. Qed.
Lemma along_zero t x : wf_arr x -> along t x (zeros (a_sh x)) = x.
Proof. intros W. unfold along, zeros. cbn. rewrite (map_combine_repeat (fun y => y)); [rewrite map_id; destruct x; reflexivity|exact W|intros; lra]. Qed.
Lemma along_any j k t a : shaped a -> along_arg t a (tan_any j k a) = if (k =? j)%nat then raise_arg t a else a.
Proof.
  destruct a as [x|d|x]; cbn; intros W; [| |destruct W].
  - destruct (k =? j)%nat; f_equal; [apply along_one|apply along_zero]; exact W.
  - assert (forall c (h : arr -> arr), (forall x, wf_arr x -> along t x (c x) = h x) ->
      map (fun p : string * arr * (string * arr) => (fst (fst p), along t (snd (fst p)) (snd (snd p)))) (combine d (map (fun p => (fst p, c (snd p))) d))
      = map (fun p => (fst p, h (snd p))) d) as G.
    { intros c h Hch. induction W as [|[s y] d Wy _ IH]; [reflexivity|]. cbn. rewrite Hch by exact Wy. f_equal. exact IH. }
    destruct (k =? j)%nat; f_equal.
    + apply (G (fun y => ones (a_sh y)) (raise_arr t)). intros y Wy. apply along_one, Wy.
    + rewrite (G (fun y => zeros (a_sh y)) (fun y => y)) by (intros y Wy; apply along_zero, Wy). clear. induction d as [|[s y] d IH]; cbn; [reflexivity|rewrite IH; reflexivity].
Qed.
Lemma along_bumped j t args : List.Forall shaped args ->
  along_args t args (map (fun p => tan_any j (fst p) (snd p)) (combine (seq 0 (List.length args)) args)) = bumped j t args.
Proof.
  intros H. assert (forall k j, (k <= j)%nat -> along_args t args (map (fun p => tan_any j (fst p) (snd p)) (combine (seq k (List.length args)) args))
    = bumped (j - k) t args) as G; [|rewrite (G 0%nat j) by lia; rewrite Nat.sub_0_r; reflexivity].
  unfold along_args. induction H as [|a args Ha HF IH]; intros k j' Hk; [unfold bumped; destruct (j' - k)%nat; reflexivity|].
  cbn [List.length seq combine map fst snd]. rewrite (along_any j' k t a Ha). destruct (Nat.eqb_spec k j') as [<-|Hne].
  - rewrite Nat.sub_diag. unfold bumped. cbn. f_equal. clear IH.
    assert (forall m, (k < m)%nat -> map (fun p : arg * arg => along_arg t (fst p) (snd p))
      (combine args (map (fun p => tan_any k (fst p) (snd p)) (combine (seq m (List.length args)) args))) = args) as K; [|apply K; lia].
    induction HF as [|b args Hb _ IH]; intros m Hm; [reflexivity|]. cbn [List.length seq combine map fst snd].
    rewrite (along_any k m t b Hb). destruct (Nat.eqb_spec m k); [lia|]. rewrite IH by lia. reflexivity.
  - rewrite IH by lia. replace (j' - k)%nat with (S (j' - S k)) by lia. reflexivity.
Qed.

(** C53: egradRobust(g, j) returns, entry by entry, the derivative of g as all the entries of
    argument [j] increase together, whether that argument (or any other) is an array or a
    dictionary. *)
Theorem C53_robust_dict g j args r : List.Forall shaped args ->
  is_egradRobust g j args r <->
  exists v, r = Some v /\ a_sh v = a_sh (g args) /\ List.length (a_dat v) = List.length (a_dat (g args)) /\
    forall i, (i < List.length (a_dat v))%nat ->
      is_derive (fun t => nth i (a_dat (g (bumped j t args))) 0) 0 (nth i (a_dat v) 0).
Proof.
  intros H. unfold is_egradRobust, egradRobust_tans. rewrite robust_tans by exact H. unfold is_jvp.
  split; intros [v [-> [H1 [H2 H3]]]]; exists v; (split; [reflexivity|]); (split; [exact H1|]); (split; [exact H2|]); intros i Hi.
  - eapply is_derive_ext; [|apply (H3 i Hi)]. intros t. cbn beta. rewrite along_bumped by exact H. reflexivity.
  - eapply is_derive_ext; [|apply (H3 i Hi)]. intros t. cbn beta. rewrite along_bumped by exact H. reflexivity.
Qed.
Print Assumptions C53_robust_dict.

(** C53: so for a dictionary of single entries the result is the sum of the partial derivatives
    in those entries, not one derivative for each key. *)
Theorem C53_dict_sums g s1 s2 a b (f : R -> R -> R) f1 f2 :
  (forall x y, g [ADict [(s1, Arr [] [x]); (s2, Arr [] [y])]] = Arr [] [f x y]) ->
  differentiable_pt_lim f a b f1 f2 ->
  forall r, is_egradRobust g 0 [ADict [(s1, Arr [] [a]); (s2, Arr [] [b])]] r <-> r = Some (Arr [] [f1 + f2]).
Proof.
  intros Hg Hf r.
  assert (is_derive (fun t => f (a + t) (b + t)) 0 (f1 + f2)) as Hd.
  { apply is_derive_Reals. replace (f1 + f2) with (f1 * 1 + f2 * 1) by ring.
    apply (derivable_pt_lim_comp_2d f (fun t => a + t) (fun t => b + t)).
    - cbn beta. rewrite !Rplus_0_r. exact Hf.
    - apply is_derive_Reals. auto_derive; [exact I|ring].
    - apply is_derive_Reals. auto_derive; [exact I|ring]. }
  rewrite C53_robust_dict by (repeat constructor). rewrite Hg. cbn [a_sh a_dat List.length].
  assert (forall i t, (i < 1)%nat -> nth i (a_dat (g (bumped 0 t [ADict [(s1, Arr [] [a]); (s2, Arr [] [b])]]))) 0 = f (a + t) (b + t)) as E.
  { intros i t Hi. unfold bumped. cbn. unfold raise_arr. cbn. rewrite Hg. destruct i; [reflexivity|lia]. }
  split.
  - intros [v [-> [H1 [H2 H3]]]]. f_equal. apply arr_ext; [exact H1|exact H2|]. intros i Hi. cbn.
    assert (i = 0)%nat as -> by lia. specialize (H3 0%nat Hi). apply (is_derive_ext _ (fun t => f (a + t) (b + t))) in H3; [|intros t; apply E; lia].
    apply is_derive_unique in H3. apply is_derive_unique in Hd. congruence.
  - intros ->. eexists. split; [reflexivity|]. split; [reflexivity|]. split; [reflexivity|]. cbn [a_dat List.length]. intros i Hi.
    assert (i = 0)%nat as -> by lia. eapply is_derive_ext; [|exact Hd]. intros t. symmetry. apply E. lia.
Qed.
Print Assumptions C53_dict_sums.

(** C62: an argument position that does not exist is not reported by egradRobust either. *)
Theorem C62_robust_no_such_argument g j args : List.Forall shaped args -> (List.length args <= j)%nat -> wf_arr (g args) ->
  is_egradRobust g j args (Some (zeros (a_sh (g args)))).
Proof.
  intros H Hj W. rewrite C53_robust_dict by exact H. eexists. split; [reflexivity|]. cbn [zeros a_sh a_dat]. rewrite repeat_length.
  split; [reflexivity|]. split; [symmetry; exact W|]. intros i Hi. rewrite nth_repeat.
  apply (is_derive_ext (fun _ => nth i (a_dat (g args)) 0)); [|apply (is_derive_const (nth i (a_dat (g args)) 0) 0)].
  intros t. unfold bumped. rewrite firstn_all2, !skipn_all2 by lia. rewrite firstn_nil. cbn. rewrite app_nil_r. reflexivity.
Qed.
Print Assumptions C62_robust_no_such_argument.

(** x * y over {"x": 3, "y": 5}: the derivative is 8 *)
Example C53_dict_case g : (forall x y, g [ADict [("x"%string, Arr [] [x]); ("y"%string, Arr [] [y])]] = Arr [] [x * y]) ->
  is_egradRobust g 0 [ADict [("x"%string, Arr [] [3]); ("y"%string, Arr [] [5])]] (Some (Arr [] [5 + 3])).
Proof.
  intros Hg. rewrite C53_robust_dict by (repeat constructor). eexists. split; [reflexivity|]. rewrite Hg. split; [reflexivity|]. split; [reflexivity|].
  cbn [a_dat List.length]. intros i Hi. assert (i = 0)%nat as -> by lia. cbn [nth].
  apply (is_derive_ext (fun t => (3 + t) * (5 + t))); [|auto_derive; [exact I|ring]].
  intros t. unfold bumped. cbn [firstn skipn map app raise_arg fst snd]. unfold raise_arr. cbn [map a_sh a_dat]. rewrite Hg. reflexivity.
Qed.
