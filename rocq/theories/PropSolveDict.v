(** Theorems about the Jacobian LS and NLLS build for dictionaries (C39). *)
From Coq Require Import List Arith ZArith Lia.
From Verif Require Import Base ModelDict SpecDict ModelSolveDict SpecSolveDict ProofDict ProofSolveDict.
Import ListNotations.

(** C39: the entry in row [r] and in the column at which entry [j] of the array under [k] is
    packed is the derivative of residual [r] with respect to that entry. *)
Theorem C39_columns : forall (T K : Type) (keq : K -> K -> bool) cl m D (c jacob : list (K * @arr T)),
  keq_ok keq -> NoDup (map fst c) -> c <> [] -> jac_of m D c jacob ->
  (cl = Plain -> Forall (fun p => is1d (snd p)) c) ->
  (cl = Robust -> Forall (fun p => wf (snd p) /\ a_shape (snd p) <> []) c) ->
  exists A, c_J keq cl jacob c = Some A /\ a_shape A = [m; length (packed c)] /\
    length (a_data A) = m * length (packed c) /\
    forall c1 k a c2 r j, c = c1 ++ (k, a) :: c2 -> r < m -> j < length (a_data a) ->
      nth_error (packed c) (length (packed c1) + j) = nth_error (a_data a) j /\
      nth_error (a_data A) (r * length (packed c) + (length (packed c1) + j)) = Some (D r k j).
Proof.
  intros T K keq cl m D c jacob Hk Hn Hc Hj H1 H2.
  eexists. split; [apply (c_J_ok keq Hk cl m D c jacob Hn Hc); [destruct cl; auto|exact Hj]|].
  split; [reflexivity|]. split; [apply flat_map_len; intros; apply jrow_len|].
  intros c1 k a c2 r j E Hr Hjj. subst c. split; [apply packed_nth; exact Hjj|].
  cbn [a_data]. rewrite rows_nth; [apply jrow_nth; assumption|assumption| |intros; apply jrow_len].
  unfold packed. rewrite map_app, concat_app, !app_length. cbn. rewrite app_length. lia.
Qed.
Print Assumptions C39_columns.

(** A zero-dimensional entry of a TFCDictRobust makes LS and NLLS raise. *)
Theorem C39_scalar_entry_refuted : forall (T K : Type) (keq : K -> K -> bool) sub solve jacfwd h (d : @tdict T K) c k a res,
  keq_ok keq -> fresh r_refresh h d -> contents h d = Some c -> In (k, a) c -> a_shape a = [] ->
  NLLS_step keq sub solve jacfwd Robust h d res = None.
Proof.
  intros T K keq sub solve jacfwd h d c k a res Hk Hf Hc Hi Ha. unfold NLLS_step. rewrite Hc. cbn [bind].
  cbn [c_J]. rewrite (J_robust_0d keq Hk c _ k a); [reflexivity| |assumption|assumption].
  destruct (contents_ld _ _ _ Hc) as [_ <-]. apply (fresh_keys _ _ _ Hf).
Qed.
Print Assumptions C39_scalar_entry_refuted.

(** LS on a TFCDictRobust with two non-empty entries raises, whatever the residual: the zeros
    it starts from are NumPy arrays, for which the class keeps no slices. *)
Theorem C39_robust_ls_refuted : forall (T K : Type) (keq : K -> K -> bool) zero add opp solve jacfwd h (d : @tdict T K) c res,
  keq_ok keq -> (forall m n l r, length (solve (Arr_ [m; n] l) r) = n) ->
  fresh r_refresh h d -> contents h d = Some c -> Forall (fun p => wf (snd p)) c ->
  (forall c', same_form c c' -> exists m D, jac_of m D c' (jacfwd res c')) ->
  (exists k1 a1 k2 a2, In (k1, a1) c /\ In (k2, a2) c /\ k1 <> k2 /\ a_data a1 <> [] /\ a_data a2 <> []) ->
  LS_dict keq zero add opp solve jacfwd Robust h d res = None.
Proof.
  intros T K keq zero add opp solve jacfwd h d c res Hk Hs Hf Hc W Hj H2.
  apply (ls_robust_raises keq Hk zero add opp solve jacfwd h d c res); auto. apply Hj, zero_view_form.
Qed.
Print Assumptions C39_robust_ls_refuted.

(** Two residuals of two keys, derivative = 100 r + 10 k + j. *)
Example C39_case :
  let D r k j := (100 * Z.of_nat r + 10 * k + Z.of_nat j)%Z in
  let c := [(5, Arr_ [2]%nat [7; 8]); (3, Arr_ [1]%nat [9])]%Z in
  let c2 := [(5, Arr_ [1; 2]%nat [7; 8]); (3, Arr_ [1]%nat [9])]%Z in
  c_J Z.eqb Plain (map (fun p => (fst p, block 2 D p)) c) c = Some (Arr_ [2; 3]%nat [50; 51; 30; 150; 151; 130]%Z) /\
  c_J Z.eqb Robust (map (fun p => (fst p, block 2 D p)) c2) c2 = Some (Arr_ [2; 3]%nat [50; 51; 30; 150; 151; 130]%Z) /\
  c_J Z.eqb Robust (map (fun p => (fst p, block 2 D p)) [(1, Arr_ []%nat [4])]%Z) [(1, Arr_ []%nat [4])]%Z = None.
Proof. repeat split. Qed.
