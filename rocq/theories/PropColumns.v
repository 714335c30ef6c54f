(** C13: which lists of removed functions the Python classes can handle, and what they remove. *)
From Coq Require Import Reals Arith List Bool ZArith Lra Lia QArith.
From Verif Require Import Base ProofBase Numbers ModelBFPy SpecBasis ModelBFCpp ProofBFCpp ProofH ModelELM SpecELM ProofELM.
Import ListNotations.
Open Scope R_scope.

Lemma np_index_mod m i : np_index m i =
  if (Z.leb (- Z.of_nat m) i && Z.ltb i (Z.of_nat m))%bool then np_index m (i mod Z.of_nat m)%Z else None.
Proof.
  destruct (Z.leb_spec (- Z.of_nat m) i) as [H1|H1], (Z.ltb_spec i (Z.of_nat m)) as [H2|H2]; cbn [andb];
    unfold np_index; try (destruct (Z.leb_spec (- Z.of_nat m) i), (Z.ltb_spec i (Z.of_nat m)); cbn [andb]; try lia; reflexivity).
  assert (Hm : (0 < Z.of_nat m)%Z) by lia.
  pose proof (Z.mod_pos_bound i _ Hm) as Hb.
  destruct (Z.leb_spec (- Z.of_nat m) i), (Z.ltb_spec i (Z.of_nat m)), (Z.leb_spec (- Z.of_nat m) (i mod Z.of_nat m)),
    (Z.ltb_spec (i mod Z.of_nat m) (Z.of_nat m)); try lia. cbn [andb].
  destruct (Z.ltb_spec (i mod Z.of_nat m) 0); [lia|]. f_equal. f_equal.
  destruct (Z.ltb_spec i 0).
  - apply (Z.mod_unique _ _ (-1)); lia.
  - apply (Z.mod_unique _ _ 0); lia.
Qed.

Definition inside (m : nat) (nC : list Z) : Prop := forall i, In i nC -> (- Z.of_nat m <= i < Z.of_nat m)%Z.

Lemma mapM_none {X Y} (f : X -> option Y) l x : In x l -> f x = None -> mapM f l = None.
Proof.
  induction l as [|y l IH]; cbn; [intros []|]. intros [->|H] E.
  - rewrite E. reflexivity.
  - rewrite IH by assumption. destruct (f y); reflexivity.
Qed.
Lemma mapM_ext_in {X Y} (f g : X -> option Y) l : (forall x, In x l -> f x = g x) -> mapM f l = mapM g l.
Proof.
  induction l as [|y l IH]; cbn; intros H; [reflexivity|]. rewrite H by (left; reflexivity).
  rewrite IH by (intros; apply H; right; assumption). reflexivity.
Qed.
Lemma mapM_map' {X Y Z} (g : X -> Y) (f : Y -> option Z) l : mapM f (map g l) = mapM (fun x => f (g x)) l.
Proof. induction l as [|y l IH]; cbn; [reflexivity|]. rewrite IH. reflexivity. Qed.

Lemma delete_any (M : mat R) nC n m : shaped M n m -> (1 <= m)%nat ->
  (inside m nC -> exists Mc, np_delete_cols M nC = Some Mc /\ columns_removed m (map (fun i => i mod Z.of_nat m)%Z nC) M Mc) /\
  (~ inside m nC -> np_delete_cols M nC = None).
Proof.
  intros Hs Hm. pose proof Hs as (Hr & Hc & Hl & Hrow). split.
  - intros Hi. set (l := map (fun i => i mod Z.of_nat m)%Z nC).
    assert (El : forall i, In i l -> (0 <= i < Z.of_nat m)%Z).
    { intros i Hin. apply in_map_iff in Hin as (j & <- & _). apply Z.mod_pos_bound. lia. }
    assert (E : np_delete_cols M nC = np_delete_cols M l).
    { unfold np_delete_cols. rewrite Hc. unfold l. rewrite mapM_map'.
      rewrite (mapM_ext_in (np_index m) (fun x => np_index m (x mod Z.of_nat m)) nC); [reflexivity|].
      intros x Hx. rewrite np_index_mod. specialize (Hi x Hx).
      destruct (Z.leb_spec (- Z.of_nat m) x), (Z.ltb_spec x (Z.of_nat m)); try lia. reflexivity. }
    assert (Hg : forall row, In row (md M) -> exists g, row = map g (seq 0 m)).
    { intros row Hin. exists (fun k => nth k row 0). rewrite <- (Hrow row Hin).
      pose proof (map_seq_nth (fun x => x) row 0) as E'. rewrite map_id in E'. symmetry. exact E'. }
    rewrite E, (np_delete_ok l m n (md M) M El) by (exact Hg || (destruct M; cbn in *; subst; reflexivity)).
    eexists. split; [reflexivity|].
    exists (keptc l m). split; [apply keptc_sorted|]. split; [apply keptc_in|]. split.
    + rewrite Hr. repeat split; cbn [mr mc md]; [rewrite map_length; exact Hl|].
      intros row Hin. apply in_map_iff in Hin as (x & <- & _). apply map_length.
    + intros j i. unfold ment at 1. cbn [md]. rewrite nth_error_map. unfold ment.
      destruct (nth_error (md M) j) as [row|] eqn:Ej; cbn [option_map].
      * rewrite nth_error_map. destruct (nth_error (keptc l m) i) as [k|] eqn:Ek; cbn [option_map]; [|reflexivity].
        apply nth_error_In, keptc_in in Ek as [Hk _]. symmetry. apply nth_error_nth'.
        rewrite (Hrow row (nth_error_In _ _ Ej)). exact Hk.
      * destruct (nth_error (keptc l m) i); reflexivity.
  - intros Hn. unfold np_delete_cols. rewrite Hc.
    assert (Hx : exists i, In i nC /\ ~ (- Z.of_nat m <= i < Z.of_nat m)%Z).
    { clear -Hn. induction nC as [|z l IH]; [exfalso; apply Hn; intros i []|].
      destruct (Z_le_dec (- Z.of_nat m) z) as [H1|H1]; [|exists z; split; [left; reflexivity|lia]].
      destruct (Z_lt_dec z (Z.of_nat m)) as [H2|H2]; [|exists z; split; [left; reflexivity|lia]].
      destruct IH as (i & Hi & H).
      - intros H. apply Hn. intros i [<-|Hi]; [lia|apply H, Hi].
      - exists i. split; [right; exact Hi|exact H]. }
    destruct Hx as (i & Hi & H). rewrite (mapM_none _ _ i Hi); [reflexivity|].
    unfold np_index. destruct (Z.leb_spec (- Z.of_nat m) i), (Z.ltb_spec i (Z.of_nat m)); try lia; reflexivity.
Qed.

Lemma py_any hint (B : basis (T:=R)) xs d M n : py_H_with ROps hint B xs d true = Some M -> shaped M n (b_m B) -> (1 <= b_m B)%nat ->
  (inside (b_m B) (b_nC B) -> exists Mc, py_H_with ROps hint B xs d false = Some Mc /\
     columns_removed (b_m B) (map (fun i => i mod Z.of_nat (b_m B))%Z (b_nC B)) M Mc) /\
  (~ inside (b_m B) (b_nC B) -> py_H_with ROps hint B xs d false = None).
Proof.
  unfold py_H_with. destruct (hint _ d) as [F|]; cbn [bind negb andb]; [|discriminate]. intros E Hs Hm. injection E as E. rewrite E.
  destruct (delete_any M (b_nC B) n (b_m B) Hs Hm) as [H1 H2].
  destruct (Nat.ltb_spec 0 (length (b_nC B))) as [Hn|Hn]; [split; assumption|].
  destruct (b_nC B) as [|z l]; [|cbn in Hn; lia]. split.
  - intros Hi. destruct (H1 Hi) as (Mc & Ec & Hc).
    destruct Hs as (Hr & Hc' & Hl & Hrow).
    exists M. split; [reflexivity|].
    exists (seq 0 (b_m B)). rewrite <- keptc_nil. split; [apply keptc_sorted|]. split; [intros k; apply keptc_in|].
    rewrite keptc_nil, seq_length. split; [rewrite Hr; repeat split; assumption|].
    intros j i. destruct (nth_error (seq 0 (b_m B)) i) as [k|] eqn:Ek.
    + assert (Hi' : (i < b_m B)%nat) by (rewrite <- (seq_length (b_m B) 0); apply nth_error_Some; congruence).
      apply (nth_error_nth _ _ 0%nat) in Ek. rewrite seq_nth in Ek by exact Hi'. subst k. reflexivity.
    + apply nth_error_None in Ek. rewrite seq_length in Ek. unfold ment. destruct (nth_error (md M) j) as [row|] eqn:Ej; [|reflexivity].
      apply nth_error_None. rewrite (Hrow row (nth_error_In _ _ Ej)). exact Ek.
  - intros Hi. exfalso. apply Hi. intros i [].
Qed.

(** ** C13: [H(x, d, False)] of a Python class raises exactly if an entry is below [-m] or not below
    [m]; otherwise negative entries count from the end and repeated ones count once. *)
Theorem C13_python_any_list : forall f x0 xf nC m xs d, (1 <= m)%nat ->
  exists M, H1 Py f x0 xf nC m xs d true = Some M /\
    ((forall i, In i nC -> (- Z.of_nat m <= i < Z.of_nat m)%Z) ->
     exists Mc, H1 Py f x0 xf nC m xs d false = Some Mc /\ columns_removed m (map (fun i => i mod Z.of_nat m)%Z nC) M Mc) /\
    (~ (forall i, In i nC -> (- Z.of_nat m <= i < Z.of_nat m)%Z) -> H1 Py f x0 xf nC m xs d false = None).
Proof.
  intros f x0 xf nC m xs d Hm. eexists. split; [apply H1_full, Hm|].
  pose proof (H1_full Py f x0 xf nC m xs d Hm) as E. cbn [H1] in *. unfold py_H in *.
  apply py_any with (n := length xs) in E.
  - rewrite fam_init_m, fam_init_nC in E. rewrite fam_init_m. exact E.
  - apply full_mat_shaped.
  - rewrite fam_init_m. exact Hm.
Qed.
Print Assumptions C13_python_any_list.

Theorem C13_elm_python_any_list : forall jvp f w b x0 xf nC xs d,
  jvp_ok jvp -> supported Py f d -> length b = length w -> w <> [] -> let m := length w in
  exists M, HE jvp Py f w b x0 xf nC xs d true = Some M /\
    ((forall i, In i nC -> (- Z.of_nat m <= i < Z.of_nat m)%Z) ->
     exists Mc, HE jvp Py f w b x0 xf nC xs d false = Some Mc /\ columns_removed m (map (fun i => i mod Z.of_nat m)%Z nC) M Mc) /\
    (~ (forall i, In i nC -> (- Z.of_nat m <= i < Z.of_nat m)%Z) -> HE jvp Py f w b x0 xf nC xs d false = None).
Proof.
  intros jvp f w b x0 xf nC xs d Hj Hs Hb Hw m. eexists. split; [apply HE_any_full; assumption|].
  pose proof (HE_any_full jvp Py f w b x0 xf nC xs d Hj Hs Hb) as E. cbn [HE] in *. unfold py_elm_H in *.
  apply py_any with (n := length xs) in E.
  - exact E.
  - apply full_mat_shaped.
  - cbn. destruct w; [congruence|cbn; lia].
Qed.
Print Assumptions C13_elm_python_any_list.

(** the last of three functions, named from the end and twice *)
Example C13_negative : H1Q Py CP 0 1 [-1; 2]%Z 3 [1]%Q 0 false = Some (Mat 1 2 [[1; 1]])%Q.
Proof. vm_compute. reflexivity. Qed.
