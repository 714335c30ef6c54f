(** Property C71: ColormapGradient is a 256-step linear gradient. *)
From Coq Require Import Reals ZArith List Bool Arith Lia Lra.
From Verif Require Import Base ModelGradient SpecGradient ProofCrop.
Import ListNotations.

Lemma floor_spec x : rounded_down (Int_part x) x.
Proof. unfold rounded_down. destruct (base_Int_part x). lra. Qed.
Lemma floor_unique v x : rounded_down v x -> Int_part x = v.
Proof.
  intros [H1 H2]. destruct (floor_spec x) as [H3 H4].
  assert (IZR (Int_part x) < IZR (v + 1))%R by (rewrite plus_IZR; lra). assert (IZR v < IZR (Int_part x + 1))%R by (rewrite plus_IZR; lra).
  apply lt_IZR in H, H0. lia.
Qed.
Lemma linspace_mix a b i : i < 256 -> linspace_chan (a * 255) (b * 255) i = (255 * mix a b (INR i / 255))%R.
Proof.
  intros Hi. unfold linspace_chan, mix. destruct (Nat.eqb_spec i 255) as [->|_]; [|field].
  replace (INR 255) with 255%R by (rewrite INR_IZR_INZ; reflexivity). field.
Qed.
Lemma mix_unit a b i : unit a -> unit b -> i < 256 -> (0 <= 255 * mix a b (INR i / 255) <= 255)%R.
Proof.
  unfold unit, mix. intros [Ha Ha'] [Hb Hb'] Hi.
  assert (0 <= INR i <= 255)%R as [L U].
  { split; [apply pos_INR|]. replace 255%R with (INR 255) by (rewrite INR_IZR_INZ; reflexivity). apply le_INR. lia. }
  set (t := (INR i / 255)%R). assert (0 <= t <= 1)%R as [T0 T1] by (unfold t; split; lra).
  assert (0 <= (1 - t) * a)%R by (apply Rmult_le_pos; lra). assert (0 <= t * b)%R by (apply Rmult_le_pos; lra).
  assert ((1 - t) * a <= (1 - t) * 1)%R by (apply Rmult_le_compat_l; lra). assert (t * b <= t * 1)%R by (apply Rmult_le_compat_l; lra). lra.
Qed.
Lemma floor_range x : (0 <= x <= 255)%R -> (0 <= Int_part x < 256)%Z.
Proof.
  intros H. destruct (floor_spec x) as [H1 H2]. assert (IZR (-1) < IZR (Int_part x))%R by lra.
  assert (IZR (Int_part x) < IZR 256)%R by lra. apply lt_IZR in H0, H3. lia.
Qed.
Lemma floor_mono x y : (x <= y)%R -> (Int_part x <= Int_part y)%Z.
Proof.
  intros H. destruct (floor_spec x) as [H1 H2]. destruct (floor_spec y) as [H3 H4].
  assert (IZR (Int_part x) < IZR (Int_part y + 1))%R by (rewrite plus_IZR; lra). apply lt_IZR in H0. lia.
Qed.
Lemma gradient_entry c1 c2 i z a b : length c1 = length c2 -> i < 256 -> nth_error c1 z = Some a -> nth_error c2 z = Some b ->
  exists t, ColormapGradient c1 c2 = Some t /\ (unit a -> unit b -> at2 t i z = Some (Int_part (255 * mix a b (INR i / 255)))).
Proof.
  intros L Hi Ha Hb. unfold ColormapGradient. rewrite L, Nat.eqb_refl. cbv zeta. eexists. split; [reflexivity|]. intros Ua Ub.
  unfold at2. rewrite nth_error_map.
  assert (nth_error (seq 0 256) i = Some i) as ->.
  { rewrite (nth_error_nth' _ 0) by (rewrite seq_length; exact Hi). rewrite seq_nth by exact Hi. reflexivity. }
  cbn [option_map]. rewrite nth_error_map.
  assert (nth_error (combine (map (fun x => (x * 255)%R) c1) (map (fun x => (x * 255)%R) c2)) z = Some ((a * 255)%R, (b * 255)%R)) as ->.
  { apply nth_combine. rewrite !nth_error_map, Ha, Hb. auto. }
  cbn [option_map fst snd]. rewrite linspace_mix by exact Hi. unfold to_uint8. rewrite Z.mod_small; [reflexivity|]. apply floor_range, mix_unit; assumption.
Qed.

(** C71: for colours with the same number of channels, all between 0 and 1, there are 256 rows, each
    with a byte per channel; the entry in row [i] is the interpolation at [i/255], rounded down *)
Theorem C71_gradient c1 c2 : length c1 = length c2 -> Forall unit c1 -> Forall unit c2 ->
  exists t, ColormapGradient c1 c2 = Some t /\ length t = 256 /\ (forall row, In row t -> length row = length c1) /\
  forall i z a b, i < 256 -> nth_error c1 z = Some a -> nth_error c2 z = Some b ->
    exists v, at2 t i z = Some v /\ (0 <= v <= 255)%Z /\ rounded_down v (255 * mix a b (INR i / 255)).
Proof.
  intros L U1 U2. unfold ColormapGradient. rewrite L, Nat.eqb_refl. eexists. split; [reflexivity|]. split; [|split].
  - rewrite map_length. apply seq_length.
  - intros row Hr. apply in_map_iff in Hr as [i [<- _]]. rewrite map_length, combine_length, !map_length. lia.
  - intros i z a b Hi Ha Hb. destruct (gradient_entry c1 c2 i z a b L Hi Ha Hb) as [t [Et H]].
    unfold ColormapGradient in Et. rewrite L, Nat.eqb_refl in Et. injection Et as <-.
    rewrite Forall_forall in U1, U2. assert (unit a) as Ua by (apply U1, (nth_error_In _ _ Ha)). assert (unit b) as Ub by (apply U2, (nth_error_In _ _ Hb)).
    eexists. split; [apply H; assumption|]. pose proof (floor_range _ (mix_unit a b i Ua Ub Hi)). split; [lia|]. apply floor_spec.
Qed.
Print Assumptions C71_gradient.

(** the first row is the first colour and the last row the second, in bytes *)
Theorem C71_ends c1 c2 t z a b : ColormapGradient c1 c2 = Some t -> Forall unit c1 -> Forall unit c2 ->
  nth_error c1 z = Some a -> nth_error c2 z = Some b ->
  exists v w, at2 t 0 z = Some v /\ at2 t 255 z = Some w /\ rounded_down v (255 * a) /\ rounded_down w (255 * b) /\
    (forall k, a = (IZR k / 255)%R -> v = k) /\ (forall k, b = (IZR k / 255)%R -> w = k).
Proof.
  intros Et U1 U2 Ha Hb. assert (length c1 = length c2) as L.
  { unfold ColormapGradient in Et. destruct (Nat.eqb_spec (length c1) (length c2)); [assumption|discriminate]. }
  rewrite Forall_forall in U1, U2. assert (unit a) as Ua by (apply U1, (nth_error_In _ _ Ha)). assert (unit b) as Ub by (apply U2, (nth_error_In _ _ Hb)).
  destruct (gradient_entry c1 c2 0 z a b L ltac:(lia) Ha Hb) as [t0 [Et0 H0]]. destruct (gradient_entry c1 c2 255 z a b L ltac:(lia) Ha Hb) as [t1 [Et1 H1]].
  assert (t0 = t) by congruence. assert (t1 = t) by congruence. subst t0 t1. specialize (H0 Ua Ub). specialize (H1 Ua Ub).
  assert (255 * mix a b (INR 0 / 255) = 255 * a)%R as E0 by (unfold mix; cbn [INR]; field).
  assert (255 * mix a b (INR 255 / 255) = 255 * b)%R as E1.
  { unfold mix. replace (INR 255) with 255%R by (rewrite INR_IZR_INZ; reflexivity). field. }
  rewrite E0 in H0. rewrite E1 in H1. eexists. eexists. split; [exact H0|]. split; [exact H1|]. split; [apply floor_spec|]. split; [apply floor_spec|].
  split; intros k ->; apply floor_unique; unfold rounded_down; split; lra.
Qed.
Print Assumptions C71_ends.

(** every channel moves in one direction *)
Theorem C71_monotone c1 c2 t z a b i j v w : ColormapGradient c1 c2 = Some t -> Forall unit c1 -> Forall unit c2 ->
  nth_error c1 z = Some a -> nth_error c2 z = Some b -> i <= j < 256 -> at2 t i z = Some v -> at2 t j z = Some w ->
  ((a <= b)%R -> (v <= w)%Z) /\ ((b <= a)%R -> (w <= v)%Z).
Proof.
  intros Et U1 U2 Ha Hb Hij Hv Hw. assert (length c1 = length c2) as L.
  { unfold ColormapGradient in Et. destruct (Nat.eqb_spec (length c1) (length c2)); [assumption|discriminate]. }
  rewrite Forall_forall in U1, U2. assert (unit a) as Ua by (apply U1, (nth_error_In _ _ Ha)). assert (unit b) as Ub by (apply U2, (nth_error_In _ _ Hb)).
  destruct (gradient_entry c1 c2 i z a b L ltac:(lia) Ha Hb) as [t0 [Et0 H0]]. destruct (gradient_entry c1 c2 j z a b L ltac:(lia) Ha Hb) as [t1 [Et1 H1]].
  assert (t0 = t) by congruence. assert (t1 = t) by congruence. subst t0 t1. rewrite (H0 Ua Ub) in Hv. rewrite (H1 Ua Ub) in Hw. injection Hv as <-. injection Hw as <-.
  assert (INR i <= INR j)%R as Hle by (apply le_INR; lia). unfold mix.
  split; intros Hab; apply floor_mono.
  - assert (0 <= (INR j - INR i) * (b - a))%R by (apply Rmult_le_pos; lra). lra.
  - assert (0 <= (INR j - INR i) * (a - b))%R by (apply Rmult_le_pos; lra). lra.
Qed.
Print Assumptions C71_monotone.

(** colours with different numbers of channels are an error *)
Theorem C71_shapes c1 c2 : length c1 <> length c2 -> ColormapGradient c1 c2 = None.
Proof. intros H. unfold ColormapGradient. apply Nat.eqb_neq in H. rewrite H. reflexivity. Qed.
Print Assumptions C71_shapes.

(** from black to half-transparent red: row 51 *)
Example C71_case : exists t, ColormapGradient [0; 0; 0; 1]%R [1; 0; 0; 1/2]%R = Some t /\
  nth_error t 51 = Some [51; 0; 0; 229]%Z.
Proof.
  eexists. split; [unfold ColormapGradient; cbn [length Nat.eqb]; reflexivity|].
  rewrite nth_error_map. cbn [nth_error seq option_map length Nat.eqb map combine fst snd].
  rewrite !linspace_mix by lia. unfold mix. replace (INR 51) with 51%R by (rewrite INR_IZR_INZ; reflexivity).
  rewrite (floor_unique 51), (floor_unique 0), (floor_unique 229); [reflexivity|..]; unfold rounded_down; lra.
Qed.
