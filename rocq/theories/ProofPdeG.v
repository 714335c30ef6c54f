(** Expressions in affine functions of finitely many numbers (C116). *)
From Coq Require Import List Arith Lia Reals Lra.
From Coquelicot Require Import Coquelicot.
From Verif Require Import Base Numbers SpecBasis ModelOdeSysG SpecOdeSysG ProofNRecover ProofOdeSys ProofOdeSysG.
Import ListNotations.
Open Scope R_scope.

Inductive ptree := TLin (l : list R) (b : R) | TAdd (a b : ptree) | TMul (a b : ptree) | TApp (f : R -> R) (a : ptree).
Fixpoint tval (a : ptree) (x : nat -> R) : R :=
  match a with
  | TLin l b => row_comb x l + b
  | TAdd a b => tval a x + tval b x
  | TMul a b => tval a x * tval b x
  | TApp f a => f (tval a x)
  end.
(** derivative at [x] in the direction [h] *)
Fixpoint tdir (a : ptree) (x h : nat -> R) : R :=
  match a with
  | TLin l b => row_comb h l
  | TAdd a b => tdir a x h + tdir b x h
  | TMul a b => tdir a x h * tval b x + tval a x * tdir b x h
  | TApp f a => Derive f (tval a x) * tdir a x h
  end.
Lemma tval_ext a x y : (forall i, x i = y i) -> tval a x = tval a y.
Proof.
  intros H. induction a as [l b|a IHa b IHb|a IHa b IHb|f a IHa]; cbn [tval]; try congruence.
  rewrite (row_comb_ext' _ _ l H). reflexivity.
Qed.
Lemma tdir_ext a x y h g : (forall i, x i = y i) -> (forall i, h i = g i) -> tdir a x h = tdir a y g.
Proof.
  intros H H'. induction a as [l b|a IHa b IHb|a IHa b IHb|f a IHa]; cbn [tdir].
  - apply row_comb_ext', H'.
  - congruence.
  - rewrite IHa, IHb, (tval_ext a x y H), (tval_ext b x y H). reflexivity.
  - rewrite IHa, (tval_ext a x y H). reflexivity.
Qed.
Lemma tdir_add a x h g : tdir a x (fun i => h i + g i) = tdir a x h + tdir a x g.
Proof.
  induction a as [l b|a IHa b IHb|a IHa b IHb|f a IHa]; cbn [tdir].
  - apply row_comb_add.
  - rewrite IHa, IHb. ring.
  - rewrite IHa, IHb. ring.
  - rewrite IHa. ring.
Qed.
Lemma tdir_mul a x t h : tdir a x (fun i => t * h i) = t * tdir a x h.
Proof.
  induction a as [l b|a IHa b IHb|a IHa b IHb|f a IHa]; cbn [tdir].
  - apply row_comb_mul.
  - rewrite IHa, IHb. ring.
  - rewrite IHa, IHb. ring.
  - rewrite IHa. ring.
Qed.
Lemma tdir_zero a x : tdir a x (fun _ => 0) = 0.
Proof. rewrite (tdir_ext a x x _ (fun i => 0 * 0)), tdir_mul by (intros; ring). ring. Qed.
(** the functions applied are differentiable *)
Fixpoint tdiff (a : ptree) : Prop :=
  match a with TLin _ _ => True | TAdd a b | TMul a b => tdiff a /\ tdiff b | TApp f a => tdiff a /\ forall x, ex_derive f x end.
Lemma tdir_derive a x h : tdiff a -> is_derive (fun t => tval a (fun i => x i + t * h i)) 0 (tdir a x h).
Proof.
  assert (E0 : forall a, tval a (fun i => x i + 0 * h i) = tval a x) by (intros; apply tval_ext; intros; ring).
  induction a as [l b|a IHa b IHb|a IHa b IHb|f a IHa]; cbn [tval tdir tdiff]; intros Ha.
  - apply (is_derive_ext (fun t => row_comb x l + t * row_comb h l + b)).
    + intros t. rewrite row_comb_add, row_comb_mul. reflexivity.
    + auto_derive; [exact I|ring].
  - destruct Ha as [Ha Hb]. apply (is_derive_plus (V := R_NormedModule) _ _ 0 _ _ (IHa Ha) (IHb Hb)).
  - destruct Ha as [Ha Hb]. specialize (IHa Ha). specialize (IHb Hb).
    replace (tdir a x h * tval b x + tval a x * tdir b x h)
      with (plus (mult (tdir a x h) (tval b (fun i => x i + 0 * h i))) (mult (tval a (fun i => x i + 0 * h i)) (tdir b x h)))
      by (rewrite !E0; cbn; unfold plus, mult; cbn; ring).
    apply (is_derive_mult _ _ 0 _ _ IHa IHb). intros n m. apply Rmult_comm.
  - destruct Ha as [Ha Hf]. rewrite Rmult_comm.
    apply (is_derive_comp f (fun t => tval a (fun i => x i + t * h i)) 0 (Derive f (tval a x)) _); [|exact (IHa Ha)].
    rewrite E0. apply Derive_correct, Hf.
Qed.
(** every affine function stays the same in the direction [h] *)
Fixpoint tidle (a : ptree) (h : nat -> R) : Prop :=
  match a with TLin l _ => row_comb h l = 0 | TAdd a b | TMul a b => tidle a h /\ tidle b h | TApp _ a => tidle a h end.
Lemma tidle_val a x h : tidle a h -> tval a (fun i => x i + h i) = tval a x.
Proof.
  induction a as [l b|a IHa b IHb|a IHa b IHb|f a IHa]; cbn [tidle tval].
  - intros H. rewrite row_comb_add, H. ring.
  - intros [H1 H2]. rewrite IHa, IHb by assumption. reflexivity.
  - intros [H1 H2]. rewrite IHa, IHb by assumption. reflexivity.
  - intros H. rewrite IHa by assumption. reflexivity.
Qed.
Lemma tidle_dir a x h : tidle a h -> tdir a x h = 0.
Proof.
  induction a as [l b|a IHa b IHb|a IHa b IHb|f a IHa]; cbn [tidle tdir].
  - trivial.
  - intros [H1 H2]. rewrite IHa, IHb by assumption. ring.
  - intros [H1 H2]. rewrite IHa, IHb by assumption. ring.
  - intros H. rewrite IHa by assumption. ring.
Qed.
Lemma tidle_at a x h g : tidle a h -> tdir a (fun i => x i + h i) g = tdir a x g.
Proof.
  induction a as [l b|a IHa b IHb|a IHa b IHb|f a IHa]; cbn [tidle tdir].
  - reflexivity.
  - intros [H1 H2]. rewrite IHa, IHb by assumption. reflexivity.
  - intros [H1 H2]. rewrite IHa, IHb, !tidle_val by assumption. reflexivity.
  - intros H. rewrite IHa, tidle_val by assumption. reflexivity.
Qed.

(** ** the second-order bound *)
Definition nearf (d : R) (x y : nat -> R) : Prop := forall i, Rabs (y i - x i) <= d.
Lemma row_lip l : exists B, 0 <= B /\ forall x y d, nearf d x y -> Rabs (row_comb y l - row_comb x l) <= B * d.
Proof.
  induction l as [|v l (B & HB & IH)].
  - exists 0. split; [lra|]. intros. cbn. rewrite Rminus_eq_0, Rabs_R0. lra.
  - exists (Rabs v + B). pose proof (Rabs_pos v). split; [lra|]. intros x y d Hn. cbn [row_comb].
    replace (_ - _) with ((y 0%nat - x 0%nat) * v + (row_comb (fun i => y (S i)) l - row_comb (fun i => x (S i)) l)) by ring.
    apply Rle_trans with (1 := Rabs_triang _ _). rewrite Rmult_plus_distr_r. apply Rplus_le_compat.
    + rewrite Rabs_mult, Rmult_comm. apply Rmult_le_compat_l; [apply Rabs_pos|apply Hn].
    + apply IH. intros i. apply Hn.
Qed.
Section Bound.
Context (cp : nat -> R).
Definition tbounds (phi : (nat -> R) -> R) (D : (nat -> R) -> (nat -> R) -> R) (rho B L : R) : Prop :=
  forall x y d, nearf rho cp x -> nearf rho cp y -> 0 <= d -> nearf d x y ->
    Rabs (phi y - phi x) <= B * d /\ Rabs (phi y - phi x - D x y) <= L * (d * d).
Definition tnice (phi : (nat -> R) -> R) (D : (nat -> R) -> (nat -> R) -> R) : Prop :=
  exists rho B L, 0 < rho /\ 0 <= B /\ 0 <= L /\ tbounds phi D rho B L.
Lemma nearf_le x y c z : x <= y -> nearf x c z -> nearf y c z.
Proof. intros H Hz i. apply Rle_trans with (1 := Hz i), H. Qed.
Lemma nearf_self x : 0 <= x -> nearf x cp cp.
Proof. intros H i. rewrite Rminus_eq_0, Rabs_R0. exact H. Qed.
Lemma tbounds_le phi D rho rho' B L : rho' <= rho -> tbounds phi D rho B L -> tbounds phi D rho' B L.
Proof. intros H Hb x y d Nx Ny. apply Hb; apply (nearf_le rho' rho); assumption. Qed.
Lemma tbounds_at phi D rho B L x : 0 <= rho -> tbounds phi D rho B L -> nearf rho cp x -> Rabs (phi x - phi cp) <= B * rho.
Proof. intros Hr Hb Nx. apply (Hb cp x rho (nearf_self rho Hr) Nx Hr Nx). Qed.
Lemma tbounds_max phi D rho B L x : 0 <= rho -> tbounds phi D rho B L -> nearf rho cp x -> Rabs (phi x) <= Rabs (phi cp) + B * rho.
Proof.
  intros Hr Hb Nx. pose proof (tbounds_at phi D rho B L x Hr Hb Nx). replace (phi x) with ((phi x - phi cp) + phi cp) by ring.
  pose proof (Rabs_triang (phi x - phi cp) (phi cp)). lra.
Qed.
Lemma tnice_lin l b : tnice (fun c => row_comb c l + b) (fun x y => row_comb (fun i => y i - x i) l).
Proof.
  destruct (row_lip l) as (B & HB & H). exists 1, B, 0. split; [lra|]. split; [exact HB|]. split; [lra|].
  intros x y d _ _ Hd Hn. replace (row_comb y l + b - (row_comb x l + b)) with (row_comb y l - row_comb x l) by ring.
  split; [apply H; assumption|].
  rewrite (row_comb_ext' (fun i => y i - x i) (fun i => y i + (-1) * x i) l), row_comb_add, row_comb_mul by (intros; ring).
  replace (_ - _ - _) with 0 by ring. rewrite Rabs_R0. lra.
Qed.
Lemma tnice_add phi D psi E : tnice phi D -> tnice psi E -> tnice (fun c => phi c + psi c) (fun x y => D x y + E x y).
Proof.
  intros (r1 & B1 & L1 & Hr1 & HB1 & HL1 & H1) (r2 & B2 & L2 & Hr2 & HB2 & HL2 & H2).
  exists (Rmin r1 r2), (B1 + B2), (L1 + L2). split; [apply Rmin_glb_lt; assumption|]. split; [lra|]. split; [lra|].
  intros x y d Nx Ny Hd Hn.
  destruct (tbounds_le _ _ _ _ _ _ (Rmin_l r1 r2) H1 x y d Nx Ny Hd Hn) as [A1 A2].
  destruct (tbounds_le _ _ _ _ _ _ (Rmin_r r1 r2) H2 x y d Nx Ny Hd Hn) as [A3 A4]. split.
  - replace (phi y + psi y - (phi x + psi x)) with ((phi y - phi x) + (psi y - psi x)) by ring.
    apply Rle_trans with (1 := Rabs_triang _ _). lra.
  - replace (phi y + psi y - (phi x + psi x) - (D x y + E x y)) with ((phi y - phi x - D x y) + (psi y - psi x - E x y)) by ring.
    apply Rle_trans with (1 := Rabs_triang _ _). lra.
Qed.
Lemma tnice_mul phi D psi E : tnice phi D -> tnice psi E -> tnice (fun c => phi c * psi c) (fun x y => D x y * psi x + phi x * E x y).
Proof.
  intros (r1 & B1 & L1 & Hr1 & HB1 & HL1 & H1) (r2 & B2 & L2 & Hr2 & HB2 & HL2 & H2).
  set (r := Rmin r1 r2). assert (Hr : 0 < r) by (apply Rmin_glb_lt; assumption).
  apply (tbounds_le _ _ _ r) in H1; [|apply Rmin_l]. apply (tbounds_le _ _ _ r) in H2; [|apply Rmin_r].
  set (P := Rabs (phi cp) + B1 * r). set (Q := Rabs (psi cp) + B2 * r).
  assert (HP : 0 <= P) by (pose proof (Rabs_pos (phi cp)); pose proof (Rmult_le_pos B1 r HB1 ltac:(lra)); unfold P; lra).
  assert (HQ : 0 <= Q) by (pose proof (Rabs_pos (psi cp)); pose proof (Rmult_le_pos B2 r HB2 ltac:(lra)); unfold Q; lra).
  pose proof (Rmult_le_pos P B2 HP HB2). pose proof (Rmult_le_pos Q B1 HQ HB1). pose proof (Rmult_le_pos B1 B2 HB1 HB2).
  pose proof (Rmult_le_pos P L2 HP HL2). pose proof (Rmult_le_pos Q L1 HQ HL1).
  exists r, (P * B2 + Q * B1), (P * L2 + Q * L1 + B1 * B2). split; [exact Hr|]. split; [lra|]. split; [lra|].
  intros x y d Nx Ny Hd Hn.
  destruct (H1 x y d Nx Ny Hd Hn) as [A1 A2]. destruct (H2 x y d Nx Ny Hd Hn) as [A3 A4].
  pose proof (tbounds_max _ _ _ _ _ x (Rlt_le _ _ Hr) H1 Nx) as M1. pose proof (tbounds_max _ _ _ _ _ y (Rlt_le _ _ Hr) H1 Ny) as M1'.
  pose proof (tbounds_max _ _ _ _ _ x (Rlt_le _ _ Hr) H2 Nx) as M2. fold P in M1, M1'. fold Q in M2.
  split.
  - replace (phi y * psi y - phi x * psi x) with (phi y * (psi y - psi x) + psi x * (phi y - phi x)) by ring.
    apply Rle_trans with (1 := Rabs_triang _ _). rewrite !Rabs_mult.
    pose proof (Rmult_le_compat _ _ _ _ (Rabs_pos _) (Rabs_pos _) M1' A3). pose proof (Rmult_le_compat _ _ _ _ (Rabs_pos _) (Rabs_pos _) M2 A1). lra.
  - replace (phi y * psi y - phi x * psi x - (D x y * psi x + phi x * E x y))
      with (phi x * (psi y - psi x - E x y) + psi x * (phi y - phi x - D x y) + (phi y - phi x) * (psi y - psi x)) by ring.
    apply Rle_trans with (1 := Rabs_triang _ _). apply Rle_trans with (Rabs (phi x * (psi y - psi x - E x y)) + Rabs (psi x * (phi y - phi x - D x y)) + Rabs ((phi y - phi x) * (psi y - psi x))).
    { apply Rplus_le_compat_r, Rabs_triang. }
    rewrite !Rabs_mult.
    pose proof (Rmult_le_compat _ _ _ _ (Rabs_pos _) (Rabs_pos _) M1 A4). pose proof (Rmult_le_compat _ _ _ _ (Rabs_pos _) (Rabs_pos _) M2 A2).
    pose proof (Rmult_le_compat _ _ _ _ (Rabs_pos _) (Rabs_pos _) A1 A3). lra.
Qed.
Lemma tnice_app f phi D : (forall x, ex_derive f x) -> twice_near f (phi cp) -> tnice phi D -> tnice (fun c => f (phi c)) (fun x y => Derive f (phi x) * D x y).
Proof.
  intros Hf Hf2 (r & B & L & Hr & HB & HL & H). destruct (c2_bounds f (phi cp) Hf Hf2) as (eps & M & G & He & HM & HG & Hb).
  set (r' := Rmin r (eps / (B + 1))). assert (Hr' : 0 < r') by (apply Rmin_glb_lt; [exact Hr|apply Rdiv_lt_0_compat; lra]).
  apply (tbounds_le _ _ _ r') in H; [|apply Rmin_l].
  assert (HBr : B * r' <= eps).
  { assert (Hle : r' <= eps / (B + 1)) by apply Rmin_r.
    apply Rle_trans with ((B + 1) * (eps / (B + 1))); [|right; field; lra].
    apply Rmult_le_compat; lra. }
  pose proof (Rmult_le_pos G B HG HB). pose proof (Rmult_le_pos G L HG HL). pose proof (Rmult_le_pos M (B * B) HM (Rle_0_sqr B)).
  exists r', (G * B), (M * (B * B) + G * L). split; [exact Hr'|]. split; [assumption|]. split; [lra|].
  intros x y d Nx Ny Hd Hn. destruct (H x y d Nx Ny Hd Hn) as [A1 A2].
  pose proof (tbounds_at _ _ _ _ _ x (Rlt_le _ _ Hr') H Nx) as Ex. pose proof (tbounds_at _ _ _ _ _ y (Rlt_le _ _ Hr') H Ny) as Ey.
  destruct (Hb (phi x) (phi y) ltac:(lra) ltac:(lra)) as (C1 & C2 & C3). split.
  - apply Rle_trans with (1 := C2). rewrite Rmult_assoc. apply Rmult_le_compat_l; assumption.
  - replace (f (phi y) - f (phi x) - Derive f (phi x) * D x y)
      with ((f (phi y) - f (phi x) - Derive f (phi x) * (phi y - phi x)) + Derive f (phi x) * (phi y - phi x - D x y)) by ring.
    apply Rle_trans with (1 := Rabs_triang _ _). rewrite Rabs_mult.
    pose proof (Rmult_le_compat _ _ _ _ (Rabs_pos _) (Rabs_pos _) C1 A2).
    pose proof (Rmult_le_compat_l M _ _ HM (Rmult_le_compat _ _ _ _ (Rabs_pos _) (Rabs_pos _) A1 A1)). lra.
Qed.
Fixpoint treg (a : ptree) : Prop :=
  match a with TLin _ _ => True | TAdd a b | TMul a b => treg a /\ treg b
  | TApp f a => treg a /\ (forall x, ex_derive f x) /\ twice_near f (tval a cp) end.
Lemma treg_diff a : treg a -> tdiff a.
Proof. induction a; cbn; tauto. Qed.
Lemma tval_nice a : treg a -> tnice (tval a) (fun x y => tdir a x (fun i => y i - x i)).
Proof.
  induction a as [M b|a IHa b IHb|a IHa b IHb|f a IHa]; cbn [treg].
  - intros _. apply tnice_lin.
  - intros [H1 H2]. apply tnice_add; auto.
  - intros [H1 H2]. apply tnice_mul; auto.
  - intros (H1 & H2 & H3). apply tnice_app; auto.
Qed.
(** one radius and one bound for finitely many expressions *)
Lemma all_tnice (a : nat -> ptree) m : (forall i, (i < m)%nat -> treg (a i)) -> exists rho L, 0 < rho /\ 0 <= L /\
  forall i x y d, (i < m)%nat -> nearf rho cp x -> nearf rho cp y -> 0 <= d -> nearf d x y ->
    Rabs (tval (a i) y - tval (a i) x - tdir (a i) x (fun i => y i - x i)) <= L * (d * d).
Proof.
  induction m as [|m IH]; intros H.
  - exists 1, 0. split; [lra|]. split; [lra|]. intros; lia.
  - destruct IH as (r1 & L1 & Hr1 & HL1 & H1); [intros; apply H; lia|].
    destruct (tval_nice (a m) (H m (Nat.lt_succ_diag_r m))) as (r2 & B & L2 & Hr2 & HB & HL2 & H2).
    exists (Rmin r1 r2), (L1 + L2). split; [apply Rmin_glb_lt; assumption|]. split; [lra|].
    intros i x y d Hi Nx Ny Hd Hn. pose proof (Rle_0_sqr d) as Hs. unfold Rsqr in Hs.
    pose proof (Rmult_le_pos _ _ HL1 Hs). pose proof (Rmult_le_pos _ _ HL2 Hs).
    destruct (Nat.eq_dec i m) as [->|Hne].
    + destruct (H2 x y d (nearf_le _ _ _ _ (Rmin_r r1 r2) Nx) (nearf_le _ _ _ _ (Rmin_r r1 r2) Ny) Hd Hn) as [_ A]. lra.
    + pose proof (H1 i x y d ltac:(lia) (nearf_le _ _ _ _ (Rmin_l r1 r2) Nx) (nearf_le _ _ _ _ (Rmin_l r1 r2) Ny) Hd Hn). lra.
Qed.
End Bound.
