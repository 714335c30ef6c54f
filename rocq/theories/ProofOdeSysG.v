(** Proofs about scripts for systems of nonlinear differential equations with unknown numbers (C112). *)
From Coq Require Import List Arith Lia Reals Lra.
From Coquelicot Require Import Coquelicot.
From Verif Require Import Base Numbers ModelBFPy SpecBasis ModelUtfc ModelOde SpecOde ProofOde ModelOdeAny SpecOdeAny ProofOdeAny
  ModelDict SpecDict ProofDict ModelSolveDict SpecSolveDict ProofSolveDict ModelOdeSys SpecOdeSys ProofOdeSys SpecOdeSysNl ProofOdeSysNl ModelOdeSysG SpecOdeSysG.
Import ListNotations.
Open Scope R_scope.
Local Notation length := List.length.

(** ** a function with bounded second derivative *)
Lemma c2_bounds (f : R -> R) (v : R) : (forall x, ex_derive f x) -> twice_near f v -> exists eps M G, 0 < eps /\ 0 <= M /\ 0 <= G /\
  forall a b, Rabs (a - v) <= eps -> Rabs (b - v) <= eps ->
    Rabs (Derive f a) <= G /\ Rabs (f b - f a) <= G * Rabs (b - a) /\ Rabs (f b - f a - Derive f a * (b - a)) <= M * (Rabs (b - a) * Rabs (b - a)).
Proof.
  intros Hf (eps & M & He & H). exists eps, M, (Rabs (Derive f v) + M * eps).
  assert (HM : 0 <= M).
  { destruct (H v) as [_ B]; [rewrite Rminus_eq_0, Rabs_R0; lra|]. pose proof (Rabs_pos (Derive (Derive f) v)). lra. }
  assert (B0 : forall a b c, Rabs (a - v) <= eps -> Rabs (b - v) <= eps -> Rmin a b <= c <= Rmax a b -> Rabs (c - v) <= eps).
  { intros a b c Ha Hb Hc. apply Rabs_le. apply Rabs_le_between in Ha. apply Rabs_le_between in Hb.
    unfold Rmin, Rmax in Hc. destruct (Rle_dec a b); lra. }
  assert (HD : forall a b, Rabs (a - v) <= eps -> Rabs (b - v) <= eps -> Rabs (Derive f b - Derive f a) <= M * Rabs (b - a)).
  { intros a b Ha Hb. destruct (MVT_gen (Derive f) a b (Derive (Derive f))) as (c & Hc & E).
    - intros x Hx. apply Derive_correct, H. apply (B0 a b); try assumption. lra.
    - intros x Hx. apply continuity_pt_filterlim. apply (ex_derive_continuous (V := R_NormedModule) (Derive f) x). apply H. apply (B0 a b); assumption.
    - rewrite E, Rabs_mult. apply Rmult_le_compat_r; [apply Rabs_pos|]. apply H. apply (B0 a b); assumption. }
  assert (HG : forall a, Rabs (a - v) <= eps -> Rabs (Derive f a) <= Rabs (Derive f v) + M * eps).
  { intros a Ha. assert (Hv : Rabs (v - v) <= eps) by (rewrite Rminus_eq_0, Rabs_R0; lra).
    pose proof (HD v a Hv Ha) as D1. pose proof (Rmult_le_compat_l M _ _ HM Ha) as D2.
    replace (Derive f a) with ((Derive f a - Derive f v) + Derive f v) by ring.
    pose proof (Rabs_triang (Derive f a - Derive f v) (Derive f v)). lra. }
  assert (HF : forall a b, exists c, Rmin a b <= c <= Rmax a b /\ f b - f a = Derive f c * (b - a)).
  { intros a b. apply (MVT_gen f a b (Derive f)).
    - intros x _. apply Derive_correct, Hf.
    - intros x _. apply continuity_pt_filterlim. apply (ex_derive_continuous (V := R_NormedModule) f x). apply Hf. }
  split; [exact He|]. split; [exact HM|]. split.
  { pose proof (Rabs_pos (Derive f v)). pose proof (Rmult_le_pos M eps HM ltac:(lra)). lra. }
  intros a b Ha Hb. split; [apply HG, Ha|]. destruct (HF a b) as (c & Hc & E). pose proof (B0 a b c Ha Hb Hc) as Hcv. split.
  - rewrite E, Rabs_mult. apply Rmult_le_compat_r; [apply Rabs_pos|]. apply HG, Hcv.
  - rewrite E. replace (Derive f c * (b - a) - Derive f a * (b - a)) with ((Derive f c - Derive f a) * (b - a)) by ring.
    rewrite Rabs_mult, <- Rmult_assoc. apply Rmult_le_compat_r; [apply Rabs_pos|].
    apply Rle_trans with (1 := HD a c Ha Hcv). apply Rmult_le_compat_l; [exact HM|].
    unfold Rmin, Rmax in Hc. unfold Rabs. destruct (Rle_dec a b); destruct (Rcase_abs (c - a)), (Rcase_abs (b - a)); lra.
Qed.

Lemma system_same ts (y z : nat -> R -> R) t : (forall p, In p ts -> forall x, y (fst p) x = z (fst p) x) -> system_at ts y t = system_at ts z t.
Proof.
  induction ts as [|p ts IH]; intros H; cbn [system_at]; [reflexivity|]. rewrite IH by (intros; apply H; right; assumption).
  f_equal. apply (odeF_ext _ _ t (snd p)), H. left. reflexivity.
Qed.

Section Sys.
Context (jvp : (R -> R) -> R -> R -> R) {K : Type} (keq : K -> K -> bool) (Hk : keq_ok keq).
Notation view := (list (K * @arr R)).
Notation sfun := (sfun (K:=K)).
Notation nexp := (nexp (K:=K)).
Notation geqn := (geqn (K:=K)).

(** ** a view with given entries *)
Fixpoint spread (c : view) (l : list R) : view :=
  match c with
  | [] => []
  | p :: c => (fst p, Arr_ (a_shape (snd p)) (firstn (length (a_data (snd p))) l)) :: spread c (skipn (length (a_data (snd p))) l)
  end.
Lemma spread_ok c : List.Forall (fun p => wf (snd p)) c -> forall l, length l = length (packed c) -> same_form c (spread c l) /\ packed (spread c l) = l.
Proof.
  induction 1 as [|[k a] c W Wc IH]; intros l Hl.
  - destruct l; [|discriminate]. split; [|reflexivity]. repeat split. constructor.
  - unfold packed in Hl. cbn in Hl. rewrite app_length in Hl. fold (packed c) in Hl.
    destruct (IH (skipn (length (a_data a)) l)) as [(F1 & F2 & F3) P]; [rewrite skipn_length; lia|].
    split.
    + repeat split; cbn [spread map fst snd a_shape]; [rewrite F1; reflexivity|rewrite F2; reflexivity|]. constructor; [|exact F3].
      cbn [snd] in *. unfold wf in *. cbn [a_data a_shape]. rewrite firstn_length, W, Nat.min_l by lia. reflexivity.
    + unfold packed. cbn [spread map concat snd a_data]. fold (packed (spread c (skipn (length (a_data a)) l))). cbn [snd]. rewrite P. apply firstn_skipn.
Qed.

(** ** expressions in affine functions of the entries *)
Inductive atree := ALin (M : K -> nat -> R) (b : R) | AAdd (a b : atree) | AMul (a b : atree) | AApp (f : R -> R) (a : atree).
Fixpoint aval (a : atree) (c : view) : R :=
  match a with
  | ALin M b => dotv M c + b
  | AAdd a b => aval a c + aval b c
  | AMul a b => aval a c * aval b c
  | AApp f a => f (aval a c)
  end.
Fixpoint agrad (a : atree) (c : view) (k : K) (j : nat) : R :=
  match a with
  | ALin M b => M k j
  | AAdd a b => agrad a c k j + agrad b c k j
  | AMul a b => aval b c * agrad a c k j + aval a c * agrad b c k j
  | AApp f a => Derive f (aval a c) * agrad a c k j
  end.
(** derivative at [c] in the direction from [c1] to [c2] *)
Fixpoint adir (a : atree) (c c1 c2 : view) : R :=
  match a with
  | ALin M b => dotv M c2 - dotv M c1
  | AAdd a b => adir a c c1 c2 + adir b c c1 c2
  | AMul a b => adir a c c1 c2 * aval b c + aval a c * adir b c c1 c2
  | AApp f a => Derive f (aval a c) * adir a c c1 c2
  end.
Lemma agrad_dir a c c1 c2 : dotv (agrad a c) c2 - dotv (agrad a c) c1 = adir a c c1 c2.
Proof.
  induction a as [M b|a IHa b IHb|a IHa b IHb|f a IHa]; cbn [agrad adir].
  - reflexivity.
  - rewrite !(dotv_add (agrad a c) (agrad b c)), <- IHa, <- IHb. ring.
  - rewrite !(dotv_add (fun k j => aval b c * agrad a c k j) (fun k j => aval a c * agrad b c k j)), !dotv_mul, <- IHa, <- IHb. ring.
  - rewrite !dotv_mul, <- IHa. ring.
Qed.
(** the functions applied are differentiable *)
Fixpoint adiff (a : atree) : Prop :=
  match a with ALin _ _ => True | AAdd a b | AMul a b => adiff a /\ adiff b | AApp f a => adiff a /\ forall x, ex_derive f x end.
Lemma agrad_derive a c k ar j : adiff a -> NoDup (map fst c) -> In (k, ar) c -> (j < length (a_data ar))%nat ->
  is_derive (fun x => aval a (nudge keq k j x c)) 0 (agrad a c k j) /\ aval a (nudge keq k j 0 c) = aval a c.
Proof.
  intros Ha Hn Hi Hj. induction a as [M b|a IHa b IHb|a IHa b IHb|f a IHa]; cbn [aval agrad].
  - split.
    + apply (is_derive_ext (fun x => dotv M c + x * M k j + b)); [intros x; rewrite (dotv_nudge keq Hk M k j x ar c Hn Hi Hj); reflexivity|].
      auto_derive; [exact I|ring].
    + rewrite (dotv_nudge keq Hk M k j 0 ar c Hn Hi Hj). ring.
  - destruct Ha as [Ha Hb]. destruct (IHa Ha) as [D1 E1]. destruct (IHb Hb) as [D2 E2]. split; [|rewrite E1, E2; reflexivity].
    apply (is_derive_plus (V := R_NormedModule) _ _ 0 _ _ D1 D2).
  - destruct Ha as [Ha Hb]. destruct (IHa Ha) as [D1 E1]. destruct (IHb Hb) as [D2 E2]. split; [|rewrite E1, E2; reflexivity].
    replace (aval b c * agrad a c k j + aval a c * agrad b c k j)
      with (plus (mult (agrad a c k j) (aval b (nudge keq k j 0 c))) (mult (aval a (nudge keq k j 0 c)) (agrad b c k j)))
      by (rewrite E1, E2; cbn; unfold plus, mult; cbn; ring).
    apply (is_derive_mult _ _ 0 _ _ D1 D2). intros n m. apply Rmult_comm.
  - destruct Ha as [Ha Hf]. destruct (IHa Ha) as [D1 E1]. split; [|rewrite E1; reflexivity].
    rewrite Rmult_comm. apply (is_derive_comp f (fun x => aval a (nudge keq k j x c)) 0 (Derive f (aval a c)) _); [|exact D1].
    rewrite E1. apply Derive_correct, Hf.
Qed.
(** every affine function has the same value *)
Fixpoint aagree (a : atree) (c1 c2 : view) : Prop :=
  match a with ALin M _ => dotv M c1 = dotv M c2 | AAdd a b | AMul a b => aagree a c1 c2 /\ aagree b c1 c2 | AApp _ a => aagree a c1 c2 end.
Lemma aagree_val a c1 c2 : aagree a c1 c2 -> aval a c1 = aval a c2.
Proof.
  induction a as [M b|a IHa b IHb|a IHa b IHb|f a IHa]; cbn [aagree aval].
  - intros ->. reflexivity.
  - intros [H1 H2]. rewrite IHa, IHb by assumption. reflexivity.
  - intros [H1 H2]. rewrite IHa, IHb by assumption. reflexivity.
  - intros H. rewrite IHa by assumption. reflexivity.
Qed.
Lemma aagree_grad a c1 c2 k j : aagree a c1 c2 -> agrad a c1 k j = agrad a c2 k j.
Proof.
  induction a as [M b|a IHa b IHb|a IHa b IHb|f a IHa]; cbn [aagree agrad].
  - reflexivity.
  - intros [H1 H2]. rewrite IHa, IHb by assumption. reflexivity.
  - intros [H1 H2]. rewrite IHa, IHb, (aagree_val a c1 c2), (aagree_val b c1 c2) by assumption. reflexivity.
  - intros H. rewrite IHa, (aagree_val a c1 c2) by assumption. reflexivity.
Qed.
Lemma aagree_dir a c c1 c2 : aagree a c1 c2 -> adir a c c1 c2 = 0.
Proof.
  induction a as [M b|a IHa b IHb|a IHa b IHb|f a IHa]; cbn [aagree adir].
  - intros ->. ring.
  - intros [H1 H2]. rewrite IHa, IHb by assumption. ring.
  - intros [H1 H2]. rewrite IHa, IHb by assumption. ring.
  - intros H. rewrite IHa by assumption. ring.
Qed.
Lemma aagree_at a c c' c1 c2 : aagree a c c' -> adir a c c1 c2 = adir a c' c1 c2.
Proof.
  induction a as [M b|a IHa b IHb|a IHa b IHb|f a IHa]; cbn [aagree adir].
  - reflexivity.
  - intros [H1 H2]. rewrite IHa, IHb by assumption. reflexivity.
  - intros [H1 H2]. rewrite IHa, IHb, (aagree_val a c c'), (aagree_val b c c') by assumption. reflexivity.
  - intros H. rewrite IHa, (aagree_val a c c') by assumption. reflexivity.
Qed.
Lemma aagree_move a c1 c2 c3 c4 : (forall M, dotv M c1 - dotv M c2 = dotv M c3 - dotv M c4) -> aagree a c3 c4 -> aagree a c1 c2.
Proof.
  intros H. induction a as [M b|a IHa b IHb|a IHa b IHb|f a IHa]; cbn [aagree]; [|tauto|tauto|tauto].
  intros E. specialize (H M). lra.
Qed.

(** ** the second-order bound *)
Section Bound.
Context (cp : view) (Hcp : same_form cp cp).
Hypothesis Hlip : forall M : K -> nat -> R, exists B, 0 <= B /\ forall x y d, same_form cp x -> same_form cp y -> near d x y -> Rabs (dotv M y - dotv M x) <= B * d.
Definition bounds (phi : view -> R) (D : view -> view -> R) (rho B L : R) : Prop :=
  forall x y d, same_form cp x -> same_form cp y -> near rho cp x -> near rho cp y -> 0 <= d -> near d x y ->
    Rabs (phi y - phi x) <= B * d /\ Rabs (phi y - phi x - D x y) <= L * (d * d).
Definition nice (phi : view -> R) (D : view -> view -> R) : Prop :=
  exists rho B L, 0 < rho /\ 0 <= B /\ 0 <= L /\ bounds phi D rho B L.
Lemma near_le x y c z : x <= y -> near (K:=K) x c z -> near y c z.
Proof. intros H Hz i. apply Rle_trans with (1 := Hz i), H. Qed.
Lemma near_self x : 0 <= x -> near x cp cp.
Proof. intros H i. rewrite Rminus_eq_0, Rabs_R0. exact H. Qed.
Lemma bounds_le phi D rho rho' B L : rho' <= rho -> bounds phi D rho B L -> bounds phi D rho' B L.
Proof. intros H Hb x y d Fx Fy Nx Ny. apply Hb; try assumption; apply (near_le rho' rho); assumption. Qed.
Lemma bounds_at phi D rho B L x : 0 <= rho -> bounds phi D rho B L -> same_form cp x -> near rho cp x -> Rabs (phi x - phi cp) <= B * rho.
Proof. intros Hr Hb Fx Nx. apply (Hb cp x rho Hcp Fx (near_self rho Hr) Nx Hr Nx). Qed.
Lemma bounds_max phi D rho B L x : 0 <= rho -> bounds phi D rho B L -> same_form cp x -> near rho cp x -> Rabs (phi x) <= Rabs (phi cp) + B * rho.
Proof.
  intros Hr Hb Fx Nx. pose proof (bounds_at phi D rho B L x Hr Hb Fx Nx). replace (phi x) with ((phi x - phi cp) + phi cp) by ring.
  pose proof (Rabs_triang (phi x - phi cp) (phi cp)). lra.
Qed.
Lemma nice_lin M b : nice (fun c => dotv M c + b) (fun x y => dotv M y - dotv M x).
Proof.
  destruct (Hlip M) as (B & HB & H). exists 1, B, 0. split; [lra|]. split; [exact HB|]. split; [lra|].
  intros x y d Fx Fy _ _ Hd Hn. replace (dotv M y + b - (dotv M x + b)) with (dotv M y - dotv M x) by ring.
  split; [apply H; assumption|]. rewrite Rminus_eq_0, Rabs_R0. lra.
Qed.
Lemma nice_add phi D psi E : nice phi D -> nice psi E -> nice (fun c => phi c + psi c) (fun x y => D x y + E x y).
Proof.
  intros (r1 & B1 & L1 & Hr1 & HB1 & HL1 & H1) (r2 & B2 & L2 & Hr2 & HB2 & HL2 & H2).
  exists (Rmin r1 r2), (B1 + B2), (L1 + L2). split; [apply Rmin_glb_lt; assumption|]. split; [lra|]. split; [lra|].
  intros x y d Fx Fy Nx Ny Hd Hn.
  destruct (bounds_le _ _ _ _ _ _ (Rmin_l r1 r2) H1 x y d Fx Fy Nx Ny Hd Hn) as [A1 A2].
  destruct (bounds_le _ _ _ _ _ _ (Rmin_r r1 r2) H2 x y d Fx Fy Nx Ny Hd Hn) as [A3 A4]. split.
  - replace (phi y + psi y - (phi x + psi x)) with ((phi y - phi x) + (psi y - psi x)) by ring.
    apply Rle_trans with (1 := Rabs_triang _ _). lra.
  - replace (phi y + psi y - (phi x + psi x) - (D x y + E x y)) with ((phi y - phi x - D x y) + (psi y - psi x - E x y)) by ring.
    apply Rle_trans with (1 := Rabs_triang _ _). lra.
Qed.
Lemma nice_mul phi D psi E : nice phi D -> nice psi E -> nice (fun c => phi c * psi c) (fun x y => D x y * psi x + phi x * E x y).
Proof.
  intros (r1 & B1 & L1 & Hr1 & HB1 & HL1 & H1) (r2 & B2 & L2 & Hr2 & HB2 & HL2 & H2).
  set (r := Rmin r1 r2). assert (Hr : 0 < r) by (apply Rmin_glb_lt; assumption).
  apply (bounds_le _ _ _ r) in H1; [|apply Rmin_l]. apply (bounds_le _ _ _ r) in H2; [|apply Rmin_r].
  set (P := Rabs (phi cp) + B1 * r). set (Q := Rabs (psi cp) + B2 * r).
  assert (HP : 0 <= P) by (pose proof (Rabs_pos (phi cp)); pose proof (Rmult_le_pos B1 r HB1 ltac:(lra)); unfold P; lra).
  assert (HQ : 0 <= Q) by (pose proof (Rabs_pos (psi cp)); pose proof (Rmult_le_pos B2 r HB2 ltac:(lra)); unfold Q; lra).
  pose proof (Rmult_le_pos P B2 HP HB2). pose proof (Rmult_le_pos Q B1 HQ HB1). pose proof (Rmult_le_pos B1 B2 HB1 HB2).
  pose proof (Rmult_le_pos P L2 HP HL2). pose proof (Rmult_le_pos Q L1 HQ HL1).
  exists r, (P * B2 + Q * B1), (P * L2 + Q * L1 + B1 * B2). split; [exact Hr|]. split; [lra|]. split; [lra|].
  intros x y d Fx Fy Nx Ny Hd Hn.
  destruct (H1 x y d Fx Fy Nx Ny Hd Hn) as [A1 A2]. destruct (H2 x y d Fx Fy Nx Ny Hd Hn) as [A3 A4].
  pose proof (bounds_max _ _ _ _ _ x (Rlt_le _ _ Hr) H1 Fx Nx) as M1. pose proof (bounds_max _ _ _ _ _ y (Rlt_le _ _ Hr) H1 Fy Ny) as M1'.
  pose proof (bounds_max _ _ _ _ _ x (Rlt_le _ _ Hr) H2 Fx Nx) as M2. fold P in M1, M1'. fold Q in M2.
  split.
  - replace (phi y * psi y - phi x * psi x) with (phi y * (psi y - psi x) + psi x * (phi y - phi x)) by ring.
    apply Rle_trans with (1 := Rabs_triang _ _). rewrite !Rabs_mult.
    pose proof (Rmult_le_compat _ _ _ _ (Rabs_pos _) (Rabs_pos _) M1' A3). pose proof (Rmult_le_compat _ _ _ _ (Rabs_pos _) (Rabs_pos _) M2 A1). lra.
  - replace (phi y * psi y - phi x * psi x - (D x y * psi x + phi x * E x y))
      with (phi x * (psi y - psi x - E x y) + psi x * (phi y - phi x - D x y) + (phi y - phi x) * (psi y - psi x)) by ring.
    apply Rle_trans with (1 := Rabs_triang _ _). apply Rle_trans with (Rabs (phi x * (psi y - psi x - E x y)) + Rabs (psi x * (phi y - phi x - D x y)) + Rabs ((phi y - phi x) * (psi y - psi x))).
    { apply Rplus_le_compat_r, Rabs_triang. }
    rewrite !Rabs_mult.
    pose proof (Rmult_le_compat _ _ _ _ (Rabs_pos _) (Rabs_pos _) M1 A4). pose proof (Rmult_le_compat _ _ _ _ (Rabs_pos _) (Rabs_pos _) M2 A2).
    pose proof (Rmult_le_compat _ _ _ _ (Rabs_pos _) (Rabs_pos _) A1 A3). lra.
Qed.
Lemma nice_app f phi D : (forall x, ex_derive f x) -> twice_near f (phi cp) -> nice phi D -> nice (fun c => f (phi c)) (fun x y => Derive f (phi x) * D x y).
Proof.
  intros Hf Hf2 (r & B & L & Hr & HB & HL & H). destruct (c2_bounds f (phi cp) Hf Hf2) as (eps & M & G & He & HM & HG & Hb).
  set (r' := Rmin r (eps / (B + 1))). assert (Hr' : 0 < r') by (apply Rmin_glb_lt; [exact Hr|apply Rdiv_lt_0_compat; lra]).
  apply (bounds_le _ _ _ r') in H; [|apply Rmin_l].
  assert (HBr : B * r' <= eps).
  { assert (Hle : r' <= eps / (B + 1)) by apply Rmin_r.
    apply Rle_trans with ((B + 1) * (eps / (B + 1))); [|right; field; lra].
    apply Rmult_le_compat; lra. }
  pose proof (Rmult_le_pos G B HG HB). pose proof (Rmult_le_pos G L HG HL). pose proof (Rmult_le_pos M (B * B) HM (Rle_0_sqr B)).
  exists r', (G * B), (M * (B * B) + G * L). split; [exact Hr'|]. split; [assumption|]. split; [lra|].
  intros x y d Fx Fy Nx Ny Hd Hn. destruct (H x y d Fx Fy Nx Ny Hd Hn) as [A1 A2].
  pose proof (bounds_at _ _ _ _ _ x (Rlt_le _ _ Hr') H Fx Nx) as Ex. pose proof (bounds_at _ _ _ _ _ y (Rlt_le _ _ Hr') H Fy Ny) as Ey.
  destruct (Hb (phi x) (phi y) ltac:(lra) ltac:(lra)) as (C1 & C2 & C3). split.
  - apply Rle_trans with (1 := C2). rewrite Rmult_assoc. apply Rmult_le_compat_l; assumption.
  - replace (f (phi y) - f (phi x) - Derive f (phi x) * D x y)
      with ((f (phi y) - f (phi x) - Derive f (phi x) * (phi y - phi x)) + Derive f (phi x) * (phi y - phi x - D x y)) by ring.
    apply Rle_trans with (1 := Rabs_triang _ _). rewrite Rabs_mult.
    pose proof (Rmult_le_compat _ _ _ _ (Rabs_pos _) (Rabs_pos _) C1 A2).
    pose proof (Rmult_le_compat_l M _ _ HM (Rmult_le_compat _ _ _ _ (Rabs_pos _) (Rabs_pos _) A1 A1)). lra.
Qed.
Fixpoint areg (a : atree) : Prop :=
  match a with ALin _ _ => True | AAdd a b | AMul a b => areg a /\ areg b
  | AApp f a => areg a /\ (forall x, ex_derive f x) /\ twice_near f (aval a cp) end.
Lemma areg_diff a : areg a -> adiff a.
Proof. induction a; cbn; tauto. Qed.
Lemma aval_nice a : areg a -> nice (aval a) (fun x y => adir a x x y).
Proof.
  induction a as [M b|a IHa b IHb|a IHa b IHb|f a IHa]; cbn [areg].
  - intros _. apply nice_lin.
  - intros [H1 H2]. apply nice_add; auto.
  - intros [H1 H2]. apply nice_mul; auto.
  - intros (H1 & H2 & H3). apply nice_app; auto.
Qed.
(** one radius and one bound for finitely many expressions *)
Lemma all_nice (a : nat -> atree) m : (forall i, (i < m)%nat -> areg (a i)) -> exists rho L, 0 < rho /\ 0 <= L /\
  forall i x y d, (i < m)%nat -> same_form cp x -> same_form cp y -> near rho cp x -> near rho cp y -> 0 <= d -> near d x y ->
    Rabs (aval (a i) y - aval (a i) x - adir (a i) x x y) <= L * (d * d).
Proof.
  induction m as [|m IH]; intros H.
  - exists 1, 0. split; [lra|]. split; [lra|]. intros; lia.
  - destruct IH as (r1 & L1 & Hr1 & HL1 & H1); [intros; apply H; lia|].
    destruct (aval_nice (a m) (H m (Nat.lt_succ_diag_r m))) as (r2 & B & L2 & Hr2 & HB & HL2 & H2).
    exists (Rmin r1 r2), (L1 + L2). split; [apply Rmin_glb_lt; assumption|]. split; [lra|].
    intros i x y d Hi Fx Fy Nx Ny Hd Hn. pose proof (Rle_0_sqr d) as Hs. unfold Rsqr in Hs.
    pose proof (Rmult_le_pos _ _ HL1 Hs). pose proof (Rmult_le_pos _ _ HL2 Hs).
    destruct (Nat.eq_dec i m) as [->|Hne].
    + destruct (H2 x y d Fx Fy (near_le _ _ _ _ (Rmin_r r1 r2) Nx) (near_le _ _ _ _ (Rmin_r r1 r2) Ny) Hd Hn) as [_ A]. lra.
    + pose proof (H1 i x y d ltac:(lia) Fx Fy (near_le _ _ _ _ (Rmin_l r1 r2) Nx) (near_le _ _ _ _ (Rmin_l r1 r2) Ny) Hd Hn). lra.
Qed.
End Bound.

(** ** the expressions of the script *)
Section Form.
Context (c0 : view) (Hn : NoDup (map fst c0)) (fs : list sfun) (E : nat).
Notation Y c := (Yc jvp keq c fs).
Notation V c := (fun k => get keq c k 0%nat).
Hypothesis Hgood : forall f, In f fs -> good jvp keq c0 f E.
Definition fits (e : nexp) : Prop :=
  (forall ts t, In ts (lins e) -> In t ts -> (fst t < length fs)%nat /\ (length (snd t) <= S E)%nat) /\ (forall k, In k (numbers e) -> has keq c0 k 1).
Lemma fits_app a b : (forall ts t, In ts (lins a ++ lins b) -> In t ts -> (fst t < length fs)%nat /\ (length (snd t) <= S E)%nat) /\ (forall k, In k (numbers a ++ numbers b) -> has keq c0 k 1) ->
  fits a /\ fits b.
Proof.
  intros [H1 H2]. repeat split.
  - apply (H1 ts t); [apply in_or_app; left|]; assumption.
  - apply (H1 ts t); [apply in_or_app; left|]; assumption.
  - intros k Hi. apply H2, in_or_app. left. exact Hi.
  - apply (H1 ts t); [apply in_or_app; right|]; assumption.
  - apply (H1 ts t); [apply in_or_app; right|]; assumption.
  - intros k Hi. apply H2, in_or_app. right. exact Hi.
Qed.
Lemma each2_map f (g h : R -> R) xs : each2 f (map g xs) (map h xs) = map (fun t => f (g t) (h t)) xs.
Proof. unfold each2. induction xs as [|t xs IH]; [reflexivity|]. cbn. rewrite IH. reflexivity. Qed.
Lemma number_ok c k : same_form c0 c -> has keq c0 k 1 -> cond_val keq c (Entry k) = Some (V c k).
Proof.
  intros Hc (a & Ea & Es). destruct (form_get keq c0 c k a Hc Ea) as (a' & E' & Es' & W). cbn [cond_val]. rewrite E'. cbn [bind].
  unfold get. rewrite E', Es', Es. unfold wf in W. rewrite Es', Es in W. cbn in W. destruct (a_data a') as [|x l]; [discriminate|]. reflexivity.
Qed.
Lemma expX_ok c xs e : same_form c0 c -> fits e -> expX jvp keq c fs xs e = Some (map (exp_at e (Y c) (V c)) xs).
Proof.
  intros Hc. induction e as [ts|g|k|a IHa b IHb|a IHa b IHb|f a IHa]; intros Hf; cbn [expX exp_at].
  - apply (sumS_ok jvp keq c0 fs E c ts xs Hgood Hc). intros t Ht. apply (proj1 Hf ts t); [left; reflexivity|exact Ht].
  - reflexivity.
  - rewrite (number_ok c k Hc) by (apply Hf; left; reflexivity). reflexivity.
  - apply fits_app in Hf as [Ha Hb]. rewrite (IHa Ha), (IHb Hb). cbn [bind]. rewrite each2_map. reflexivity.
  - apply fits_app in Hf as [Ha Hb]. rewrite (IHa Ha), (IHb Hb). cbn [bind]. rewrite each2_map. reflexivity.
  - rewrite (IHa Hf). cbn [bind]. rewrite map_map. reflexivity.
Qed.
Lemma Y_smooth c i f : same_form c0 c -> nth_error fs i = Some f -> smoothF (Y c i).
Proof.
  intros Hc Hf. destruct (good_facts jvp keq c0 f E c (Hgood f (nth_error_In _ _ Hf)) Hc) as (_ & H & _).
  intros e t. apply (ex_derive_n_ext (Ysem jvp keq c f)); [intros s; unfold Yc; rewrite Hf; reflexivity|]. apply H.
Qed.
Lemma number_aff k : has keq c0 k 1 -> exists M b, forall c, same_form c0 c -> V c k = dotv M c + b.
Proof.
  intros (a & Ea & Es). destruct (vaff_row keq Hk c0 Hn k a 1 [1] Ea Es eq_refl) as (M & b & H). exists M, b. intros c Hc.
  rewrite <- (H c Hc). cbn. ring.
Qed.
(** the expression as a tree of affine functions *)
Lemma tree_ok e t : fits e -> exists a, forall c, same_form c0 c ->
  aval a c = exp_at e (Y c) (V c) t /\
  (forall c1 c2, same_form c0 c1 -> same_form c0 c2 ->
     adir a c c1 c2 = dexp_at e (Y c) (V c) (fun i s => Y c2 i s - Y c1 i s) (fun k => V c2 k - V c1 k) t /\
     ((forall i f, nth_error fs i = Some f -> forall s, Y c1 i s = Y c2 i s) -> (forall k, In k (numbers e) -> V c1 k = V c2 k) -> aagree a c1 c2)) /\
  (same_form c0 c0 -> c = c0 -> regular e (Y c0) (V c0) t -> areg c0 a).
Proof.
  induction e as [ts|g|k|a IHa b IHb|a IHa b IHb|f a IHa]; intros Hf.
  - assert (Ht : forall q, In q ts -> (fst q < length fs)%nat) by (intros q Hq; apply (proj1 Hf ts q); [left; reflexivity|exact Hq]).
    destruct (system_aff jvp keq Hk c0 Hn fs E ts Hgood Ht) as (M & b & H). exists (ALin (M t) (b t)). intros c Hc. split; [|split].
    + cbn [aval exp_at]. rewrite (H c t Hc). reflexivity.
    + intros c1 c2 F1 F2. split.
      * cbn [adir dexp_at]. rewrite system_minus; [rewrite (H c1 t F1), (H c2 t F2); ring|].
        intros q Hq. destruct (nth_error fs (fst q)) as [f|] eqn:Ef; [|apply nth_error_None in Ef; specialize (Ht q Hq); lia].
        split; apply (Y_smooth _ _ f); assumption.
      * intros Hy _. cbn [aagree].
        assert (Es : system_at ts (Y c1) t = system_at ts (Y c2) t).
        { apply system_same. intros q Hq x. destruct (nth_error fs (fst q)) as [f|] eqn:Ef; [|apply nth_error_None in Ef; specialize (Ht q Hq); lia].
          apply (Hy _ f Ef). }
        rewrite (H c1 t F1), (H c2 t F2) in Es. lra.
    + intros _ _ _. exact I.
  - exists (ALin (fun _ _ => 0) (g t)). intros c Hc. split; [|split].
    + cbn [aval exp_at]. rewrite dotv_zero by reflexivity. ring.
    + intros c1 c2 F1 F2. split; [cbn [adir dexp_at]|intros _ _; cbn [aagree]]; rewrite !dotv_zero by reflexivity; [ring|reflexivity].
    + intros _ _ _. exact I.
  - destruct (number_aff k) as (M & b & H); [apply Hf; left; reflexivity|]. exists (ALin M b). intros c Hc. split; [|split].
    + cbn [aval exp_at]. rewrite (H c Hc). reflexivity.
    + intros c1 c2 F1 F2. split; [cbn [adir dexp_at]; rewrite (H c1 F1), (H c2 F2); ring|]. intros _ Hk'. cbn [aagree].
      specialize (Hk' k (or_introl eq_refl)). rewrite (H c1 F1), (H c2 F2) in Hk'. lra.
    + intros _ _ _. exact I.
  - apply fits_app in Hf as [Fa Fb]. destruct (IHa Fa) as (a' & Ha). destruct (IHb Fb) as (b' & Hb). exists (AAdd a' b'). intros c Hc.
    destruct (Ha c Hc) as (A1 & A2 & A3). destruct (Hb c Hc) as (B1 & B2 & B3). split; [|split].
    + cbn [aval exp_at]. rewrite A1, B1. reflexivity.
    + intros c1 c2 F1 F2. destruct (A2 c1 c2 F1 F2) as [A4 A5]. destruct (B2 c1 c2 F1 F2) as [B4 B5]. split; [cbn [adir dexp_at]; rewrite A4, B4; reflexivity|].
      intros Hy Hv. split; [apply A5|apply B5]; try assumption; intros k Hi; apply Hv; cbn [numbers]; apply in_or_app; [left|right]; exact Hi.
    + intros G0 Ec (R1 & R2). split; [apply A3|apply B3]; assumption.
  - apply fits_app in Hf as [Fa Fb]. destruct (IHa Fa) as (a' & Ha). destruct (IHb Fb) as (b' & Hb). exists (AMul a' b'). intros c Hc.
    destruct (Ha c Hc) as (A1 & A2 & A3). destruct (Hb c Hc) as (B1 & B2 & B3). split; [|split].
    + cbn [aval exp_at]. rewrite A1, B1. reflexivity.
    + intros c1 c2 F1 F2. destruct (A2 c1 c2 F1 F2) as [A4 A5]. destruct (B2 c1 c2 F1 F2) as [B4 B5]. split; [cbn [adir dexp_at]; rewrite A4, B4, A1, B1; reflexivity|].
      intros Hy Hv. split; [apply A5|apply B5]; try assumption; intros k Hi; apply Hv; cbn [numbers]; apply in_or_app; [left|right]; exact Hi.
    + intros G0 Ec (R1 & R2). split; [apply A3|apply B3]; assumption.
  - destruct (IHa Hf) as (a' & Ha). exists (AApp f a'). intros c Hc. destruct (Ha c Hc) as (A1 & A2 & A3). split; [|split].
    + cbn [aval exp_at]. rewrite A1. reflexivity.
    + intros c1 c2 F1 F2. destruct (A2 c1 c2 F1 F2) as [A4 A5]. split; [cbn [adir dexp_at]; rewrite A4, A1; reflexivity|].
      intros Hy Hv. apply A5; assumption.
    + intros G0 Ec (R1 & R2 & R3). subst c. split; [apply A3; trivial|]. split; [exact R2|]. rewrite A1. exact R3.
Qed.

(** the residuals, one for each equation and point *)
Definition jobsG (eqs : list geqn) : list (geqn * R) := flat_map (fun e => map (pair e) (g_pts e)) eqs.
Definition jobG0 : geqn * R := (GEqn [] (XCoef (fun _ => 0)), 0).
Lemma in_jobsG eqs e t : In (e, t) (jobsG eqs) <-> In e eqs /\ In t (g_pts e).
Proof.
  unfold jobsG. rewrite in_flat_map. split.
  - intros (e' & He & H). apply in_map_iff in H as (t' & E' & Ht). injection E' as -> ->. auto.
  - intros [He Ht]. exists e. split; [exact He|]. apply in_map, Ht.
Qed.
Definition residG (eqs : list geqn) (y : nat -> R -> R) (v : K -> R) : list R := map (fun p => exp_at (g_lhs (fst p)) y v (snd p)) (jobsG eqs).
Lemma residualG_ok eqs c : (forall e, In e eqs -> fits (g_lhs e)) -> same_form c0 c -> residualG jvp keq c fs eqs = Some (residG eqs (Y c) (V c)).
Proof.
  intros Hf Hc. unfold residualG.
  assert (M : mapM (fun e => expX jvp keq c fs (g_pts e) (g_lhs e)) eqs = Some (map (fun e => map (exp_at (g_lhs e) (Y c) (V c)) (g_pts e)) eqs)).
  { induction eqs as [|e l IH]; [reflexivity|]. cbn [mapM map]. rewrite (expX_ok c (g_pts e) (g_lhs e) Hc (Hf e (or_introl eq_refl))). cbn [bind].
    rewrite IH by (intros e' He'; apply Hf; right; exact He'). reflexivity. }
  rewrite M. cbn [bind]. f_equal. unfold residG, jobsG. clear. induction eqs as [|e l IH]; [reflexivity|].
  cbn [map concat flat_map]. rewrite IH, map_app, map_map. reflexivity.
Qed.
(** every allowed family of functions and numbers is reached *)
Lemma reachedG (p : nat -> R -> R) (q : K -> R) : NoDup (map f_key fs) ->
  (forall f s k, In f fs -> In s (f_cs f) -> sc_val s = Entry k -> ~ In k (map f_key fs)) ->
  allowedG jvp fs p q -> exists c, same_form c0 c /\ (forall i f, nth_error fs i = Some f -> forall t, p i t = Ysem jvp keq c f t) /\
  forall k, has keq c0 k 1 -> ~ In k (map f_key fs) -> get keq c k 0 = q k.
Proof.
  intros Hnd Hdis Hp.
  destruct (choose_keys keq Hk (fun k (_ : nat) => q k) fs
    (fun i f a => exists n h r, goodh jvp keq c0 f n E h /\ length r = length (f_phi f) /\ forall t, p i t = row_comb a (h 0%nat t) + combF r (f_phi f) t) Hnd)
    as (B & HB & HV).
  { intros i f Ef. destruct (Hgood f (nth_error_In _ _ Ef)) as (n & h & G). destruct (Hp i f Ef) as [Hs _].
    destruct (spannedF_rows jvp (f_u f) n E h (f_phi f) (g_H _ _ _ _ _ _ _ G) _ Hs) as (a & r & Hr & Hy). exists a, n, h, r. auto. }
  exists (fill c0 B). split; [apply fill_form|]. split.
  - intros i f Ef t. destruct (HB i f Ef) as (n & h & r & G & Hr & Hy).
    rewrite (Ysem_is jvp keq c0 f n E h _ t G (fill_form c0 B)). revert t.
    apply (Yv_reach keq f h (g_d _ _ _ _ _ _ _ G) (g_phi _ _ _ _ _ _ _ G) (fill c0 B) (B (f_key f)) r); [exact Hr|exact Hy| |].
    + intros t. apply row_comb_lt. intros j Hj. rewrite (g_l _ _ _ _ _ _ _ G) in Hj. symmetry. apply (fill_get keq Hk c0 Hn B _ n); [apply (g_key _ _ _ _ _ _ _ G)|exact Hj].
    + intros s Hs. destruct (Hp i f Ef) as [_ Hm]. rewrite (Hm s Hs). destruct (sc_val s) as [v|k] eqn:Ev; [reflexivity|].
      rewrite (fill_get keq Hk c0 Hn B k 1); [|exact (g_ent _ _ _ _ _ _ _ G s k Hs Ev)|lia].
      rewrite HV by exact (Hdis f s k (nth_error_In _ _ Ef) Hs Ev). reflexivity.
  - intros k Hh Hk'. rewrite (fill_get keq Hk c0 Hn B k 1 0 Hh) by lia. rewrite HV by exact Hk'. reflexivity.
Qed.
(** one tree for each residual *)
Lemma trees_ok eqs : (forall e, In e eqs -> fits (g_lhs e)) -> exists a : nat -> atree, forall i, (i < length (jobsG eqs))%nat -> forall c, same_form c0 c ->
  let e := g_lhs (fst (nth i (jobsG eqs) jobG0)) in let t := snd (nth i (jobsG eqs) jobG0) in
  aval (a i) c = exp_at e (Y c) (V c) t /\
  (forall c1 c2, same_form c0 c1 -> same_form c0 c2 ->
     adir (a i) c c1 c2 = dexp_at e (Y c) (V c) (fun i s => Y c2 i s - Y c1 i s) (fun k => V c2 k - V c1 k) t /\
     ((forall i f, nth_error fs i = Some f -> forall s, Y c1 i s = Y c2 i s) -> (forall k, In k (numbers e) -> V c1 k = V c2 k) -> aagree (a i) c1 c2)) /\
  (same_form c0 c0 -> c = c0 -> regular e (Y c0) (V c0) t -> areg c0 (a i)).
Proof.
  intros Hf.
  apply (choose_nat (ALin (fun _ _ => 0) 0) (fun i a => forall c, same_form c0 c ->
    let e := g_lhs (fst (nth i (jobsG eqs) jobG0)) in let t := snd (nth i (jobsG eqs) jobG0) in
    aval a c = exp_at e (Y c) (V c) t /\
    (forall c1 c2, same_form c0 c1 -> same_form c0 c2 ->
       adir a c c1 c2 = dexp_at e (Y c) (V c) (fun i s => Y c2 i s - Y c1 i s) (fun k => V c2 k - V c1 k) t /\
       ((forall i f, nth_error fs i = Some f -> forall s, Y c1 i s = Y c2 i s) -> (forall k, In k (numbers e) -> V c1 k = V c2 k) -> aagree a c1 c2)) /\
    (same_form c0 c0 -> c = c0 -> regular e (Y c0) (V c0) t -> areg c0 a))).
  intros i Hi. cbv zeta. destruct (nth i (jobsG eqs) jobG0) as [e t] eqn:Ei. cbn [fst snd].
  assert (Hin : In (e, t) (jobsG eqs)) by (rewrite <- Ei; apply nth_In, Hi). apply in_jobsG in Hin as [He _].
  apply tree_ok, Hf, He.
Qed.
End Form.
End Sys.
