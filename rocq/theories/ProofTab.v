(** Tables of a three-term recurrence and of its derivatives, over R. *)
From Coq Require Import Reals Arith Lia Lra List.
From Coquelicot Require Import Coquelicot.
From Verif Require Import Base Numbers.
Open Scope R_scope.

Section Tab.
Variables a b c : nat -> R.

(** values of columns k-1 and k, as functions of the derivative order *)
Fixpoint tabp (z : R) (k : nat) : (nat -> R) * (nat -> R) :=
  match k with
  | O => (fun _ => 0, fun d => match d with O => 1 | _ => 0 end)
  | S k' =>
      let pq := tabp z k' in
      (snd pq, fun d => (a k' * z + b k') * snd pq d + a k' * INR d * snd pq (pred d) - c k' * fst pq d)
  end.
Definition tab (k d : nat) (z : R) : R := snd (tabp z k) d.

Lemma tab_0 d z : tab 0 d z = match d with O => 1 | _ => 0 end.
Proof. reflexivity. Qed.
Lemma tab_1 d z : tab 1 d z = match d with O => a 0 * z + b 0 | S O => a 0%nat | _ => 0 end.
Proof.
  unfold tab; cbn [tabp fst snd]. destruct d as [|[|d]]; cbn [pred]; [cbn; ring|cbn; ring|].
  ring.
Qed.
Lemma tab_SS k d z :
  tab (S (S k)) d z = (a (S k) * z + b (S k)) * tab (S k) d z
    + a (S k) * INR d * tab (S k) (pred d) z - c (S k) * tab k d z.
Proof. reflexivity. Qed.

Lemma tab_deriv_pair k : forall d z,
  is_derive (fun z => tab k d z) z (tab k (S d) z) /\
  is_derive (fun z => tab (S k) d z) z (tab (S k) (S d) z).
Proof.
  induction k as [|k IH].
  - intros d z. split.
    + apply is_derive_ext with (f := fun _ => match d with O => 1 | _ => 0 end).
      { intros t; rewrite tab_0; reflexivity. }
      rewrite tab_0. apply is_derive_Reals. apply derivable_pt_lim_const.
    + destruct d as [|d].
      * apply is_derive_ext with (f := fun t => a 0 * t + b 0).
        { intros t; rewrite tab_1; reflexivity. }
        rewrite tab_1. auto_derive; [exact I|ring].
      * apply is_derive_ext with (f := fun _ => match d with O => a 0%nat | _ => 0 end).
        { intros t; rewrite tab_1. destruct d; reflexivity. }
        rewrite tab_1. apply is_derive_Reals. apply derivable_pt_lim_const.
  - intros d z. split; [apply IH|].
    apply is_derive_ext with (f := fun t => (a (S k) * t + b (S k)) * tab (S k) d t
      + a (S k) * INR d * tab (S k) (pred d) t - c (S k) * tab k d t).
    { intros t; rewrite tab_SS; reflexivity. }
    rewrite tab_SS. cbn [pred]. rewrite S_INR.
    pose proof (proj2 (IH d z)) as H1. pose proof (proj1 (IH d z)) as H0.
    assert (Hp : is_derive (fun t => a (S k) * INR d * tab (S k) (pred d) t) z
                   (a (S k) * INR d * tab (S k) d z)).
    { destruct d as [|d].
      - apply is_derive_ext with (f := fun _ => 0).
        { intros t; cbn; ring. }
        replace (a (S k) * INR 0 * tab (S k) 0 z) with 0 by (cbn; ring).
        apply is_derive_Reals, derivable_pt_lim_const.
      - cbn [pred]. pose proof (proj2 (IH d z)) as H2.
        apply (is_derive_scal (fun t => tab (S k) d t) z (a (S k) * INR (S d))).
        exact H2. }
    assert (Hm : is_derive (fun t => (a (S k) * t + b (S k)) * tab (S k) d t) z
                   (a (S k) * tab (S k) d z + (a (S k) * z + b (S k)) * tab (S k) (S d) z)).
    { apply is_derive_mult with (f := fun t => a (S k) * t + b (S k)).
      - auto_derive; [exact I|ring].
      - exact H1.
      - intros; apply Rmult_comm. }
    assert (Hc : is_derive (fun t => c (S k) * tab k d t) z (c (S k) * tab k (S d) z)).
    { apply (is_derive_scal (fun t => tab k d t)). exact H0. }
    pose proof (is_derive_plus _ _ _ _ _ Hm Hp) as Hs.
    pose proof (is_derive_minus _ _ _ _ _ Hs Hc) as Hr.
    refine (eq_ind _ (fun v => is_derive _ z v) Hr _ _).
    unfold minus, plus, opp; cbn. ring.
Qed.

Lemma tab_deriv k d z : is_derive (fun z => tab k d z) z (tab k (S d) z).
Proof. apply tab_deriv_pair. Qed.
End Tab.

(** A chain of functions each the derivative of the previous one. *)
Lemma is_derive_n_chain (g : nat -> R -> R) :
  (forall d x, is_derive (g d) x (g (S d) x)) ->
  forall d x, is_derive_n (g 0%nat) d x (g d x).
Proof.
  intros H d. induction d as [|d IH]; intros x.
  - reflexivity.
  - cbn. apply is_derive_ext with (f := g d); [|apply H].
    intros t. symmetry. apply is_derive_n_unique, IH.
Qed.

(** composition with an affine map *)
Lemma is_derive_affine (f : R -> R) (c x0 z0 x l : R) :
  is_derive f ((x - x0) * c + z0) l ->
  is_derive (fun t => f ((t - x0) * c + z0)) x (l * c).
Proof.
  intros H. rewrite Rmult_comm.
  apply (is_derive_comp f (fun t => (t - x0) * c + z0)); [exact H|].
  auto_derive; [exact I|ring].
Qed.

Lemma affine_chain (t : nat -> R -> R) (c x0 z0 : R) :
  (forall d z, is_derive (t d) z (t (S d) z)) ->
  forall d x, is_derive_n (fun x => t 0%nat ((x - x0) * c + z0)) d x
                (t d ((x - x0) * c + z0) * c ^ d).
Proof.
  intros H d x.
  apply (is_derive_n_ext (fun x => t 0%nat ((x - x0) * c + z0) * c ^ 0)).
  { intros y; cbn; ring. }
  revert d x.
  apply (is_derive_n_chain (fun d x => t d ((x - x0) * c + z0) * c ^ d)).
  intros d x. cbn [pow].
  replace (t (S d) ((x - x0) * c + z0) * (c * c ^ d))
    with ((t (S d) ((x - x0) * c + z0) * c) * c ^ d) by ring.
  apply is_derive_ext with (f := fun x => c ^ d * t d ((x - x0) * c + z0)).
  { intros y; apply Rmult_comm. }
  rewrite (Rmult_comm _ (c ^ d)).
  apply (is_derive_scal (fun x => t d ((x - x0) * c + z0))).
  apply is_derive_affine, H.
Qed.
