(** The reals of the standard library as an ordered field of mathcomp. *)
From Coq Require Import Reals Lra ClassicalEpsilon.
From mathcomp Require Import all_ssreflect all_algebra.
Set Implicit Arguments.
Unset Strict Implicit.
Unset Printing Implicit Defensive.
Import GRing.Theory Num.Theory.

Definition eqr (r1 r2 : R) : bool := if Req_EM_T r1 r2 is left _ then true else false.
Lemma eqrP : Equality.axiom eqr.
Proof. by move=> x y; rewrite /eqr; case: Req_EM_T => [E|N]; [left|right]. Qed.
Canonical R_eqMixin := EqMixin eqrP.
Canonical R_eqType := EqType R R_eqMixin.

Fact inhR : inhabited R. Proof. exact: (inhabits R0). Qed.
Definition pickR (P : pred R) (n : nat) : option R :=
  let x := epsilon inhR P in if P x then Some x else None.
Fact pickR_some P n x : pickR P n = Some x -> P x.
Proof. by rewrite /pickR; case: (boolP (P _)) => // Px [<-]. Qed.
Fact pickR_ex (P : pred R) : (exists x : R, P x) -> exists n, pickR P n.
Proof. by rewrite /pickR => P_ex; exists 0%N; rewrite (epsilon_spec inhR P). Qed.
Fact pickR_ext (P Q : pred R) : P =1 Q -> pickR P =1 pickR Q.
Proof.
move=> PEQ n; rewrite /pickR; set u := epsilon _ _; set v := epsilon _ _.
suff -> : u = v by rewrite PEQ.
by rewrite /u /v; congr epsilon; apply: FunctionalExtensionality.functional_extensionality => x; rewrite PEQ.
Qed.
Definition R_choiceMixin : choiceMixin R := Choice.Mixin pickR_some pickR_ex pickR_ext.
Canonical R_choiceType := ChoiceType R R_choiceMixin.

Local Open Scope R_scope.
Fact RplusA : associative Rplus. Proof. by move=> *; rewrite Rplus_assoc. Qed.
Definition R_zmodMixin := ZmodMixin RplusA Rplus_comm Rplus_0_l Rplus_opp_l.
Canonical R_zmodType := ZmodType R R_zmodMixin.
Fact RmultA : associative Rmult. Proof. by move=> *; rewrite Rmult_assoc. Qed.
Fact R1_neq_0 : R1 != R0. Proof. by apply/eqP; exact: R1_neq_R0. Qed.
Definition R_ringMixin := RingMixin RmultA Rmult_1_l Rmult_1_r Rmult_plus_distr_r Rmult_plus_distr_l R1_neq_0.
Canonical R_ringType := RingType R R_ringMixin.
Canonical R_comRingType := ComRingType R Rmult_comm.
Definition Rinvx r := if (r != 0) then / r else r.
Fact RmultRinvx : {in [pred r : R | r != 0], left_inverse 1 Rinvx Rmult}.
Proof. by move=> r; rewrite !inE /Rinvx => rn; rewrite rn Rinv_l //; apply/eqP. Qed.
Fact RinvxRmult : {in [pred r : R | r != 0], right_inverse 1 Rinvx Rmult}.
Proof. by move=> r; rewrite !inE /Rinvx => rn; rewrite rn Rinv_r //; apply/eqP. Qed.
Fact intro_unit_R x y : y * x = 1 /\ x * y = 1 -> x \in [pred r : R | r != 0].
Proof. move=> [yxE1 _]; rewrite inE; apply/eqP=> xZ; apply: R1_neq_R0; by rewrite -yxE1 xZ Rmult_0_r. Qed.
Fact Rinvx_out : {in predC [pred r : R | r != 0], Rinvx =1 id}.
Proof. by move=> x; rewrite !inE /Rinvx => /negbTE ->. Qed.
Definition R_unitRingMixin := UnitRingMixin RmultRinvx RinvxRmult intro_unit_R Rinvx_out.
Canonical R_unitRing := UnitRingType R R_unitRingMixin.
Canonical R_comUnitRingType := Eval hnf in [comUnitRingType of R].
Lemma R_idomainMixin x y : x * y = 0 -> (x == 0) || (y == 0).
Proof. by move=> /Rmult_integral [->|->]; rewrite eqxx ?orbT. Qed.
Canonical R_idomainType := IdomainType R R_idomainMixin.
Lemma R_fieldMixin : GRing.Field.mixin_of [unitRingType of R]. Proof. by []. Qed.
Canonical R_fieldType := FieldType R R_fieldMixin.

Definition Rleb r1 r2 : bool := if Rle_dec r1 r2 is left _ then true else false.
Definition Rltb r1 r2 : bool := Rleb r1 r2 && (r1 != r2).
Lemma RlebP r1 r2 : reflect (r1 <= r2) (Rleb r1 r2).
Proof. by rewrite /Rleb; case: Rle_dec => H; constructor. Qed.
Lemma RltbP r1 r2 : reflect (r1 < r2) (Rltb r1 r2).
Proof.
rewrite /Rltb; apply: (iffP andP) => [[/RlebP H1 /eqP H2]|H].
  by case: H1 => // E; case: H2.
by split; [apply/RlebP; left|apply/eqP=> E; rewrite E in H; exact: Rlt_irrefl H].
Qed.
Section Num.
Implicit Types x y z : R.
Fact lt0_add x y : Rltb 0 x -> Rltb 0 y -> Rltb 0 (x + y).
Proof. by move=> /RltbP H1 /RltbP H2; apply/RltbP; lra. Qed.
Fact le_total_ge0 x y : Rleb 0 x -> Rleb 0 y -> Rleb x y || Rleb y x.
Proof. by move=> _ _; case: (Rle_dec x y) => H; apply/orP; [left|right]; apply/RlebP; lra. Qed.
Fact leb_mul x y : Rleb 0 x -> Rleb 0 y -> Rleb 0 (x * y).
Proof. by move=> /RlebP H1 /RlebP H2; apply/RlebP; apply: Rmult_le_pos. Qed.
Fact le0_add x y : Rleb 0 x -> Rleb 0 y -> Rleb 0 (x + y).
Proof. by move=> /RlebP H1 /RlebP H2; apply/RlebP; lra. Qed.
Fact le0_anti x : Rleb 0 x -> Rleb x 0 -> x = 0.
Proof. by move=> /RlebP H1 /RlebP H2; lra. Qed.
Fact subr_ge0 x y : Rleb 0 (Rplus y (Ropp x)) = Rleb x y.
Proof. by apply/RlebP/RlebP=> H; lra. Qed.
Fact le_total x : Rleb 0 x || Rleb x 0.
Proof. by case: (Rle_dec 0 x) => H; apply/orP; [left|right]; apply/RlebP; lra. Qed.
Fact normN x : Rabs (- x) = Rabs x. Proof. exact: Rabs_Ropp. Qed.
Fact ge0_norm x : Rleb 0 x -> Rabs x = x. Proof. by move=> /RlebP H; apply: Rabs_pos_eq. Qed.
Fact lt_def x y : Rltb x y = (y != x) && Rleb x y.
Proof. by rewrite /Rltb eq_sym andbC. Qed.
End Num.
Definition R_numMixin := RealLeMixin le0_add leb_mul le0_anti subr_ge0 le_total normN ge0_norm lt_def.
Canonical R_porderType := POrderType ring_display R R_numMixin.
Canonical R_latticeType := LatticeType R R_numMixin.
Canonical R_distrLatticeType := DistrLatticeType R R_numMixin.
Canonical R_orderType := OrderType R R_numMixin.
Canonical R_numDomainType := NumDomainType R R_numMixin.
Canonical R_normedZmodType := NormedZmodType R R R_numMixin.
Canonical R_numFieldType := [numFieldType of R].
Canonical R_realDomainType := [realDomainType of R].
Canonical R_realFieldType := [realFieldType of R].
