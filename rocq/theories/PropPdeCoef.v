(** C96: which coefficients of a constrained expression in several variables matter. *)
From Coq Require Import ZArith Lia Reals Lra.
From Coquelicot Require Import Coquelicot.
From mathcomp Require Import all_ssreflect all_algebra.
From Verif Require Import Base Numbers ModelBFPy SpecBasis ModelND SpecND ModelELM SpecELM ModelNELM SpecNELM ModelUtfc SpecUtfc ModelMtfc SpecMtfc ProofMtfc
  ModelOde SpecOde ModelPde SpecPde ProofPde ProofPde2 ProofPde3 ProofPde4 PropNELM PropNColl PropPde.
Set Implicit Arguments.
Unset Strict Implicit.
Unset Printing Implicit Defensive.

(** the function [v] is beyond the conditions in every variable *)
Definition needed (css : seq (seq pcond)) (v : seq nat) : Prop :=
  forall k cs, List.nth_error css k = Some cs -> Peano.le (length cs) (List.nth k v 0%N).

(** Coefficient [i] multiplies the product of the univariate functions [idx_i].  It matters exactly
    when [idx_i] is beyond the conditions in every variable; the object keeps every product that is so
    in at least one. *)
Theorem C96_which_matter : forall jvpn be f ns nC deg dim x0 xf w b u css phis,
  pde_setting jvpn be f ns nC deg dim x0 xf w b u css phis -> f <> FS ->
  exists idx, List.NoDup idx /\ mtfc_num u false = length idx /\
  (forall v, List.In v idx <-> length v = dim /\ Peano.le (List.list_sum v) deg /\
     exists k cs, List.nth_error css k = Some cs /\ Peano.le (length cs) (List.nth k v 0%N)) /\
  columns_are (fun x d => mtfc_H ROps RFun jvpn u (md x) d false) be f x0 xf deg.+1 dim idx /\
  forall xi xi' z, surface jvpn u dim css phis xi z ->
    (surface jvpn u dim css phis xi' z <-> forall i v, List.nth_error idx i = Some v -> needed css v -> xi i = xi' i).
Proof.
move=> jvpn be f ns nC deg dim x0 xf w b u css phis [Hj [Hdim [Hx [Hu [HnC [Hcs Hph]]]]]] Hf.
exists (mK (MB f) dim deg nC false).
split; first exact: (proj1 (ProofNColl.g_K f nC deg dim false)).
split; first exact: (@o_num jvpn Hj be f ns nC deg dim x0 xf w b u css Hu Hdim HnC false).
split; first by move=> v; exact: (@o_mem be f ns nC deg dim x0 xf w b u css Hu Hdim HnC Hcs v).
split; first exact: (@o_cols be f ns nC deg dim x0 xf w b u css Hu Hdim HnC jvpn Hj).
move=> xi xi' z Hz; have E := @surface_Z jvpn Hj be f ns nC deg dim x0 xf w b u css phis Hu Hdim HnC _ _ Hz; split=> [Hz'|Ha].
  have E' := @surface_Z jvpn Hj be f ns nC deg dim x0 xf w b u css phis Hu Hdim HnC _ _ Hz'.
  have EZ X : Z f nC deg dim x0 xf css phis xi X = Z f nC deg dim x0 xf css phis xi' X by rewrite -E -E'.
  move=> i v Hi Hv.
  exact: (@Z_determines be f ns nC deg dim x0 xf w b u css phis Hu Hdim HnC Hx Hcs Hph Hf xi xi' EZ i v Hi (proj2 (@ess_spec dim css Hdim Hcs v) Hv)).
have [g [Hg Eg]] := @Z_surface jvpn Hj be f ns nC deg dim x0 xf w b u css phis Hu Hdim HnC xi'.
exists g; split=> // X; rewrite E -Eg.
apply: (@Z_depends be f ns nC deg dim x0 xf w b u css phis Hu Hdim HnC Hx Hcs Hph Hf) => i v Hi Hv.
exact: (Ha i v Hi (proj1 (@ess_spec dim css Hdim Hcs v) Hv)).
Qed.
Print Assumptions C96_which_matter.

(** In one variable all coefficients matter. *)
Theorem C96_one_variable : forall jvpn be f ns nC deg x0 xf w b u css phis,
  pde_setting jvpn be f ns nC deg 1 x0 xf w b u css phis -> f <> FS ->
  forall xi xi' z, surface jvpn u 1 css phis xi z ->
    (surface jvpn u 1 css phis xi' z <-> forall i, Peano.lt i (mtfc_num u false) -> xi i = xi' i).
Proof.
move=> jvpn be f ns nC deg x0 xf w b u css phis Hset Hf xi xi' z Hz.
have [idx [Hnd [Hn [Hm [_ Hall]]]]] := C96_which_matter Hset Hf.
have [_ [_ [_ [_ [_ [[Hl _] _]]]]]] := Hset.
rewrite (Hall xi xi' z Hz); split=> H i.
  rewrite Hn => Hi; have [v Hv] : exists v, List.nth_error idx i = Some v.
    by case E: (List.nth_error idx i) => [v|]; [exists v|move/List.nth_error_None: E; lia].
  apply: (H i v Hv); have [_ [_ [k [cs [Hk Hle]]]]] := proj1 (Hm v) (List.nth_error_In _ _ Hv).
  have Hlt k' cs' : List.nth_error css k' = Some cs' -> k' = 0%N.
    by move=> E; have := proj1 (List.nth_error_Some css k'); rewrite E Hl => /(_ ltac:(discriminate)); lia.
  move=> k' cs' Hk'; have E1 := Hlt _ _ Hk; have E2 := Hlt _ _ Hk'.
  by move: Hk Hk' Hle; rewrite E1 E2 => -> [->].
move=> v Hi _; apply: H; rewrite Hn; apply/List.nth_error_Some; rewrite Hi; discriminate.
Qed.
Print Assumptions C96_one_variable.

(** With more conditions than the degree no coefficient matters: the expression is fixed. *)
Theorem C96_none_matters : forall jvpn be f ns nC deg dim x0 xf w b u css phis,
  pde_setting jvpn be f ns nC deg dim x0 xf w b u css phis -> f <> FS ->
  Peano.lt deg (List.list_sum (List.map (@length _) css)) ->
  forall xi xi' z, surface jvpn u dim css phis xi z -> surface jvpn u dim css phis xi' z.
Proof.
move=> jvpn be f ns nC deg dim x0 xf w b u css phis Hset Hf Hs xi xi' z Hz.
have [idx [_ [_ [Hm [_ Hall]]]]] := C96_which_matter Hset Hf.
have [_ [_ [_ [_ [_ [[Hl _] _]]]]]] := Hset.
apply/(Hall xi xi' z Hz) => i v Hi Hn; exfalso.
have [Hv [Hd _]] := proj1 (Hm v) (List.nth_error_In _ _ Hi).
have Hle : forall (c : seq (seq pcond)) v', length v' = length c -> needed c v' -> Peano.le (List.list_sum (List.map (@length _) c)) (List.list_sum v').
  elim=> [|cs c IH] v' Ev H; first exact: Nat.le_0_l.
  case: v' Ev H => [//|a v'] [El] H.
  have H0 := H 0%N cs erefl; have H1 := IH v' El (fun k cs' E => H k.+1 cs' E).
  by move: H0 H1; rewrite /List.list_sum /=; lia.
have := Hle css v _ Hn; rewrite Hv Hl => /(_ erefl); lia.
Qed.
Print Assumptions C96_none_matters.

(** The coefficients are not determined by the expression: with a condition and a second variable there
    is always a coefficient that changes nothing. *)
Theorem C96_redundant_refuted : forall jvpn be f ns nC deg dim x0 xf w b u css phis,
  pde_setting jvpn be f ns nC deg dim x0 xf w b u css phis -> f <> FS -> Peano.le 2 dim -> (exists k c, among css k c) ->
  exists i, Peano.lt i (mtfc_num u false) /\
  forall xi xi' z, (forall j, j <> i -> xi j = xi' j) -> surface jvpn u dim css phis xi z -> surface jvpn u dim css phis xi' z.
Proof.
move=> jvpn be f ns nC deg dim x0 xf w b u css phis [Hj [Hdim [Hx [Hu [HnC [Hcs Hph]]]]]] Hf H2 [k [c [cs [Hk Hc]]]].
have Hne : cs <> [::] by move=> E; rewrite E in Hc.
have [v [Hv Hlt]] := @o_kept be f ns nC deg dim x0 xf w b u css Hu Hdim HnC Hcs k cs H2 Hk Hne.
have [i Hi] := List.In_nth_error _ _ Hv; exists i; split.
  rewrite (@o_num jvpn Hj be f ns nC deg dim x0 xf w b u css Hu Hdim HnC false).
  by apply/List.nth_error_Some; rewrite Hi.
move=> xi xi' z Hxi Hz.
have E := @surface_Z jvpn Hj be f ns nC deg dim x0 xf w b u css phis Hu Hdim HnC _ _ Hz.
have [g [Hg Eg]] := @Z_surface jvpn Hj be f ns nC deg dim x0 xf w b u css phis Hu Hdim HnC xi'.
exists g; split=> // X.
by rewrite E -Eg; apply: (@Z_redundant be f ns nC deg dim x0 xf w b u css phis Hu Hdim HnC Hx Hcs Hph v k cs i).
Qed.
Print Assumptions C96_redundant_refuted.

(** z(0, y) = 0, z(x, 0) = x, degree two: of the five coefficients only that of xy matters *)
Example C96_case : exists u, mkm Py (MB CP) [:: 3; 3]%N (MList [:: EInt (Zpos xH); EInt (Zpos xH)]) 2 2 [:: R0; R0] [:: R1; R1] [::] [::] = Some u /\
  exists i, Peano.lt i (mtfc_num u false) /\
  forall xi xi' z, surface cjvpn u 2 ex_css ex_phis xi z -> (surface cjvpn u 2 ex_css ex_phis xi' z <-> xi i = xi' i).
Proof.
have [u [Hu Hset]] := ex_setting; exists u; split; first exact: Hu.
have Hf : CP <> FS by [].
have [idx [Hnd [Hn [Hm [_ Hall]]]]] := C96_which_matter Hset Hf.
have [i Hi] : exists i, List.nth_error idx i = Some [:: 1; 1]%N.
  apply: List.In_nth_error; apply/Hm; split=> //; split; first by rewrite /=; lia.
  by exists 0%N; eexists; split; [reflexivity|rewrite /=; lia].
exists i; split; first by rewrite Hn; apply/List.nth_error_Some; rewrite Hi.
move=> xi xi' z Hz; rewrite (Hall xi xi' z Hz); split=> [H|E j v Hj Hv].
  by apply: (H i _ Hi) => [[|[|k]]] cs //=; [case=> <- /=; lia|case=> <- /=; lia|case: k].
have [Hl [Hd _]] := proj1 (Hm v) (List.nth_error_In _ _ Hj).
have Ev : v = [:: 1; 1]%N.
  case: v Hl Hd Hv {Hj} => [|a [|c [|]]] //= _ Hd Hv.
  have := Hv 0%N _ erefl; have := Hv 1%N _ erefl; rewrite /= => H1 H2; congr [:: _; _]; lia.
have -> : j = i; last exact: E.
by apply: (proj1 (List.NoDup_nth_error idx) Hnd); [apply/List.nth_error_Some; rewrite Hj|rewrite Hi Hj Ev].
Qed.
