(** LS and NLLS on dictionaries of unknowns and affine residuals (C39). *)
From Coq Require List.
From mathcomp Require Import all_ssreflect all_algebra.
From Verif Require Import Base ModelDict SpecDict ProofDict ModelSolveDict SpecSolveDict ProofSolveDict
  ModelAffineDict SpecAffineDict ProofAffineDict.
Set Implicit Arguments.
Unset Strict Implicit.
Unset Printing Implicit Defensive.
Import GRing.Theory Num.Theory.
Local Open Scope ring_scope.

Lemma wf_1d (F K : Type) (c : seq (K * @arr F)) : List.Forall (fun p => is1d (snd p)) c -> List.Forall (fun p => wf (snd p)) c.
Proof. by apply: List.Forall_impl => p; apply: is1d_wf. Qed.

(** C39: LS on a TFCDict of one-dimensional arrays returns a dictionary with the same keys and
    shapes whose residual no such dictionary undercuts, and leaves the argument alone. *)
Theorem C39_ls_partial : forall (F : realFieldType) (K : Type) (keq : K -> K -> bool) jacfwd res h (d : @tdict F K) c m M b,
  keq_ok keq -> fresh d_refresh h d -> contents h d = Some c -> c <> [::] ->
  List.Forall (fun p => is1d (snd p)) c -> affine_on jacfwd res c m M b ->
  exists h' d' c', LS_dict keq 0 +%R -%R (@l_solve F) jacfwd Plain h d res = Some (h', d') /\
    contents h' d' = Some c' /\ same_form c c' /\ best res c' /\ contents h' d = Some c.
Proof.
move=> F K keq jacfwd res h d c m M b Hk Hf Hc Hn H1 Hr.
have [_ Hj] := Hr _ (zero_view_form 0 c).
have [h' [d' [c' [E [Cc [Cd [Fc P]]]]]]] :=
  ls_plain keq Hk 0 +%R -%R (@l_solve F) jacfwd h d c res m M (@solve_len F) Hf Hc Hn H1 Hj.
exists h', d', c'; split=> //; split=> //; split=> //; split=> //.
exact: (ls_best (wf_1d H1) Hr Fc P).
Qed.
Print Assumptions C39_ls_partial.

(** The same for a TFCDictRobust with a single entry of any shape but (). *)
Theorem C39_robust_ls_partial : forall (F : realFieldType) (K : Type) (keq : K -> K -> bool) jacfwd res h (d : @tdict F K) k a m M b,
  keq_ok keq -> fresh r_refresh h d -> contents h d = Some [:: (k, a)] ->
  wf a -> a_shape a <> [::] -> affine_on jacfwd res [:: (k, a)] m M b ->
  exists h' d' c', LS_dict keq 0 +%R -%R (@l_solve F) jacfwd Robust h d res = Some (h', d') /\
    contents h' d' = Some c' /\ same_form [:: (k, a)] c' /\ best res c' /\ contents h' d = Some [:: (k, a)].
Proof.
move=> F K keq jacfwd res h d k a m M b Hk Hf Hc W Hs Hr.
have [_ Hj] := Hr _ (zero_view_form 0 _).
have [h' [d' [c' [E [Cc [Cd [Fc P]]]]]]] :=
  ls_robust_one keq Hk 0 +%R -%R (@l_solve F) jacfwd h d k a res m M (@solve_len F) Hf Hc W Hs Hj.
exists h', d', c'; split=> //; split=> //; split=> //; split=> //.
by apply: (ls_best _ Hr Fc P); constructor.
Qed.
Print Assumptions C39_robust_ls_partial.

(** One NLLS iteration on a TFCDict of one-dimensional arrays, or on a TFCDictRobust of jax
    arrays of any shapes but (): the step computed in packed form is subtracted from the right
    entries, so for an affine residual one step reaches the best dictionary. *)
Theorem C39_nlls_step_partial : forall (F : realFieldType) (K : Type) (keq : K -> K -> bool) cl jacfwd res h (d : @tdict F K) c m M b,
  keq_ok keq -> contents h d = Some c -> c <> [::] -> affine_on jacfwd res c m M b ->
  match cl with
  | Plain => fresh d_refresh h d /\ List.Forall (fun p => is1d (snd p)) c
  | Robust => fresh r_refresh h d /\ List.forallb is_jax (List.map snd (td_items d)) = true /\
              List.Forall (fun p => wf (snd p) /\ a_shape (snd p) <> [::]) c
  end ->
  exists d' c' dxi, NLLS_step keq (fun x y => x - y) (@l_solve F) jacfwd cl h d res = Some (h, d', dxi) /\
    contents h d' = Some c' /\ same_form c c' /\ best res c' /\
    packed c' = zip2 (fun x y => x - y) (packed c) dxi.
Proof.
move=> F K keq [] jacfwd res h d c m M b Hk Hc Hn Hr.
  move=> [Hf H1]; have W := wf_1d H1.
  have [_ Hj] := Hr _ (form_self W).
  have [d' [c' [dxi [E [Cc [Fc [Ed P]]]]]]] :=
    step_plain keq Hk (fun x y => x - y) (@l_solve F) jacfwd h d c res m M (@solve_len F) Hf Hc Hn H1 Hj.
  exists d', c', dxi; split=> //; split=> //; split=> //; split=> //.
  by rewrite Ed in P; apply: (step_best W Hr Fc P).
move=> [Hf [Hx H1]].
have W : List.Forall (fun p => wf (snd p)) c by move: H1; apply: List.Forall_impl => p [].
have [_ Hj] := Hr _ (form_self W).
have [d' [c' [dxi [E [Cc [Fc [Ed P]]]]]]] :=
  step_robust keq Hk (fun x y => x - y) (@l_solve F) jacfwd h d c res m M (@solve_len F) Hf Hc Hn Hx H1 Hj.
exists d', c', dxi; split=> //; split=> //; split=> //; split=> //.
by rewrite Ed in P; apply: (step_best W Hr Fc P).
Qed.
Print Assumptions C39_nlls_step_partial.

(** The hypotheses hold of a real dictionary and residual. *)
Example C39_case_affine :
  let c := [:: (5%N, flat [:: 1; 2%:R]); (3%N, flat [:: 0])] : seq (nat * @arr rat) in
  let M := fun r (k : nat) j => (r + k + j)%:R : rat in
  let jacfwd := fun (_ : seq (nat * @arr rat) -> seq rat) c => List.map (fun p => (fst p, block 2 M p)) c in
  List.Forall (fun p => is1d (snd p)) c /\
  @affine_on [realFieldType of rat] nat jacfwd (affine_res (F := [realFieldType of rat]) 2 M (fun r => r%:R)) c 2 M (fun r => r%:R) /\
  affine_res (F := [realFieldType of rat]) 2 M (fun r => r%:R) c = [:: 17%:R; 21%:R].
Proof.
split; first by repeat constructor.
split; first by move=> c' _; split.
by rewrite /affine_res /= !big_cons !big_nil !big_ord_recl !big_ord0 /=.
Qed.
