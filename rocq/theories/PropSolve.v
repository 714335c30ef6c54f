(** C40-C43, C61: the nonlinear and the class solvers, for any arithmetic. *)
From Coq Require Import List Bool ZArith Lia.
From Verif Require Import Base ModelPe SpecPe ModelSolve SpecSolve ProofSolve.
Import ListNotations.

(** The residual and update functions NLLS is asked to use: [r x = res(x, *args)] and
    [upd x = method(J(x, *args), res(x, *args))]. *)
Definition means {U V D M} (pinv_dot lstsq : M -> V -> D) jac (res : list U -> V) (J : option (list U -> M))
    (args : list U) (m : method_) (r : U -> V) (upd : U -> D) : Prop :=
  (forall x, r x = res (x :: args)) /\
  match m with
  | Pinv => forall x, upd x = pinv_dot ((match J with Some j => j | None => jac res end) (x :: args)) (res (x :: args))
  | Lstsq => forall x, upd x = lstsq ((match J with Some j => j | None => jac res end) (x :: args)) (res (x :: args))
  | OtherMethod => False
  end.
Lemma means_solve {U V D M} pinv_dot lstsq jac (res : list U -> V) (J : option (list U -> M)) args m (r : U -> V) (upd : U -> D) :
  means pinv_dot lstsq jac res J args m r upd -> exists s, solve_fun pinv_dot lstsq m = Some s /\
    (forall x, upd x = the_upd jac s res J args x).
Proof. intros [_ H]. destruct m; [exists pinv_dot|exists lstsq|destruct H]; split; try reflexivity; exact H. Qed.
Lemma iterate_ext {U D} (sub : U -> D -> U) upd upd' : (forall x, upd x = upd' x) ->
  forall k x, iterate sub upd k x = iterate sub upd' k x.
Proof. intros H. induction k as [|k IH]; intros x; cbn; [reflexivity|]. rewrite IH, H. reflexivity. Qed.
Lemma last_ext {U D} (sub : U -> D -> U) upd upd' d : (forall x, upd x = upd' x) ->
  forall k x, last_step sub upd d k x = last_step sub upd' d k x.
Proof. intros H [|k] x; cbn; [reflexivity|]. rewrite (iterate_ext _ _ _ H), H. reflexivity. Qed.

Section Claims.
Context {U V D M T : Type} (pinv_dot lstsq : M -> V -> D) (subX : U -> D -> option U) (sub : U -> D -> U).
Context (ones : U -> D) (maxabsV : V -> T) (maxabsD : D -> T) (gt : T -> T -> bool) (jac : (list U -> V) -> list U -> M).
Notation nlls := (NLLS pinv_dot lstsq subX ones maxabsV maxabsD gt jac).
Notation asked := (means pinv_dot lstsq jac).
(** positions of constant arguments as the solvers handle them correctly (C37) *)
Definition good_consts (args : list U) (consts : list nat) : Prop :=
  ascending consts /\ List.Forall (fun k => 1 <= k <= length args) consts.

Lemma nlls_means fuel xi res args consts J cond tol maxIter m timer printOut r upd :
  asked res J args m r upd -> (forall x d, subX x d = Some (sub x d)) -> good_consts args consts ->
  (maxIter <= Z.of_nat fuel)%Z -> 1 <= fuel ->
  exists k, first_stop sub upd r maxabsV maxabsD gt tol maxIter (ones xi) xi k /\
    exists out, fst (nlls fuel xi res args consts J cond None tol maxIter m timer printOut) =
      NReturns (NResult (iterate sub upd k xi) (Z.of_nat k) out) /\
    (timer = false -> out = if printOut then report sub upd r maxabsV xi k else []) /\
    (timer = true -> printOut = true -> gt (maxabsV (r xi)) tol = true -> gt (maxabsD (ones xi)) tol = true ->
       out = ((maxIter - 1)%Z, maxabsV (r (iterate sub upd 1 xi))) :: report sub upd r maxabsV xi k).
Proof.
  intros Hm Hs [Ha Hb] Hf H1. destruct (means_solve _ _ _ _ _ _ _ _ _ Hm) as (s & Es & Eu). destruct Hm as [Er _].
  destruct (nlls_spec pinv_dot lstsq subX ones maxabsV maxabsD gt jac fuel xi res args consts J cond tol maxIter m timer printOut s sub
      Es Hs Ha Hb Hf H1) as (k & Hk & E).
  assert (Ei : forall k x, iterate sub (the_upd jac s res J args) k x = iterate sub upd k x) by (intros; apply iterate_ext; intros; symmetry; apply Eu).
  assert (Hst : forall j, stops sub (the_upd jac s res J args) (fun x => res (x :: args)) maxabsV maxabsD gt tol maxIter (ones xi) xi j <->
      stops sub upd r maxabsV maxabsD gt tol maxIter (ones xi) xi j).
  { intros j. unfold stops. rewrite Ei, <- Er, (last_ext sub _ upd) by (intros; symmetry; apply Eu). tauto. }
  assert (Hrep : report sub (the_upd jac s res J args) (fun x => res (x :: args)) maxabsV xi k = report sub upd r maxabsV xi k).
  { unfold report. apply map_ext. intros j. rewrite Ei, Er. reflexivity. }
  exists k. split.
  { destruct Hk as [H2 H3]. split; [apply Hst; assumption|]. intros j Hj. rewrite <- Hst. apply H3. assumption. }
  eexists. rewrite E. cbn [fst]. rewrite Ei. split; [reflexivity|]. rewrite Hrep. split.
  - intros ->. reflexivity.
  - intros -> -> H2 H3. rewrite <- Er, H2, H3, Ei, <- Er. reflexivity.
Qed.

(** C40: NLLS returns; its answer is the iterate at the count it returns; it stopped because
    the residual or the last step is not above tol, or the iterations are used up; and no
    reason to stop occurred earlier.  Missing: tolerances not below the initial "step" of
    ones (next theorem). *)
Theorem C40_stops_partial : forall fuel xi res args consts J cond tol maxIter m timer printOut r upd,
  asked res J args m r upd -> (forall x d, subX x d = Some (sub x d)) -> good_consts args consts ->
  (0 <= maxIter <= Z.of_nat fuel)%Z -> 1 <= fuel -> gt (maxabsD (ones xi)) tol = true ->
  exists out k, fst (nlls fuel xi res args consts J cond None tol maxIter m timer printOut) =
      NReturns (NResult (iterate sub upd k xi) (Z.of_nat k) out) /\ (Z.of_nat k <= maxIter)%Z /\
    (gt (maxabsV (r (iterate sub upd k xi))) tol = false \/ Z.of_nat k = maxIter \/
     exists j, k = S j /\ gt (maxabsD (upd (iterate sub upd j xi))) tol = false) /\
    (forall j, j < k -> gt (maxabsV (r (iterate sub upd j xi))) tol = true /\
       (1 <= j -> gt (maxabsD (upd (iterate sub upd (j - 1) xi))) tol = true)).
Proof.
  intros fuel xi res args consts J cond tol maxIter m timer printOut r upd Hm Hs Hc Hf H1 Hg.
  destruct (nlls_means fuel xi res args consts J cond tol maxIter m timer printOut r upd Hm Hs Hc) as (k & [Hk Hn] & out & E & _); [lia|assumption|].
  exists out, k. split; [assumption|].
  assert (Hle : (Z.of_nat k <= maxIter)%Z).
  { destruct (Z_le_gt_dec (Z.of_nat k) maxIter); [assumption|]. exfalso. apply (Hn (Z.to_nat maxIter)); [lia|]. right. left. lia. }
  split; [assumption|]. split.
  - destruct Hk as [Hk|[Hk|Hk]]; [left; assumption|right; left; lia|]. destruct k as [|j]; cbn in Hk; [congruence|].
    right. right. exists j. split; [reflexivity|assumption].
  - intros j Hj. specialize (Hn j Hj). unfold stops in Hn. split.
    + destruct (gt (maxabsV (r (iterate sub upd j xi))) tol); [reflexivity|exfalso; apply Hn; left; reflexivity].
    + intros H. destruct j as [|j]; [lia|]. cbn in Hn. replace (S j - 1) with j by lia.
      destruct (gt (maxabsD (upd (iterate sub upd j xi))) tol); [reflexivity|exfalso; apply Hn; right; right; reflexivity].
Qed.
(** A tolerance of one or more (the initial "step" of ones is not above it): NLLS returns the
    start unchanged after no iteration, whatever the residual is there. *)
Theorem C40_large_tolerance_refuted : forall fuel xi res args consts J cond tol maxIter m timer printOut r upd,
  asked res J args m r upd -> (forall x d, subX x d = Some (sub x d)) -> good_consts args consts ->
  (maxIter <= Z.of_nat fuel)%Z -> 1 <= fuel -> gt (maxabsD (ones xi)) tol = false ->
  exists out, fst (nlls fuel xi res args consts J cond None tol maxIter m timer printOut) = NReturns (NResult xi 0 out).
Proof.
  intros fuel xi res args consts J cond tol maxIter m timer printOut r upd Hm Hs Hc Hf H1 Hg.
  destruct (nlls_means fuel xi res args consts J cond tol maxIter m timer printOut r upd Hm Hs Hc) as (k & [Hk Hn] & out & E & _); [lia|assumption|].
  exists out. destruct k as [|k]; [exact E|]. exfalso. apply (Hn 0); [lia|]. right. right. exact Hg.
Qed.

(** C41: the caller's condition plays no role: with one that never holds, iterations are still
    made as long as the default criteria ask for them, and with one that always holds none is
    made when they do not. *)
Theorem C41_cond_ignored_refuted : forall fuel xi res args consts J tol maxIter m timer printOut r upd,
  asked res J args m r upd -> (forall x d, subX x d = Some (sub x d)) -> good_consts args consts ->
  (1 <= maxIter <= Z.of_nat fuel)%Z ->
  exists it xi' out, fst (nlls fuel xi res args consts J (Some (fun _ => false)) None tol maxIter m timer printOut)
      = NReturns (NResult xi' it out) /\
    fst (nlls fuel xi res args consts J (Some (fun _ => true)) None tol maxIter m timer printOut)
      = NReturns (NResult xi' it out) /\
    (gt (maxabsV (r xi)) tol = true -> gt (maxabsD (ones xi)) tol = true -> (0 < it)%Z) /\
    (gt (maxabsV (r xi)) tol = false -> it = 0%Z).
Proof.
  intros fuel xi res args consts J tol maxIter m timer printOut r upd Hm Hs Hc Hf.
  destruct (nlls_means fuel xi res args consts J (Some (fun _ => false)) tol maxIter m timer printOut r upd Hm Hs Hc) as (k & [Hk Hn] & out & E & _); [lia|lia|].
  exists (Z.of_nat k), (iterate sub upd k xi), out. split; [exact E|]. split; [exact E|]. split.
  - intros H1 H2. destruct k; [|lia]. destruct Hk as [Hk|[Hk|Hk]]; cbn in Hk; try congruence. lia.
  - intros H1. destruct k; [reflexivity|]. exfalso. apply (Hn 0); [lia|]. left. exact H1.
Qed.

(** C42: neither timing nor printing nor the caller's condition changes the answer. *)
Theorem C42_options_irrelevant : forall fuel xi res args consts J cond cond' tol maxIter m timer timer' printOut printOut' r upd,
  asked res J args m r upd -> (forall x d, subX x d = Some (sub x d)) -> good_consts args consts ->
  (maxIter <= Z.of_nat fuel)%Z -> 1 <= fuel ->
  same_answer (fst (nlls fuel xi res args consts J cond None tol maxIter m timer printOut))
              (fst (nlls fuel xi res args consts J cond' None tol maxIter m timer' printOut')).
Proof.
  intros fuel xi res args consts J cond cond' tol maxIter m timer timer' printOut printOut' r upd Hm Hs Hc Hf H1.
  destruct (nlls_means fuel xi res args consts J cond tol maxIter m timer printOut r upd Hm Hs Hc Hf H1) as (k & Hk & out & E & _).
  destruct (nlls_means fuel xi res args consts J cond' tol maxIter m timer' printOut' r upd Hm Hs Hc Hf H1) as (k' & Hk' & out' & E' & _).
  rewrite E, E'. rewrite (first_stop_unique maxabsV maxabsD gt sub upd r tol maxIter _ _ _ _ Hk Hk'). split; reflexivity.
Qed.

(** C43, nonlinear: every call of [run] on a NllsClass object, after any earlier calls, gives
    the answer NLLS gives for that start, the constants of the constructor and the arguments
    of the call. *)
Theorem C43_nlls_run : forall fuel xi0 res args consts J cond tol maxIter m timer printOut o,
  m <> OtherMethod -> (forall x d, subX x d = Some (sub x d)) -> good_consts args consts ->
  (maxIter <= Z.of_nat fuel)%Z -> 1 <= fuel ->
  NllsClass_init pinv_dot lstsq jac xi0 res args consts J cond None tol maxIter m timer printOut = Some o ->
  forall calls, List.Forall (fun c => length (snd c) = length args - length consts) calls ->
  Forall2 (fun c answer => forall cond' timer' printOut',
     same_answer answer (fst (nlls fuel (fst c) res (fill consts 1 args (snd c)) consts J cond' None tol maxIter m timer' printOut')))
    calls (nruns subX ones maxabsV maxabsD gt fuel o calls).
Proof.
  intros fuel xi0 res args consts J cond tol maxIter m timer printOut o Hm Hs [Ha Hb] Hf H1 Hi calls Hc.
  assert (exists s, solve_fun pinv_dot lstsq m = Some s) as [s Es] by (destruct m; [eexists; reflexivity|eexists; reflexivity|congruence]).
  pose proof (nruns_spec pinv_dot lstsq subX ones maxabsV maxabsD gt jac fuel xi0 res args consts J cond tol maxIter m timer printOut s sub o
    Es Hs Ha Hb Hf H1 Hi calls Hc (no_compiled o)) as H.
  destruct o. exact H.
Qed.

(** C61: with printing on and no timer there is one line for each iteration performed, its
    number counted from 0 with the size of the residual after it. *)
Theorem C61_one_line_per_iteration_partial : forall fuel xi res args consts J cond tol maxIter m r upd,
  asked res J args m r upd -> (forall x d, subX x d = Some (sub x d)) -> good_consts args consts ->
  (maxIter <= Z.of_nat fuel)%Z -> 1 <= fuel ->
  exists k, fst (nlls fuel xi res args consts J cond None tol maxIter m false true) =
      NReturns (NResult (iterate sub upd k xi) (Z.of_nat k)
        (map (fun j => (Z.of_nat j, maxabsV (r (iterate sub upd (S j) xi)))) (seq 0 k))).
Proof.
  intros fuel xi res args consts J cond tol maxIter m r upd Hm Hs Hc Hf H1.
  destruct (nlls_means fuel xi res args consts J cond tol maxIter m false true r upd Hm Hs Hc Hf H1) as (k & _ & out & E & Ho & _).
  exists k. rewrite E. rewrite Ho by reflexivity. reflexivity.
Qed.
(** With the timer on as well, a line for an iteration that is not part of the run comes
    first whenever an iteration is made at all. *)
Theorem C61_timed_refuted : forall fuel xi res args consts J cond tol maxIter m r upd,
  asked res J args m r upd -> (forall x d, subX x d = Some (sub x d)) -> good_consts args consts ->
  (maxIter <= Z.of_nat fuel)%Z -> 1 <= fuel ->
  gt (maxabsV (r xi)) tol = true -> gt (maxabsD (ones xi)) tol = true ->
  exists k, fst (nlls fuel xi res args consts J cond None tol maxIter m true true) =
      NReturns (NResult (iterate sub upd k xi) (Z.of_nat k)
        (((maxIter - 1)%Z, maxabsV (r (iterate sub upd 1 xi))) ::
         map (fun j => (Z.of_nat j, maxabsV (r (iterate sub upd (S j) xi)))) (seq 0 k))).
Proof.
  intros fuel xi res args consts J cond tol maxIter m r upd Hm Hs Hc Hf H1 G1 G2.
  destruct (nlls_means fuel xi res args consts J cond tol maxIter m true true r upd Hm Hs Hc Hf H1) as (k & _ & out & E & _ & Ho).
  exists k. rewrite E. rewrite Ho by (reflexivity || assumption). reflexivity.
Qed.
End Claims.
Print Assumptions C40_stops_partial.
Print Assumptions C40_large_tolerance_refuted.
Print Assumptions C41_cond_ignored_refuted.
Print Assumptions C42_options_irrelevant.
Print Assumptions C43_nlls_run.
Print Assumptions C61_one_line_per_iteration_partial.
Print Assumptions C61_timed_refuted.

(** C43: the function and the class solvers accept the same solution methods, the two documented
    ones; with any other neither returns. *)
Theorem C43_methods : forall (U V D M T : Type) (pinv_dot lstsq : M -> V -> D) opp (addX subX : U -> D -> option U) zeros ones
    (maxabsV : V -> T) (maxabsD : D -> T) gt jac fuel xi (res : list U -> V) args consts (J : option (list U -> M)) cond body tol maxIter m timer printOut,
  ascending consts -> List.Forall (fun k => 1 <= k <= length args) consts ->
  (LsClass_init pinv_dot lstsq opp jac xi res args consts J m timer = None <-> (m <> Pinv /\ m <> Lstsq)) /\
  (NllsClass_init pinv_dot lstsq jac xi res args consts J cond body tol maxIter m timer printOut = None <-> (m <> Pinv /\ m <> Lstsq)) /\
  (m <> Pinv -> m <> Lstsq ->
    LS pinv_dot lstsq opp addX zeros jac xi res args consts J m timer = None /\
    fst (NLLS pinv_dot lstsq subX ones maxabsV maxabsD gt jac fuel xi res args consts J cond body tol maxIter m timer printOut) = NRaises).
Proof.
  intros until printOut. intros Ha Hb.
  assert (HW : forall A (g : list U -> A), exists w, wire xi args consts g = Some w).
  { intros A g. destruct (wire_fill xi args consts g Ha Hb) as (w & E & _). exists w. exact E. }
  split; [|split].
  - unfold LsClass_init, solve_fun. destruct m; cbn [bind].
    + destruct (HW _ (ls_closure opp jac res J pinv_dot)) as [w ->]. cbn. split; [discriminate|tauto].
    + destruct (HW _ (ls_closure opp jac res J lstsq)) as [w ->]. cbn. split; [discriminate|tauto].
    + split; [split; discriminate|reflexivity].
  - unfold NllsClass_init, solve_fun. destruct (HW _ res) as [w Ew]. destruct m; cbn [bind].
    + destruct (HW _ (nlls_closure jac res J pinv_dot)) as [w' ->]. cbn [bind]. rewrite Ew. cbn. split; [discriminate|tauto].
    + destruct (HW _ (nlls_closure jac res J lstsq)) as [w' ->]. cbn [bind]. rewrite Ew. cbn. split; [discriminate|tauto].
    + split; [split; discriminate|reflexivity].
  - intros H1 H2. destruct m; [congruence|congruence|]. split; reflexivity.
Qed.
Print Assumptions C43_methods.

(** C43, linear: without the timer LsClass.run raises, whatever the problem. *)
Theorem C43_ls_without_timer_refuted : forall (U V D M : Type) (pinv_dot lstsq : M -> V -> D) opp
    (addX : U -> D -> option U) jac inplace zXi res args consts (J : option (list U -> M)) m o cl x rest,
  LsClass_init pinv_dot lstsq opp jac zXi res args consts J m false = Some (o, cl) ->
  LsClass_run addX inplace o x rest = None.
Proof.
  intros U V D M pinv_dot lstsq opp addX jac inplace zXi res args consts J m o cl x rest H. unfold LsClass_init in H.
  destruct (solve_fun pinv_dot lstsq m); [|discriminate]. cbn [bind] in H.
  destruct (wire zXi args consts (ls_closure opp jac res J d)); [|discriminate]. cbn [bind] in H. injection H as <- <-. reflexivity.
Qed.
Print Assumptions C43_ls_without_timer_refuted.
(** With it, a dictionary start (one that [+=] updates in place) is changed: it becomes the
    answer, so a second call does not start from the same value. *)
Theorem C43_ls_start_changed_refuted : forall (U V D M : Type) (pinv_dot lstsq : M -> V -> D) opp
    (addX : U -> D -> option U) jac inplace zXi res args (J : option (list U -> M)) m o cl x d r,
  LsClass_init pinv_dot lstsq opp jac zXi res args [] J m true = Some (o, cl) ->
  means pinv_dot lstsq jac (fun l => opp (res l)) (Some (match J with Some j => j | None => jac res end)) args m (fun x => opp (res (x :: args))) d ->
  addX x (d x) = Some r -> inplace x = true ->
  exists o', LsClass_run addX inplace o x args = Some (r, r, o').
Proof.
  intros U V D M pinv_dot lstsq opp addX jac inplace zXi res args J m o cl x d r Hi [_ Hd] Hr Hin.
  unfold LsClass_init in Hi. destruct m; [| |destruct Hd]; cbn in Hi; injection Hi as <- <-;
    (unfold LsClass_run; cbn -[ls_closure]; unfold ls_closure; rewrite <- Hd, Hr; cbn; rewrite Hin; eexists; reflexivity).
Qed.
Print Assumptions C43_ls_start_changed_refuted.

(** A toy problem in integers: 2 x - 6 = 0, [upd x = (2 x - 6) / 2]. *)
Local Open Scope Z_scope.
Definition toy_nlls := @NLLS Z Z Z Z Z (fun j r => r / j) (fun j r => r / j) (fun x d => Some (x - d)) (fun _ => 1) Z.abs Z.abs Z.gtb (fun _ _ => 2).
Definition toy_res (l : list Z) : Z := match l with x :: a :: _ => 2 * x - a | _ => 0 end.
Example C40_case :
  toy_nlls 50%nat 100 toy_res [6] [] None None None 0 50 Pinv false true = (NReturns (NResult 3 1 [(0, 0)]), []) /\
  toy_nlls 50%nat 100 toy_res [6] [1%nat] None (Some (fun _ => false)) None 0 50 Lstsq true true = (NReturns (NResult 3 1 [(49, 0); (0, 0)]), [1%nat]) /\
  toy_nlls 50%nat 100 toy_res [6] [] None None None 1 50 Pinv false true = (NReturns (NResult 100 0 []), []).
Proof. repeat split; vm_compute; reflexivity. Qed.
Example C43_case :
  exists o, @NllsClass_init Z Z Z Z Z (fun j r => r / j) (fun j r => r / j) (fun _ _ => 2) 0 toy_res [6] [] None None None 0 50 Pinv true false = Some o /\
  nruns (fun x d => Some (x - d)) (fun _ => 1) Z.abs Z.abs Z.gtb 50 o [(100, [6]); (7, [20])] =
  [NReturns (NResult 3 1 []); NReturns (NResult 10 1 [])].
Proof. eexists. split; [reflexivity|]. vm_compute. reflexivity. Qed.
