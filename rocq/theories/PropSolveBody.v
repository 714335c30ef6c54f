(** C43 for loop bodies supplied by the caller. *)
From Coq Require Import List Bool ZArith Lia.
From Verif Require Import Base ModelPe SpecPe ProofPe ModelSolve SpecSolve ProofSolve PropSolve.
Import ListNotations.

Section Body.
Context {U V D M T : Type} (pinv_dot lstsq : M -> V -> D) (subX : U -> D -> option U).
Context (ones : U -> D) (maxabsV : V -> T) (maxabsD : D -> T) (gt : T -> T -> bool) (jac : (list U -> V) -> list U -> M).
Notation nlls := (NLLS pinv_dot lstsq subX ones maxabsV maxabsD gt jac).
Notation nval := (@nval U D T).
Lemma while_ext c c' (b b' : nval -> option nval) : (forall v, c v = c' v) -> (forall v, b v = b' v) ->
  forall fuel v, while_ fuel c b v = while_ fuel c' b' v.
Proof.
  intros Hc Hb. induction fuel as [|fuel IH]; intros v; cbn; rewrite Hc; destruct (c' v) as [[|]|]; try reflexivity.
  rewrite Hb. destruct (b' v); [apply IH|reflexivity].
Qed.
Lemma loop_ext fuel ls ls' res res' (body : option (nval -> option nval)) tol maxIter printOut a a' v :
  (forall x, ls (x :: a) = ls' (x :: a')) -> (forall x, res (x :: a) = res' (x :: a')) ->
  nlls_loop subX maxabsV maxabsD gt fuel ls res body tol maxIter printOut a v
  = nlls_loop subX maxabsV maxabsD gt fuel ls' res' body tol maxIter printOut a' v.
Proof.
  intros Hl Hr. unfold nlls_loop. apply while_ext.
  - intros w. unfold cond_. rewrite Hr. reflexivity.
  - destruct body; [reflexivity|]. intros w. unfold body_. rewrite Hl. destruct (ls' _); [|reflexivity]. cbn [bind].
    destruct (subX _ _); [|reflexivity]. cbn [bind]. rewrite Hr. reflexivity.
Qed.
Lemma run_ext fuel ls ls' res res' (body : option (nval -> option nval)) tol maxIter printOut warm a a' x0 :
  (forall x, ls (x :: a) = ls' (x :: a')) -> (forall x, res (x :: a) = res' (x :: a')) ->
  nlls_run subX ones maxabsV maxabsD gt fuel ls res body tol maxIter printOut warm a x0
  = nlls_run subX ones maxabsV maxabsD gt fuel ls' res' body tol maxIter printOut warm a' x0.
Proof.
  intros Hl Hr. unfold nlls_run.
  rewrite (loop_ext fuel ls ls' res res' body tol maxIter printOut a a' _ Hl Hr).
  rewrite (loop_ext fuel ls ls' res res' body tol maxIter printOut a a' (NVal x0 (ones x0) 0 []) Hl Hr).
  destruct warm; [|reflexivity].
  destruct (nlls_loop subX maxabsV maxabsD gt fuel ls' res' body tol maxIter printOut a' (NVal x0 (ones x0) (maxIter - 1) [])); try reflexivity.
  rewrite (loop_ext fuel ls ls' res res' body tol maxIter printOut a a' _ Hl Hr). reflexivity.
Qed.

(** Whatever the body (or none), the calls of [run] on a NllsClass object give exactly what NLLS gives with
    the same body, the constants of the constructor and the arguments of the call; only the first call
    can be timed. *)
Theorem C43_user_body : forall fuel xi0 res args consts J cond body tol maxIter m timer printOut o,
  good_consts args consts ->
  NllsClass_init pinv_dot lstsq jac xi0 res args consts J cond body tol maxIter m timer printOut = Some o ->
  forall c calls, List.Forall (fun c => length (snd c) = length args - length consts) (c :: calls) ->
  nruns subX ones maxabsV maxabsD gt fuel o (c :: calls)
  = fst (nlls fuel (fst c) res (fill consts 1 args (snd c)) consts J cond body tol maxIter m timer printOut)
    :: map (fun c => fst (nlls fuel (fst c) res (fill consts 1 args (snd c)) consts J cond body tol maxIter m false printOut)) calls.
Proof.
  intros fuel xi0 res args consts J cond body tol maxIter m timer printOut o [Ha Hb] Hi c calls Hc.
  unfold NllsClass_init in Hi. destruct (solve_fun pinv_dot lstsq m) as [s|] eqn:Hm; [|discriminate]. cbn [bind] in Hi.
  destruct (wire_fill xi0 args consts (nlls_closure jac res J s) Ha Hb) as (wl & El & _ & Hl).
  destruct (wire_fill xi0 args consts res Ha Hb) as (wr & Er & _ & Hr).
  rewrite El in Hi. cbn [bind] in Hi. rewrite Er in Hi. cbn [bind] in Hi. injection Hi as <-.
  assert (Hone : forall c warm, length (snd c) = length args - length consts ->
    nlls_run subX ones maxabsV maxabsD gt fuel (w_fun wl) (w_fun wr) body tol maxIter printOut warm (snd c) (fst c)
    = fst (nlls fuel (fst c) res (fill consts 1 args (snd c)) consts J cond body tol maxIter m warm printOut)).
  { intros [x rest] warm Hlen. cbn [fst snd] in *. set (args' := fill consts 1 args rest).
    assert (Hl' : length args' = length args) by (apply fill_length1; assumption).
    unfold NLLS. rewrite Hm.
    destruct (wire_asc x args' consts (nlls_closure jac res J s) Ha) as (wl' & El' & Hl1 & _ & Eal); [rewrite Hl'; assumption|].
    destruct (wire_asc x args' consts res Ha) as (wr' & Er' & Hr1 & _ & Ear); [rewrite Hl'; assumption|].
    rewrite El', Er'. cbn [fst]. apply run_ext.
    - intros y. rewrite Hl by assumption. symmetry. apply Hl1.
    - intros y. rewrite Hr by assumption. symmetry. rewrite Eal, <- Ear. apply Hr1. }
  inversion Hc as [|? ? Hc1 Hc2]; subst. destruct c as [x rest]. cbn [nruns NllsClass_run no_ls no_res no_body no_tol no_maxIter no_printOut no_timer no_compiled].
  f_equal.
  - rewrite <- (Hone (x, rest) timer Hc1). cbn [fst snd]. f_equal. destruct timer; reflexivity.
  - clear Hc Hc1. induction calls as [|[y l] calls IH]; [reflexivity|]. inversion Hc2 as [|? ? Hy Hc3]; subst.
    cbn [nruns NllsClass_run no_ls no_res no_body no_tol no_maxIter no_printOut no_timer no_compiled map negb].
    rewrite andb_false_r. rewrite (IH Hc3). f_equal. apply (Hone (y, l) false Hy).
Qed.

(** What a body does in NLLS: it is repeated from the start until the residual of its unknowns is within
    the tolerance, its count reaches [maxIter] or its last step is within the tolerance. *)
Fixpoint repeated (b : nval -> nval) (k : nat) (v : nval) : nval := match k with O => v | S k => repeated b k (b v) end.
Definition goes_on (r : U -> V) tol maxIter (v : nval) : Prop :=
  gt (maxabsV (r (v_xi v))) tol = true /\ (v_it v < maxIter)%Z /\ gt (maxabsD (v_dxi v)) tol = true.
Lemma while_repeats (b : nval -> nval) r tol maxIter : forall fuel v v',
  while_ fuel (cond_ maxabsV maxabsD gt (fun x => Some (r x)) tol maxIter) (fun v => Some (b v)) v = Returns v' ->
  exists k, k <= fuel /\ v' = repeated b k v /\ ~ goes_on r tol maxIter v' /\ forall j, j < k -> goes_on r tol maxIter (repeated b j v).
Proof.
  assert (Hg : forall v, cond_ maxabsV maxabsD gt (fun x => Some (r x)) tol maxIter v = Some true <-> goes_on r tol maxIter v).
  { intros v. unfold cond_, goes_on. cbn [bind]. split.
    - intros [= E]. apply andb_prop in E as [E E3]. apply andb_prop in E as [E1 E2]. apply Z.ltb_lt in E2. auto.
    - intros (E1 & E2 & E3). apply Z.ltb_lt in E2. rewrite E1, E2, E3. reflexivity. }
  induction fuel as [|fuel IH]; intros v v'; cbn [while_].
  - specialize (Hg v). destruct (cond_ _ _ _ _ _ _ v) as [[|]|]; try discriminate. intros [= <-]. exists 0. split; [lia|]. split; [reflexivity|]. split; [|lia]. intros H. apply Hg in H. discriminate.
  - pose proof (Hg v) as Hv. destruct (cond_ _ _ _ _ _ _ v) as [[|]|]; try discriminate.
    + intros H. destruct (IH _ _ H) as (k & H1 & -> & H2 & H3). exists (S k). split; [lia|]. split; [reflexivity|]. split; [exact H2|].
      intros [|j] Hj; [apply Hv; reflexivity|]. cbn. apply H3. lia.
    + intros [= <-]. exists 0. split; [lia|]. split; [reflexivity|]. split; [|lia]. intros H. apply Hv in H. discriminate.
Qed.
Theorem C43_body_used : forall fuel xi res args consts J cond b tol maxIter m printOut r,
  m <> OtherMethod -> good_consts args consts ->
  fst (nlls fuel xi res args consts J cond (Some (fun v => Some (b v))) tol maxIter m false printOut) = NReturns r ->
  exists k, let v := repeated b k (NVal xi (ones xi) 0 []) in
    n_xi r = v_xi v /\ n_it r = v_it v /\ n_out r = v_out v /\
    ~ goes_on (fun x => res (x :: args)) tol maxIter v /\
    forall j, j < k -> goes_on (fun x => res (x :: args)) tol maxIter (repeated b j (NVal xi (ones xi) 0 [])).
Proof.
  intros fuel xi res args consts J cond b tol maxIter m printOut r Hm [Ha Hb] E.
  assert (exists s, solve_fun pinv_dot lstsq m = Some s) as [s Es] by (destruct m; [eexists; reflexivity|eexists; reflexivity|congruence]).
  unfold NLLS in E. rewrite Es in E.
  destruct (wire_asc xi args consts (nlls_closure jac res J s) Ha Hb) as (wl & El & _ & _ & Eal).
  destruct (wire_asc xi args consts res Ha Hb) as (wr & Er & Hr1 & _ & Ear).
  rewrite El, Er in E. cbn [fst] in E. unfold nlls_run, nlls_loop in E.
  rewrite (while_ext _ (cond_ maxabsV maxabsD gt (fun x => Some (res (x :: args))) tol maxIter) _ (fun v => Some (b v))) in E.
  - destruct (while_ _ _ _ _) as [v| |] eqn:Ew; try discriminate. injection E as <-. cbn [n_xi n_it n_out].
    destruct (while_repeats b (fun x => res (x :: args)) tol maxIter _ _ _ Ew) as (k & _ & -> & H2 & H3). exists k. auto.
  - intros v. unfold cond_. rewrite Eal, <- Ear. unfold wired_eval in Hr1. rewrite Hr1. reflexivity.
  - reflexivity.
Qed.
End Body.
Print Assumptions C43_user_body.
Print Assumptions C43_body_used.

(** a body that steps by one until the residual is zero *)
Definition b1 (v : @nval Z Z Z) : @nval Z Z Z := NVal (v_xi v + 1)%Z 1%Z (v_it v + 1)%Z [].
Example C43_body_case :
  fst (@NLLS Z Z Z Z Z (fun j r => r / j)%Z (fun j r => r / j)%Z (fun _ _ => None) (fun _ => 1%Z) Z.abs Z.abs Z.gtb (fun _ _ => 2%Z)
    10 0%Z (fun l => (hd 0 l - 3)%Z) [] [] None None (Some (fun v => Some (b1 v))) 0%Z 50%Z Pinv false false) = NReturns (NResult 3%Z 3%Z []).
Proof. reflexivity. Qed.
