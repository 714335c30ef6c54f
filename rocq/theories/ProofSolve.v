From Coq Require Import List Bool ZArith Lia.
From Verif Require Import Base ModelPe SpecPe ProofPe ModelSolve SpecSolve.
Import ListNotations.

Section Proofs.
Context {U V D M T : Type}.
Context (pinv_dot lstsq : M -> V -> D) (opp : V -> V) (addX subX : U -> D -> option U).
Context (zeros : U -> U) (ones : U -> D) (maxabsV : V -> T) (maxabsD : D -> T) (gt : T -> T -> bool).
Context (jac : (list U -> V) -> list U -> M) (inplace : U -> bool).

Lemma map_nil' {A B} (f : A -> B) : map f [] = []. Proof. reflexivity. Qed.
(** ** The loop *)
Section Loop.
Context (sub : U -> D -> U) (upd : U -> D) (r : U -> V) (tol : T) (maxIter : Z).
Context (sub_ok : forall x d, subX x d = Some (sub x d)).
Context (ls : U -> option D) (res : U -> option V).
Context (ls_ok : forall x, ls x = Some (upd x)) (res_ok : forall x, res x = Some (r x)).
Notation it8 := (iterate sub upd).
Context (x0 : U) (d0 : D) (i0 : Z) (out0 : list (Z * T)) (printOut : bool).
Definition st (k : nat) : nval := NVal (it8 k x0) (last_step sub upd d0 k x0) (i0 + Z.of_nat k)
  (out0 ++ if printOut then map (fun j => (i0 + Z.of_nat j, maxabsV (r (it8 (S j) x0))))%Z (seq 0 k) else []).
Notation stop := (stops sub upd r maxabsV maxabsD gt tol (maxIter - i0) d0 x0).

Lemma body_st k : body_ subX maxabsV ls res printOut (st k) = Some (st (S k)).
Proof.
  unfold body_, st. cbn [v_xi v_it v_out]. rewrite ls_ok. cbn [bind]. rewrite sub_ok. cbn [bind]. rewrite res_ok.
  cbn [bind]. replace (i0 + Z.of_nat (S k))%Z with (i0 + Z.of_nat k + 1)%Z by lia. destruct printOut.
  - rewrite seq_S, map_app, app_assoc. reflexivity.
  - reflexivity.
Qed.
Lemma cond_st k : exists b, cond_ maxabsV maxabsD gt res tol maxIter (st k) = Some b /\
  (b = true -> ~ stop k) /\ (b = false -> stop k).
Proof.
  unfold cond_, st. cbn [v_xi v_it v_dxi]. rewrite res_ok. cbn [bind]. eexists. split; [reflexivity|]. unfold stops. split.
  - intros H. apply andb_prop in H. destruct H as [H H3]. apply andb_prop in H. destruct H as [H1 H2].
    apply Z.ltb_lt in H2. intros [H|[H|H]]; [congruence|lia|congruence].
  - intros H. apply andb_false_iff in H. destruct H as [H|H]; [|right; right; assumption].
    apply andb_false_iff in H. destruct H as [H|H]; [left; assumption|]. apply Z.ltb_ge in H. right. left. lia.
Qed.
Lemma loop_from : forall fuel j, (maxIter <= i0 + Z.of_nat (j + fuel))%Z ->
  exists k, j <= k /\ stop k /\ (forall i, j <= i < k -> ~ stop i) /\
    while_ fuel (cond_ maxabsV maxabsD gt res tol maxIter) (body_ subX maxabsV ls res printOut) (st j) = Returns (st k).
Proof.
  induction fuel as [|fuel IH]; intros j Hf; cbn [while_]; destruct (cond_st j) as (b & E & Ht & Hn); rewrite E.
  - destruct b.
    + exfalso. apply (Ht eq_refl). right. left. lia.
    + exists j. repeat split; [lia|apply Hn; reflexivity|intros; lia].
  - destruct b.
    + rewrite body_st. destruct (IH (S j)) as (k & H1 & H2 & H3 & H4); [lia|]. exists k. repeat split; [lia|assumption| |assumption].
      intros i Hi. destruct (Nat.eq_dec i j) as [->|]; [apply Ht; reflexivity|apply H3; lia].
    + exists j. repeat split; [lia|apply Hn; reflexivity|intros; lia].
Qed.
End Loop.

(** ** A whole run *)
Section Run.
Context (sub : U -> D -> U) (upd : U -> D) (r : U -> V) (tol : T) (maxIter : Z) (printOut : bool).
Context (sub_ok : forall x d, subX x d = Some (sub x d)).
Context (ls : list U -> option D) (res : list U -> option V) (args : list U).
Context (ls_ok : forall x, ls (x :: args) = Some (upd x)) (res_ok : forall x, res (x :: args) = Some (r x)).

Lemma run_spec fuel warm x0 : (maxIter <= Z.of_nat fuel)%Z -> (1 <= fuel) ->
  exists k, first_stop sub upd r maxabsV maxabsD gt tol maxIter (ones x0) x0 k /\
    nlls_run subX ones maxabsV maxabsD gt fuel ls res None tol maxIter printOut warm args x0 =
    NReturns (NResult (iterate sub upd k x0) (Z.of_nat k)
      ((if warm && printOut && gt (maxabsV (r x0)) tol && gt (maxabsD (ones x0)) tol
        then [((maxIter - 1)%Z, maxabsV (r (iterate sub upd 1 x0)))] else [])
       ++ if printOut then report sub upd r maxabsV x0 k else [])).
Proof.
  intros Hf H1.
  assert (Hgo : forall out0, exists k, first_stop sub upd r maxabsV maxabsD gt tol maxIter (ones x0) x0 k /\
     nlls_loop subX maxabsV maxabsD gt fuel ls res None tol maxIter printOut args (NVal x0 (ones x0) 0%Z out0) =
     Returns (NVal (iterate sub upd k x0) (last_step sub upd (ones x0) k x0) (Z.of_nat k)
        (out0 ++ if printOut then report sub upd r maxabsV x0 k else []))).
  { intros out0. destruct (loop_from sub upd r tol maxIter sub_ok (fun x => ls (x :: args)) (fun x => res (x :: args)) ls_ok res_ok
       x0 (ones x0) 0%Z out0 printOut fuel 0) as (k & _ & Hs & Hn & E); [cbn; lia|].
    rewrite Z.sub_0_r in Hs, Hn. exists k. split.
    - split; [assumption|]. intros j Hj. apply Hn. lia.
    - unfold nlls_loop. unfold st in E. cbn in E. replace (if printOut then [] else []) with (@nil (Z * T)) in E by (destruct printOut; reflexivity).
      rewrite app_nil_r in E. cbn. rewrite E. reflexivity. }
  unfold nlls_run. destruct warm.
  - destruct (loop_from sub upd r tol maxIter sub_ok (fun x => ls (x :: args)) (fun x => res (x :: args)) ls_ok res_ok
       x0 (ones x0) (maxIter - 1)%Z [] printOut fuel 0) as (k & _ & Hs & Hn & E); [lia|].
    unfold st in E. cbn [app last_step] in E. change (iterate sub upd 0 x0) with x0 in E. change (seq 0 0) with (@nil nat) in E. rewrite map_nil' in E.
    replace (maxIter - 1 + Z.of_nat 0)%Z with (maxIter - 1)%Z in E by lia.
    replace (if printOut then [] else []) with (@nil (Z * T)) in E by (destruct printOut; reflexivity).
    fold (nlls_loop subX maxabsV maxabsD gt fuel ls res None tol maxIter printOut args (NVal x0 (ones x0) (maxIter - 1)%Z [])) in E.
    rewrite E. cbn [v_out].
    destruct (Hgo (if printOut then map (fun j => (maxIter - 1 + Z.of_nat j, maxabsV (r (iterate sub upd (S j) x0))))%Z (seq 0 k) else []))
      as (k' & Hk' & E'). rewrite E'. exists k'. split; [assumption|]. cbn [v_xi v_it v_out]. do 3 f_equal.
    replace (maxIter - (maxIter - 1))%Z with 1%Z in Hs, Hn by lia. destruct printOut; [|reflexivity]. cbn [andb].
    destruct k as [|k].
    + cbn [seq map]. destruct (gt (maxabsV (r x0)) tol) eqn:G1; [|reflexivity].
      destruct (gt (maxabsD (ones x0)) tol) eqn:G2; [|reflexivity]. exfalso.
      destruct Hs as [Hs|[Hs|Hs]]; cbn in Hs; [congruence|lia|congruence].
    + destruct k as [|k].
      * cbn [seq map]. rewrite Z.add_0_r. specialize (Hn 0 ltac:(lia)). unfold stops in Hn. cbn in Hn.
        destruct (gt (maxabsV (r x0)) tol); [|exfalso; apply Hn; auto].
        destruct (gt (maxabsD (ones x0)) tol); [|exfalso; apply Hn; auto]. reflexivity.
      * exfalso. apply (Hn 1); [lia|]. right. left. cbn. lia.
  - destruct (Hgo []) as (k & Hk & E). rewrite E. exists k. split; [assumption|]. reflexivity.
Qed.
Lemma first_stop_unique x0 d0 k k' : first_stop sub upd r maxabsV maxabsD gt tol maxIter d0 x0 k ->
  first_stop sub upd r maxabsV maxabsD gt tol maxIter d0 x0 k' -> k = k'.
Proof.
  intros [H1 H2] [H3 H4]. destruct (Nat.lt_trichotomy k k') as [H|[H|H]]; [|assumption|].
  - exfalso. exact (H4 _ H H1).
  - exfalso. exact (H2 _ H H3).
Qed.
End Run.

(** ** NLLS with the residual and the update the caller means *)
Definition the_upd (s : M -> V -> D) (res : list U -> V) (J : option (list U -> M)) (args : list U) (x : U) : D :=
  nlls_closure jac res J s (x :: args).
Lemma nlls_spec fuel xi res args consts J cond tol maxIter m timer printOut s sub :
  solve_fun pinv_dot lstsq m = Some s -> (forall x d, subX x d = Some (sub x d)) ->
  ascending consts -> List.Forall (fun k => 1 <= k <= length args) consts ->
  (maxIter <= Z.of_nat fuel)%Z -> 1 <= fuel ->
  let upd := the_upd s res J args in let r := fun x => res (x :: args) in
  exists k, first_stop sub upd r maxabsV maxabsD gt tol maxIter (ones xi) xi k /\
    NLLS pinv_dot lstsq subX ones maxabsV maxabsD gt jac fuel xi res args consts J cond None tol maxIter m timer printOut =
    (NReturns (NResult (iterate sub upd k xi) (Z.of_nat k)
      ((if timer && printOut && gt (maxabsV (r xi)) tol && gt (maxabsD (ones xi)) tol
        then [((maxIter - 1)%Z, maxabsV (r (iterate sub upd 1 xi)))] else [])
       ++ if printOut then report sub upd r maxabsV xi k else [])), rev consts).
Proof.
  intros Hm Hsub Ha Hb Hf H1 upd r. unfold NLLS. rewrite Hm.
  destruct (wire_asc xi args consts (nlls_closure jac res J s) Ha Hb) as (wl & -> & El & -> & Al).
  destruct (wire_asc xi args consts res Ha Hb) as (wr & -> & Er & _ & Ar).
  destruct (run_spec sub upd r tol maxIter printOut Hsub (w_fun wl) (w_fun wr) (w_args wl)) with (fuel := fuel) (warm := timer) (x0 := xi)
    as (k & Hk & E); [exact El|rewrite Al, <- Ar; exact Er|assumption|assumption|].
  exists k. split; [assumption|]. rewrite E. reflexivity.
Qed.

(** ** LS and LsClass *)
Lemma ls_spec zXi res args consts J m timer s r :
  solve_fun pinv_dot lstsq m = Some s ->
  ascending consts -> List.Forall (fun k => 1 <= k <= length args) consts ->
  addX (zeros zXi) (ls_closure opp jac res J s (zeros zXi :: args)) = Some r ->
  LS pinv_dot lstsq opp addX zeros jac zXi res args consts J m timer = Some (r, rev consts).
Proof.
  intros Hm Ha Hb Hr. unfold LS. rewrite Hm. cbn [bind].
  destruct (wire_asc zXi args consts (ls_closure opp jac res J s) Ha Hb) as (w & -> & E & Ec & _). cbn [bind].
  rewrite E. cbn [bind]. rewrite Hr. cbn [bind]. rewrite Ec. destruct timer; reflexivity.
Qed.
(** What a solver's wired function gives when the class is run with other arguments: the
    constants stay those of the constructor. *)
Lemma wire_fill {Y} xi (args : list U) consts (g : list U -> Y) :
  ascending consts -> List.Forall (fun k => 1 <= k <= length args) consts ->
  exists w, wire xi args consts g = Some w /\ w_consts w = rev consts /\
    forall x rest, length rest = length args - length consts ->
      w_fun w (x :: rest) = Some (g (x :: fill consts 1 args rest)).
Proof.
  intros Ha Hb. destruct consts as [|k0 C0] eqn:EC.
  - exists (Wired (fun l => Some (g l)) args []). repeat split. cbn. intros x rest H. do 3 f_equal.
    rewrite Nat.sub_0_r in H. clear - H. generalize 1. revert rest H.
    induction args as [|a args IH]; intros [|r rest] H s; cbn in *; try discriminate; [reflexivity|]. f_equal. apply IH. lia.
  - rewrite <- EC in *.
    assert (Hb2 : below (length (xi :: args)) consts).
    { eapply Forall_impl; [|exact Hb]. cbn. intros. lia. }
    destruct (pe_asc (xi :: args) consts g Ha Hb2) as (g' & Eg & Hg).
    exists (Wired g' (drop consts 1 args) (rev consts)). split.
    { unfold wire. rewrite Eg. cbn [bind]. rewrite (sort_asc _ Ha), (pops_drop consts args Ha Hb). cbn [bind]. rewrite EC. reflexivity. }
    split; [reflexivity|]. intros x rest Hr. cbn [w_fun].
    assert (H0 : isin consts 0 = false).
    { apply isin_not. intros Hi. rewrite Forall_forall in Hb. specialize (Hb _ Hi). lia. }
    rewrite Hg.
    + cbn [fill]. fold (isin consts 0). rewrite H0. reflexivity.
    + cbn [length]. rewrite Hr.
      assert (length consts <= length args); [|lia].
      pose proof (NoDup_incl_length (l := consts) (l' := seq 1 (length args)) (ascending_NoDup _ Ha)) as Hi. rewrite seq_length in Hi. apply Hi.
      intros p Hp. apply in_seq. rewrite Forall_forall in Hb. specialize (Hb p Hp). lia.
Qed.
Lemma lsclass_spec zXi res args consts J m s o cl :
  solve_fun pinv_dot lstsq m = Some s ->
  ascending consts -> List.Forall (fun k => 1 <= k <= length args) consts ->
  forall timer, LsClass_init pinv_dot lstsq opp jac zXi res args consts J m timer = Some (o, cl) ->
  cl = rev consts /\ lo_timer o = timer /\
  forall x rest, length rest = length args - length consts ->
    lo_ls o (x :: rest) = Some (ls_closure opp jac res J s (x :: fill consts 1 args rest)).
Proof.
  intros Hm Ha Hb timer. unfold LsClass_init. rewrite Hm. cbn [bind].
  destruct (wire_fill zXi args consts (ls_closure opp jac res J s) Ha Hb) as (w & -> & Ec & E). cbn [bind].
  rewrite Ec. intros H. injection H as <- <-. repeat split. exact E.
Qed.
Lemma lsclass_init_some zXi res args consts J m s timer :
  solve_fun pinv_dot lstsq m = Some s ->
  ascending consts -> List.Forall (fun k => 1 <= k <= length args) consts ->
  exists o, LsClass_init pinv_dot lstsq opp jac zXi res args consts J m timer = Some (o, rev consts).
Proof.
  intros Hm Ha Hb. unfold LsClass_init. rewrite Hm. cbn [bind].
  destruct (wire_fill zXi args consts (ls_closure opp jac res J s) Ha Hb) as (w & -> & Ec & E). cbn [bind]. rewrite Ec. eexists. reflexivity.
Qed.
Lemma lsclass_run_timer o x rest d r :
  lo_timer o = true -> lo_ls o (x :: rest) = Some d -> addX x d = Some r ->
  LsClass_run addX inplace o x rest = Some (r, if inplace x then r else x, LsObj (lo_ls o) true true).
Proof.
  intros Ht Hd Hr. unfold LsClass_run. rewrite Ht, Hd. cbn [bind]. destruct (lo_compiled o); cbn [bind]; rewrite Hr; reflexivity.
Qed.

(** ** NllsClass *)
Lemma fill_drop_rest (consts : list nat) : forall (args rest : list U) s,
  length rest = length (outs consts (seq s (length args))) -> drop consts s (fill consts s args rest) = rest.
Proof.
  induction args as [|a args IH]; intros rest s H; cbn in *.
  - destruct rest; [reflexivity|discriminate].
  - fold (isin consts s). unfold outs in H. cbn in H. destruct (isin consts s) eqn:E; cbn in *.
    + rewrite E. apply IH. exact H.
    + destruct rest as [|r rest]; [discriminate|]. cbn. rewrite E. f_equal. apply IH. cbn in H. unfold outs. lia.
Qed.
Lemma outs1_length consts n : ascending consts -> List.Forall (fun k => 1 <= k <= n) consts ->
  length (outs consts (seq 1 n)) = n - length consts.
Proof.
  intros Ha Hb. pose proof (outs_length consts (S n) (ascending_NoDup _ Ha)) as Ho. cbn [seq] in Ho. unfold outs in Ho. cbn [filter] in Ho.
  replace (isin consts 0) with false in Ho.
  - cbn [negb length] in Ho. unfold outs.
    assert (length consts <= n).
    { pose proof (NoDup_incl_length (l := consts) (l' := seq 1 n) (ascending_NoDup _ Ha)) as Hi. rewrite seq_length in Hi. apply Hi.
      intros p Hp. apply in_seq. rewrite Forall_forall in Hb. specialize (Hb p Hp). lia. }
    assert (Hb' : List.Forall (fun k => k < S n) consts) by (eapply Forall_impl; [|exact Hb]; cbn; lia).
    specialize (Ho Hb'). lia.
  - symmetry. apply isin_not. intros Hi. rewrite Forall_forall in Hb. specialize (Hb _ Hi). lia.
Qed.
Lemma fill_length1 consts (args rest : list U) : ascending consts -> List.Forall (fun k => 1 <= k <= length args) consts ->
  length rest = length args - length consts -> length (fill consts 1 args rest) = length args.
Proof. intros Ha Hb Hr. apply fill_length. rewrite outs1_length by assumption. assumption. Qed.

Lemma nruns_spec fuel xi0 res args consts J cond tol maxIter m timer printOut s sub o :
  solve_fun pinv_dot lstsq m = Some s -> (forall x d, subX x d = Some (sub x d)) ->
  ascending consts -> List.Forall (fun k => 1 <= k <= length args) consts ->
  (maxIter <= Z.of_nat fuel)%Z -> 1 <= fuel ->
  NllsClass_init pinv_dot lstsq jac xi0 res args consts J cond None tol maxIter m timer printOut = Some o ->
  forall calls, List.Forall (fun c => length (snd c) = length args - length consts) calls ->
  forall c0, Forall2 (fun c r => forall cond' timer' printOut',
     same_answer r (fst (NLLS pinv_dot lstsq subX ones maxabsV maxabsD gt jac fuel (fst c) res
                        (fill consts 1 args (snd c)) consts J cond' None tol maxIter m timer' printOut')))
    calls (nruns subX ones maxabsV maxabsD gt fuel (NllsObj (no_ls o) (no_res o) (no_body o) (no_tol o) (no_maxIter o) (no_printOut o) (no_timer o) c0) calls).
Proof.
  intros Hm Hsub Ha Hb Hf H1 Hi calls Hc. unfold NllsClass_init in Hi. rewrite Hm in Hi. cbn [bind] in Hi.
  destruct (wire_fill xi0 args consts (nlls_closure jac res J s) Ha Hb) as (wl & El & _ & Hl).
  destruct (wire_fill xi0 args consts res Ha Hb) as (wr & Er & _ & Hr).
  rewrite El in Hi. cbn [bind] in Hi. rewrite Er in Hi. cbn [bind] in Hi. injection Hi as <-. cbn [no_ls no_res no_body no_tol no_maxIter no_printOut no_timer no_compiled].
  induction calls as [|[x rest] calls IH]; intros c0; cbn [nruns]; [constructor|]. unfold NllsClass_run. cbn [no_ls no_res no_body no_tol no_maxIter no_printOut no_timer no_compiled].
  inversion Hc as [|? ? Hlen Hc']; subst. cbn [snd] in Hlen. constructor; [|apply IH; assumption].
  intros cond' timer' printOut'. cbn [fst snd]. set (args' := fill consts 1 args rest).
  assert (Hl' : length args' = length args) by (apply fill_length1; assumption).
  destruct (nlls_spec fuel x res args' consts J cond' tol maxIter m timer' printOut' s sub Hm Hsub Ha) as (k & Hk & E);
    [rewrite Hl'; assumption|assumption|assumption|]. rewrite E. cbn [fst].
  destruct (run_spec sub (the_upd s res J args') (fun x => res (x :: args')) tol maxIter printOut Hsub
     (w_fun wl) (w_fun wr) rest) with (fuel := fuel) (warm := timer && negb c0) (x0 := x) as (k' & Hk' & E').
  - intros y. apply Hl. assumption.
  - intros y. apply Hr. assumption.
  - assumption.
  - assumption.
  - rewrite E'. rewrite (first_stop_unique _ _ _ _ _ _ _ _ _ Hk Hk'). split; reflexivity.
Qed.
End Proofs.
