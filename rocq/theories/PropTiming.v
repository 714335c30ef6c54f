(** Properties C80 and C81: waiting for results, and what the timers measure. *)
From Coq Require Import List Arith Bool Lia.
From Verif Require Import Base ModelDict ModelTiming SpecTiming ProofTiming.
Import ListNotations.

(** ** C80: [TFCDict.block_until_ready] and [TFCDictRobust.block_until_ready] *)
(** When it returns it returns the dictionary itself, and it raises exactly for a dictionary
    without keys and one whose first value is not a jax array. *)
Theorem C80_returns : forall (T K : Type) keq (d : @tdict T K),
  keys_current d -> (forall k, keq k k = true) ->
  (forall d', block_until_ready keq d = Some d' -> d' = d) /\
  (block_until_ready keq d <> None <-> exists k v rest, td_items d = (k, v) :: rest /\ is_jax v = true).
Proof.
  intros T K keq d Hk Hr. unfold block_until_ready. unfold keys_current in Hk. rewrite !Hk.
  destruct (td_items d) as [|[k v] rest]; cbn; [|rewrite Hr; cbn].
  - split; [intros ? E; discriminate E|]. split; [intros []; reflexivity|]. intros (k & v & rest & E & _). discriminate.
  - destruct (is_jax v) eqn:Ev.
    + split; [intros d' E; injection E as <-; reflexivity|]. split; [|discriminate].
      intros _. exists k, v, rest. tauto.
    + split; [intros ? E; discriminate E|]. split; [intros []; reflexivity|].
      intros (k' & v' & rest' & E & Ev'). injection E as -> -> ->. congruence.
Qed.
Print Assumptions C80_returns.

(** If one computation made all values, they are all ready when the call returns, and the call
    cannot raise. *)
Theorem C80_ready_partial : forall (T K : Type) keq (by_ : K -> nat) (d : @tdict T K) c s,
  (forall k, keq k k = true) -> keys_current d -> td_items d <> [] -> made_by keq by_ d c ->
  dict_wait keq by_ d = Some c /\ (returns keq by_ d s -> all_ready by_ d s).
Proof.
  intros T K keq by_ d c s Hr Hk Hne Hm.
  assert (E : dict_wait keq by_ d = Some c).
  { unfold dict_wait, block_until_ready. unfold keys_current in Hk. unfold made_by in Hm.
    destruct (td_items d) as [|[k v] rest] eqn:Ed; [congruence|].
    cbn [map fst] in Hk. rewrite Hk. cbn [hd_error bind od_get]. rewrite Hr. cbn [bind].
    destruct (Hm k v (or_introl eq_refl)) as [-> Hb]. cbn [bind]. rewrite Hk. cbn [hd_error bind]. rewrite Hb. reflexivity. }
  split; [exact E|]. intros (c' & E' & Hn) k v Hi. rewrite E in E'. injection E' as <-.
  destruct (Hm k v Hi) as [_ ->]. exact Hn.
Qed.
Print Assumptions C80_ready_partial.

(** If its values come from two computations, it can return while one of them is running. *)
Theorem C80_several_refuted : exists (d : @tdict nat nat) by_ s,
  keys_current d /\ (forall k v, In (k, v) (td_items d) -> is_jax v = true) /\ wf s /\
  returns Nat.eqb by_ d s /\ ~ all_ready by_ d s.
Proof.
  exists (TD [(0, Jax (Arr_ [1] [5])); (1, Jax (Arr_ [1] [6]))] [0; 1] [Some (0, 1); Some (1, 2)]), (fun k => k), (St [] [1] 2).
  split; [reflexivity|]. split; [intros k v [E|[E|[]]]; injection E as <- <-; reflexivity|].
  split; [intros c [<-|[]]; cbn; lia|]. split.
  - exists 0. split; [reflexivity|]. intros [E|[]]. discriminate.
  - intros H. apply (H 1 (Jax (Arr_ [1] [6]))); [right; left; reflexivity|left; reflexivity].
Qed.
Print Assumptions C80_several_refuted.

Example C80_case :
  block_until_ready Nat.eqb (TD [(7, Jax (Arr_ [2] [5; 6])); (1, Np 0)] [7; 1] [Some (0, 2); Some (2, 3)]) <> None /\
  block_until_ready Nat.eqb (@TD nat nat [(1, Np 0); (7, Jax (Arr_ [2] [5; 6]))] [1; 7] [Some (0, 1); Some (1, 3)]) = None /\
  block_until_ready Nat.eqb (@TD nat nat [] [] []) = None.
Proof. split; [discriminate|split; reflexivity]. Qed.

(** ** C81: the interval the timers measure *)
(** One timed call - LS or NLLS ([b = false]), or [run] of LsClass or NllsClass in whatever state
    the object is - reads the clock twice; in between lies the whole of the computation whose
    result is returned, and nothing of the warm-up. *)
Theorem C81_covers : forall s b k t s', wf s -> exec s (run_timed b k) t s' ->
  exists mid, measured t mid /\ covers (s_next s) mid s'.
Proof.
  intros s b k t s' Hw H. destruct (timed_run s b k t s' Hw H) as (mid & M & C & _). exists mid. tauto.
Qed.
Print Assumptions C81_covers.

(** LS and NLLS never measure compilation. *)
Theorem C81_functions : forall s k t s', wf s -> exec s (fun_timed k) t s' ->
  exists mid, measured t mid /\ covers (s_next s) mid s' /\ no_compile mid.
Proof.
  intros s k t s' Hw H. change (fun_timed k) with (run_timed false k) in H.
  destruct (timed_run s false k t s' Hw H) as (mid & M & C & _ & _ & NC & _). exists mid.
  split; [exact M|]. split; [exact C|]. apply NC. left. reflexivity.
Qed.
Print Assumptions C81_functions.

(** The classes do not either, if all runs of the object have arguments of one signature, with
    the timer on or off in any order. *)
Theorem C81_classes_partial : forall c k s l ts, wf s -> (forall tm x, In (tm, x) l -> x = k) ->
  runs c false s l ts ->
  forall i t x, nth_error ts i = Some t -> nth_error l i = Some (true, x) ->
  forall mid, measured t mid -> no_compile mid.
Proof. intros c k s l ts Hw Hl H. apply (same_sig c k l false s ts Hw); [discriminate|exact Hl|exact H]. Qed.
Print Assumptions C81_classes_partial.

(** With arguments of another shape in the second run, every execution of that run compiles inside
    the measured interval. *)
Theorem C81_new_shape_refuted : forall c k1 k2 s t1 t2, wf s -> k1 <> k2 -> ~ In k2 (s_cache s) ->
  runs c false s [(true, k1); (true, k2)] [t1; t2] ->
  exists mid, measured t2 mid /\ In (ECompile k2) mid.
Proof.
  intros c k1 k2 s t1 t2 Hw Hk Hn H.
  inversion H as [|b s0 tm k l t s' ts H1 H2]; subst. inversion H2 as [|b s0 tm k l t s'' ts H3 H4]; subst.
  cbn [run_prog run_flag] in *.
  destruct (timed_run s false k1 t1 s' Hw H1) as (_ & _ & _ & Hw' & C & _).
  destruct (timed_run s' true k2 t2 s'' Hw' H3) as (mid & M & _ & _ & _ & _ & Y).
  exists mid. split; [exact M|]. apply Y; [reflexivity|]. rewrite C. intros [E|E]; [congruence|exact (Hn E)].
Qed.
Print Assumptions C81_new_shape_refuted.

(** such executions exist; here an unrelated earlier computation 0 ends in the middle *)
Example C81_case : wf (St [] [0] 1) /\
  exists t1 t2, runs CNlls false (St [] [0] 1) [(true, 4); (true, 9)] [t1; t2] /\
  t1 = [ECompile 4; EStart 1; EEnd 1; EClock; EStart 2; EEnd 0; EEnd 2; EClock] /\
  t2 = [EClock; ECompile 9; EStart 3; EEnd 3; EClock].
Proof.
  split; [intros c [<-|[]]; cbn; lia|]. eexists. eexists. split; [|split; reflexivity].
  eapply r_cons; [|eapply r_cons; [|apply r_nil]]; cbn [run_prog run_timed run_flag app].
  - apply (x_call (St [] [0] 1) 4 _ [EEnd 1; EClock; EStart 2; EEnd 0; EEnd 2; EClock]). cbn.
    apply x_end; [left; reflexivity|]. apply x_wait; [intros c E [Hc|[]]; cbn in *; lia|]. apply x_clock.
    apply (x_call (St [4] [0] 2) 4 _ [EEnd 0; EEnd 2; EClock]). cbn.
    apply x_end; [right; left; reflexivity|]. apply x_end; [left; reflexivity|]. apply x_wait; [intros c E []|].
    apply x_clock, x_done.
  - apply x_clock. apply (x_call (St [4; 4] [] 3) 9 _ [EEnd 3; EClock]). cbn.
    apply x_end; [left; reflexivity|]. apply x_wait; [intros c E []|]. apply x_clock, x_done.
Qed.
