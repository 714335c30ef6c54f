(** C30-C35: TFCDict and TFCDictRobust.  [h] is the memory holding the NumPy arrays; a
    dictionary is [fresh] right after construction or [update] (C33 says when it stays so). *)
From Coq Require Import List Arith Bool ZArith.
From Verif Require Import Base ModelDict SpecDict ProofDict ProofDict2 ProofDict3 ProofDict4.
Import ListNotations.

(** ** C30 *)
(** TFCDict(...) accepts any list of pairs (repeated keys included) of one-dimensional
    arrays, jax or NumPy, and is fresh. *)
Theorem C30_construct : forall (T K : Type) (keq : K -> K -> bool) (h : @heap T) l d,
  keq_ok keq -> d_new keq h l = Some d -> fresh d_refresh h d.
Proof. exact (fun T K keq h l d Hk => d_new_fresh keq Hk h l d). Qed.
Print Assumptions C30_construct.
(** Which lists of pairs are rejected: those whose values (of a repeated key the last) are all
    arrays and one of them a scalar.  A value that is not an array makes every list acceptable.
    What the dictionary holds under each key is the last value given for it. *)
Theorem C30_accepts : forall (T K : Type) (keq : K -> K -> bool) (h : @heap T) l,
  keq_ok keq -> (forall k loc, In (k, Np loc) l -> loc < length h) ->
  (d_new keq h l = None <-> (forall k v, last_val l k v -> ld h v <> None) /\
                            exists k v a, last_val l k v /\ ld h v = Some a /\ a_shape a = []).
Proof. exact (fun T K keq h l Hk => d_new_none keq Hk h l). Qed.
Print Assumptions C30_accepts.
Theorem C30_holds : forall (T K : Type) (keq : K -> K -> bool) (h : @heap T) l d,
  keq_ok keq -> d_new keq h l = Some d -> forall k v, In (k, v) (td_items d) <-> last_val l k v.
Proof. exact (fun T K keq h l d Hk => d_new_items keq Hk h l d). Qed.
Print Assumptions C30_holds.
Theorem C30_pack : forall (T K : Type) (h : @heap T) (d : @tdict T K) c,
  contents h d = Some c -> c <> [] -> List.Forall (fun p => is1d (snd p)) c ->
  d_toArray h d = Some (flat (packed c)).
Proof. exact (fun T K => @d_toArray_1d T K). Qed.
Print Assumptions C30_pack.
(** Scalars (which can be assigned to a key later) are packed as one entry. *)
Theorem C30_pack_scalars : forall (T K : Type) (h : @heap T) (d : @tdict T K) c,
  contents h d = Some c -> c <> [] ->
  List.Forall (fun p => is1d (snd p) \/ (a_shape (snd p) = [] /\ wf (snd p))) c ->
  d_toArray h d = Some (flat (packed c)).
Proof. exact (fun T K => @d_toArray_scalars T K). Qed.
Print Assumptions C30_pack_scalars.
(** Unpacking what was packed restores every entry and leaves the dictionary alone; the array
    may be a jax or a NumPy array ([np]) of any shape. *)
Theorem C30_pack_unpack : forall (T K : Type) (keq : K -> K -> bool) np (h : @heap T) d c a,
  keq_ok keq -> fresh d_refresh h d -> contents h d = Some c ->
  List.Forall (fun p => is1d (snd p)) c -> a_data a = packed c ->
  exists h' d', d_toDict keq np h d a = (h', Some d') /\ contents h' d' = Some c /\ contents h' d = Some c.
Proof. exact (fun T K keq np h d c a Hk => c30_roundtrip keq Hk np h d c a). Qed.
Print Assumptions C30_pack_unpack.
Theorem C30_unpack_pack : forall (T K : Type) (keq : K -> K -> bool) np (h : @heap T) d c a,
  keq_ok keq -> fresh d_refresh h d -> contents h d = Some c -> c <> [] ->
  List.Forall (fun p => is1d (snd p)) c -> length (a_data a) = length (packed c) ->
  exists h' d', d_toDict keq np h d a = (h', Some d') /\ td_keys d' = td_keys d /\
    map fst (td_items d') = map fst (td_items d) /\ d_toArray h' d' = Some (flat (a_data a)).
Proof. exact (fun T K keq np h d c a Hk => c30_unpack_pack keq Hk np h d c a). Qed.
Print Assumptions C30_unpack_pack.
(** The empty dictionary cannot be packed ([np.hstack([])] raises). *)
Theorem C30_empty_raises : forall (T K : Type) (h : @heap T) (d : @tdict T K),
  td_items d = [] -> d_toArray h d = None.
Proof. exact (fun T K => @d_toArray_empty T K). Qed.
Print Assumptions C30_empty_raises.

Definition zkeq_ok : keq_ok Z.eqb := Z.eqb_eq.
Local Open Scope Z_scope.
(** two keys, an empty array in between, one NumPy value; a repeated key *)
Example C30_case :
  let h := [flat [7; 8]] in
  exists d, d_new Z.eqb h [(5, Jax (flat [1])); (3, Jax (flat [])); (9, Np 0); (5, Jax (flat [1; 2; 3]))] = Some d /\
  contents h d = Some [(5, flat [1; 2; 3]); (3, flat []); (9, flat [7; 8])] /\
  d_toArray h d = Some (flat [1; 2; 3; 7; 8]) /\
  option_map (contents h) (snd (d_toDict Z.eqb false h d (Arr_ [5; 1]%nat [10; 20; 30; 40; 50])))
  = Some (Some [(5, flat [10; 20; 30]); (3, flat []); (9, flat [40; 50])]).
Proof. eexists. repeat split. Qed.
(** a value that is not an array beside a scalar; a scalar alone; a scalar assigned later *)
Example C30_case_values :
  (exists d, d_new Z.eqb [] [(1, Oth 0); (2, Jax (Arr_ [] [7]))] = Some d /\ td_slices d = [None; None]) /\
  d_new Z.eqb [] [(1, Jax (flat [1])); (2, Jax (Arr_ [] [7]))] = None /\
  (exists d, (d0 <- d_new Z.eqb [] [(1, Jax (flat [1; 2])); (2, Jax (flat [3]))] ;;
              mut_run Z.eqb d_refresh [] d0 [MSet 1 (Jax (Arr_ [] [7]))]) = Some d /\
   d_toArray [] d = Some (flat [7; 3])).
Proof. split; [|split]; [eexists; split; reflexivity|reflexivity|eexists; split; reflexivity]. Qed.
(** A TFCDict of a two-dimensional array is accepted, and packing then unpacking silently
    loses entries: the restriction to one-dimensional arrays is needed. *)
Example C30_two_dimensional_loses :
  exists d, d_new Z.eqb [] [(1, Jax (Arr_ [2; 2]%nat [1; 2; 3; 4]))] = Some d /\
  d_toArray [] d = Some (Arr_ [2; 2]%nat [1; 2; 3; 4]) /\
  option_map (contents []) (snd (d_toDict Z.eqb false [] d (Arr_ [2; 2]%nat [1; 2; 3; 4])))
  = Some (Some [(1, flat [1; 2])]).
Proof. eexists. repeat split. Qed.

(** ** C31 *)
(** Operand a dictionary of arrays of the same shapes: [+=] and [+] agree and act entry by
    entry.  [f] is addition or subtraction; values may be jax or NumPy arrays. *)
Theorem C31_dict_operand_partial : forall (T K : Type) (keq : K -> K -> bool) f (h : @heap T) d c o bs,
  keq_ok keq -> fresh d_refresh h d -> contents h d = Some c ->
  NoDup (map fst o) -> matches h c o bs -> List.Forall (fun p => wf (snd p)) c -> List.Forall wf bs ->
  unshared (td_items d) o ->
  exists h' d', d_iop keq f h d (ODict o) = (h', d', Done) /\ d_op keq f h d (ODict o) = (h', Some d') /\
    contents h' d' = Some (ewc f c bs) /\
    packed (ewc f c bs) = zip2 f (packed c) (concat (map a_data bs)).
Proof. exact (fun T K keq f h d c o bs Hk => c31_dict keq Hk f h d c o bs). Qed.
Print Assumptions C31_dict_operand_partial.
Theorem C31_robust_dict_operand_partial : forall (T K : Type) (keq : K -> K -> bool) f (h : @heap T) d c o bs,
  keq_ok keq -> fresh r_refresh h d -> contents h d = Some c ->
  NoDup (map fst o) -> matches h c o bs -> List.Forall (fun p => wf (snd p)) c -> List.Forall wf bs ->
  unshared (td_items d) o ->
  exists h' d', r_iop keq f h d (ODict o) = (h', d', Done) /\ r_op keq f h d (ODict o) = (h', Some d') /\
    contents h' d' = Some (ewc f c bs) /\
    packed (ewc f c bs) = zip2 f (packed c) (concat (map a_data bs)).
Proof. exact (fun T K keq f h d c o bs Hk => c31_robust_dict keq Hk f h d c o bs). Qed.
Print Assumptions C31_robust_dict_operand_partial.
(** Operand a packed jax array. *)
Theorem C31_array_operand_partial : forall (T K : Type) (keq : K -> K -> bool) f (h : @heap T) d c a,
  keq_ok keq -> fresh d_refresh h d -> contents h d = Some c ->
  List.Forall (fun p => is1d (snd p)) c -> length (a_data a) = length (packed c) ->
  exists d', d_iop keq f h d (OJax a) = (h, d', Done) /\ d_op keq f h d (OJax a) = (h, Some d') /\
  exists c', contents h d' = Some c' /\ map fst c' = map fst c /\
    map (fun p => a_shape (snd p)) c' = map (fun p => a_shape (snd p)) c /\
    List.Forall (fun p => wf (snd p)) c' /\ packed c' = zip2 f (packed c) (a_data a).
Proof. exact (fun T K keq f h d c a Hk => c31_array keq Hk f h d c a). Qed.
Print Assumptions C31_array_operand_partial.
Theorem C31_robust_array_operand_partial : forall (T K : Type) (keq : K -> K -> bool) f (h : @heap T) d c a,
  keq_ok keq -> fresh r_refresh h d -> forallb is_jax (map snd (td_items d)) = true ->
  contents h d = Some c -> List.Forall (fun p => wf (snd p)) c -> length (a_data a) = length (packed c) ->
  exists d', r_iop keq f h d (OJax a) = (h, d', Done) /\ r_op keq f h d (OJax a) = (h, Some d') /\
  exists c', contents h d' = Some c' /\ map fst c' = map fst c /\
    map (fun p => a_shape (snd p)) c' = map (fun p => a_shape (snd p)) c /\
    List.Forall (fun p => wf (snd p)) c' /\ packed c' = zip2 f (packed c) (a_data a).
Proof. exact (fun T K keq f h d c a Hk => c31_robust_array keq Hk f h d c a). Qed.
Print Assumptions C31_robust_array_operand_partial.
(** Operand a packed NumPy array: silently ignored, so the claim is false there. *)
Theorem C31_numpy_operand_refuted : exists (h : @heap Z) (d : @tdict Z Z) c l a,
  fresh d_refresh h d /\ contents h d = Some c /\ List.Forall (fun p => is1d (snd p)) c /\
  ld h (Np l) = Some a /\ length (a_data a) = length (packed c) /\
  d_iop Z.eqb Z.add h d (ONp l) = (h, d, Done) /\ packed c <> zip2 Z.add (packed c) (a_data a).
Proof.
  exists [flat [10; 20]], (TD [(1, Jax (flat [1; 2]))] [1] [Some (0, 2)%nat]), [(1, flat [1; 2])], 0%nat, (flat [10; 20]).
  split; [split; [constructor; [intros []|constructor]|reflexivity]|].
  repeat split; [repeat constructor|discriminate].
Qed.
Print Assumptions C31_numpy_operand_refuted.

(** a jax and a NumPy entry, operand with the keys in another order and one key more *)
Example C31_case :
  let h := [flat [7; 8]; flat [30; 40]] in
  let o := [(9, Np 1); (4, Oth 0); (5, Jax (flat [100]))] in
  exists d, d_new Z.eqb h [(5, Jax (flat [1])); (9, Np 0)] = Some d /\
  (let '(h', d', r) := d_iop Z.eqb Z.sub h d (ODict o) in
   contents h' d' = Some [(5, flat [-99]); (9, flat [-23; -32])] /\ r = Done /\ h' = [flat [-23; -32]; flat [30; 40]]) /\
  (let '(h', d', r) := d_iop Z.eqb Z.add h d (OJax (flat [100; 200; 300])) in
   contents h' d' = Some [(5, flat [101]); (9, flat [207; 308])] /\ r = Done /\ h' = h).
Proof. eexists. repeat split. Qed.
Example C31_case_hypotheses :
  let h := [flat [7; 8]; flat [30; 40]] in
  let d := [(5, Jax (flat [1])); (9, Np 0)] in
  let o := [(9, Np 1); (4, Oth 0); (5, Jax (flat [100]))] in
  matches h [(5, flat [1]); (9, flat [7; 8])] o [flat [100]; flat [30; 40]] /\ unshared d o.
Proof.
  split.
  - repeat constructor; cbn; [exists (Jax (flat [100]))|exists (Np 1)]; cbn; intuition.
  - intros k k' l l' [[=]|[[= <- <-]|[]]] Ho [[[=]|[[= <-]|[]]]|[[=]|[[=]|[[=]|[]]]]]; reflexivity.
Qed.
(** robust: shapes kept *)
Example C31_robust_case :
  exists d, r_new Z.eqb [] [(5, Jax (Arr_ [2; 1]%nat [1; 2])); (9, Jax (Arr_ [] [3]))] = Some d /\
  option_map (contents []) (snd (r_op Z.eqb Z.add [] d (OJax (flat [10; 20; 30]))))
  = Some (Some [(5, Arr_ [2; 1]%nat [11; 22]); (9, Arr_ [] [33])]).
Proof. eexists. repeat split. Qed.

(** ** C32 *)
(** [a + b], [a - b] do not write to memory unless a NumPy value of [a] meets a NumPy value of
    the dictionary [b]; the items of [a] are the same objects before and after. *)
Theorem C32_no_mutation_partial : forall (T K : Type) (keq : K -> K -> bool) f (h : @heap T) (d : @tdict T K) o,
  keq_ok keq -> fresh d_refresh h d ->
  (forall od k l l', o = ODict od -> In (k, Np l) (td_items d) -> od_get keq od k = Some (Np l') -> False) ->
  fst (d_op keq f h d o) = h.
Proof. exact (fun T K keq f h d o Hk => c32_safe keq Hk f h d o). Qed.
Print Assumptions C32_no_mutation_partial.
(** With NumPy values on both sides [a + b] turns [a] itself into the sum. *)
Theorem C32_numpy_refuted : forall (T K : Type) (keq : K -> K -> bool) f (h : @heap T) (d : @tdict T K) c o bs,
  keq_ok keq -> fresh d_refresh h d -> contents h d = Some c ->
  NoDup (map fst o) -> matches h c o bs -> List.Forall (fun p => wf (snd p)) c -> List.Forall wf bs ->
  unshared (td_items d) o ->
  (forall k v, In (k, v) (td_items d) -> exists l, v = Np l) -> (forall k v, In (k, v) o -> exists l, v = Np l) ->
  exists h' d', d_op keq f h d (ODict o) = (h', Some d') /\ contents h' d = contents h' d' /\
    contents h' d = Some (ewc f c bs).
Proof. exact (fun T K keq f h d c o bs Hk => c32_mutates keq Hk f h d c o bs). Qed.
Print Assumptions C32_numpy_refuted.
Example C32_case :
  let h := [flat [7; 8]; flat [30; 40]] in
  exists d, d_new Z.eqb h [(9, Np 0)] = Some d /\ contents h d = Some [(9, flat [7; 8])] /\
  (let (h', r) := d_op Z.eqb Z.add h d (ODict [(9, Np 1)]) in contents h' d = Some [(9, flat [37; 48])]) /\
  (let (h', r) := d_op Z.eqb Z.add h d (ODict [(9, Jax (flat [30; 40]))]) in
   contents h' d = Some [(9, flat [7; 8])] /\ option_map (contents h') r = Some (Some [(9, flat [37; 48])])).
Proof. eexists. repeat split. Qed.

(** ** C33 *)
(** Whatever was done before, [update] makes the bookkeeping current again. *)
Theorem C33_update_partial : forall (T K : Type) (keq : K -> K -> bool) (h : @heap T) l d1 d ms x,
  keq_ok keq -> d_new keq h l = Some d1 -> mut_run keq d_refresh h d1 (ms ++ [MUpdate x]) = Some d ->
  fresh d_refresh h d.
Proof.
  exact (fun T K keq h l d1 d ms x Hk H => c33_update keq Hk h d1 d ms x (fresh_keys _ _ _ (d_new_fresh keq Hk h l d1 H))).
Qed.
Print Assumptions C33_update_partial.
Theorem C33_robust_update_partial : forall (T K : Type) (keq : K -> K -> bool) (h : @heap T) l d1 d ms x,
  keq_ok keq -> r_new keq h l = Some d1 -> mut_run keq r_refresh h d1 (ms ++ [MUpdate x]) = Some d ->
  fresh r_refresh h d.
Proof.
  exact (fun T K keq h l d1 d ms x Hk H => c33_update_r keq Hk h d1 d ms x (fresh_keys _ _ _ (r_new_fresh keq Hk h l d1 H))).
Qed.
Print Assumptions C33_robust_update_partial.
(** Layout-preserving mutations keep it current, and so does arithmetic on equal layouts. *)
Theorem C33_harmless_partial : forall (T K : Type) (keq : K -> K -> bool) (h : @heap T) d d' o,
  keq_ok keq -> fresh d_refresh h d -> harmless keq h d o -> mut_step keq d_refresh h d o = Some d' ->
  fresh d_refresh h d'.
Proof. exact (fun T K keq h d d' o Hk => c33_harmless keq Hk h d d' o). Qed.
Print Assumptions C33_harmless_partial.
Theorem C33_arithmetic_partial : forall (T K : Type) (keq : K -> K -> bool) f (h : @heap T) d c o bs h' d',
  keq_ok keq -> fresh d_refresh h d -> contents h d = Some c -> List.Forall (fun p => is1d (snd p)) c ->
  NoDup (map fst o) -> matches h c o bs -> List.Forall wf bs -> unshared (td_items d) o ->
  d_iop keq f h d (ODict o) = (h', d', Done) -> fresh d_refresh h' d'.
Proof. exact (fun T K keq f h d c o bs h' d' Hk => c33_arith keq Hk f h d c o bs h' d'). Qed.
Print Assumptions C33_arithmetic_partial.
(** Item assignment of a new key is not followed: whatever is unpacked afterwards, the key is
    missing from the result. *)
Theorem C33_new_key_refuted : forall (T K : Type) (keq : K -> K -> bool) np (h : @heap T) d k v a h' d',
  keq_ok keq -> fresh d_refresh h d -> ~ In k (map fst (td_items d)) ->
  d_toDict keq np h (TD (od_set keq (td_items d) k v) (td_keys d) (td_slices d)) a = (h', Some d') ->
  ~ In k (map fst (td_items d')).
Proof. exact (fun T K keq np h d k v a h' d' Hk => c33_new_key_lost keq np h d k v a h' d'). Qed.
Print Assumptions C33_new_key_refuted.
(** Assigning an array of another length silently shifts what the other keys get. *)
Theorem C33_resized_refuted : exists (l : list (Z * @val Z)) ms d c c',
  d_new Z.eqb [] l <> None /\
  (d0 <- d_new Z.eqb [] l ;; mut_run Z.eqb d_refresh [] d0 ms) = Some d /\
  contents [] d = Some c /\ List.Forall (fun p => is1d (snd p)) c /\
  option_map (contents []) (snd (d_toDict Z.eqb false [] d (flat (packed c)))) = Some (Some c') /\ c' <> c.
Proof.
  exists [(1, Jax (flat [1; 2])); (2, Jax (flat [3]))], [MSet 1 (Jax (flat [1]))].
  eexists. eexists. eexists. split; [discriminate|]. split; [reflexivity|]. split; [reflexivity|].
  split; [repeat constructor|]. split; [reflexivity|]. discriminate.
Qed.
Print Assumptions C33_resized_refuted.
Example C33_case :
  exists d, (d0 <- d_new Z.eqb [] [(1, Jax (flat [1; 2])); (2, Jax (flat [3]))] ;;
             mut_run Z.eqb d_refresh [] d0
               [MSet 7 (Jax (flat [9; 9])); MDel 1; MMoveToEnd 2 true; MUpdate [(8, Jax (flat [5]))]]) = Some d /\
  td_keys d = [7; 2; 8] /\ td_slices d = [Some (0, 2); Some (2, 3); Some (3, 4)]%nat.
Proof. eexists. repeat split. Qed.

(** ** C34 *)
Theorem C34_pack : forall (T K : Type) (h : @heap T) (d : @tdict T K) c,
  contents h d = Some c -> c <> [] -> r_toArray h d = Some (flat (packed c)).
Proof. exact (fun T K => @r_toArray_ok T K). Qed.
Print Assumptions C34_pack.
Theorem C34_pack_unpack_partial : forall (T K : Type) (keq : K -> K -> bool) np (h : @heap T) d c a,
  keq_ok keq -> fresh r_refresh h d -> forallb is_jax (map snd (td_items d)) = true ->
  contents h d = Some c -> List.Forall (fun p => wf (snd p)) c -> a_data a = packed c ->
  exists h' d', r_toDict keq np h d a = (h', Some d') /\ contents h' d' = Some c /\ contents h' d = Some c.
Proof. exact (fun T K keq np h d c a Hk => c34_roundtrip keq Hk np h d c a). Qed.
Print Assumptions C34_pack_unpack_partial.
Theorem C34_unpack_pack_partial : forall (T K : Type) (keq : K -> K -> bool) np (h : @heap T) d c a,
  keq_ok keq -> fresh r_refresh h d -> forallb is_jax (map snd (td_items d)) = true ->
  contents h d = Some c -> c <> [] ->
  List.Forall (fun p => wf (snd p)) c -> length (a_data a) = length (packed c) ->
  exists h' d' c', r_toDict keq np h d a = (h', Some d') /\ contents h' d' = Some c' /\
    map (fun p => (fst p, a_shape (snd p))) c' = map (fun p => (fst p, a_shape (snd p))) c /\
    r_toArray h' d' = Some (flat (a_data a)).
Proof. exact (fun T K keq np h d c a Hk => c34_unpack_pack keq Hk np h d c a). Qed.
Print Assumptions C34_unpack_pack_partial.
(** One NumPy value anywhere: unpacking raises as soon as two entries are non-empty. *)
Theorem C34_numpy_refuted : forall (T K : Type) (keq : K -> K -> bool) np (h : @heap T) d c a,
  keq_ok keq -> fresh r_refresh h d -> forallb is_jax (map snd (td_items d)) = false ->
  contents h d = Some c -> List.Forall (fun p => wf (snd p)) c -> a_data a = packed c ->
  (exists k1 a1 k2 a2, In (k1, a1) c /\ In (k2, a2) c /\ k1 <> k2 /\ a_data a1 <> [] /\ a_data a2 <> []) ->
  r_toDict keq np h d a = (h, None).
Proof. exact (fun T K keq np h d c a Hk => c34_numpy keq Hk np h d c a). Qed.
Print Assumptions C34_numpy_refuted.
Example C34_case :
  exists d, r_new Z.eqb [] [(5, Jax (Arr_ [2; 2]%nat [1; 2; 3; 4])); (9, Jax (Arr_ [] [3])); (2, Jax (Arr_ [0; 3]%nat []))] = Some d /\
  r_toArray [] d = Some (flat [1; 2; 3; 4; 3]) /\
  option_map (contents []) (snd (r_toDict Z.eqb false [] d (flat [10; 20; 30; 40; 50])))
  = Some (Some [(5, Arr_ [2; 2]%nat [10; 20; 30; 40]); (9, Arr_ [] [50]); (2, Arr_ [0; 3]%nat [])]).
Proof. eexists. repeat split. Qed.
Example C34_numpy_case :
  let h := [flat [7; 8]] in
  exists d, r_new Z.eqb h [(5, Jax (flat [1])); (9, Np 0)] = Some d /\
  r_toArray h d = Some (flat [1; 7; 8]) /\ r_toDict Z.eqb false h d (flat [1; 7; 8]) = (h, None).
Proof. eexists. repeat split. Qed.

(** ** C35 *)
Theorem C35_roundtrip : forall (T K : Type) (keq : K -> K -> bool) (h : @heap T) (d : @tdict T K),
  keq_ok keq -> fresh d_refresh h d ->
  tree_unflatten (d_new keq) h (snd (tree_flatten d)) (fst (tree_flatten d)) = Some d.
Proof. exact (fun T K keq h d Hk => c35_roundtrip keq Hk d_refresh h d). Qed.
Print Assumptions C35_roundtrip.
Theorem C35_robust_roundtrip : forall (T K : Type) (keq : K -> K -> bool) (h : @heap T) (d : @tdict T K),
  keq_ok keq -> fresh r_refresh h d ->
  tree_unflatten (r_new keq) h (snd (tree_flatten d)) (fst (tree_flatten d)) = Some d.
Proof. exact (fun T K keq h d Hk => c35_roundtrip keq Hk r_refresh h d). Qed.
Print Assumptions C35_robust_roundtrip.
(** Mapping a leaf function changes the values only and gives a dictionary with current
    bookkeeping, even from a stale one.  For TFCDict the new leaves must be arrays with at
    least one dimension. *)
Theorem C35_map_partial : forall (T K : Type) (keq : K -> K -> bool) (h : @heap T) (d : @tdict T K) g,
  keq_ok keq -> NoDup (map fst (td_items d)) ->
  (forall k v, In (k, v) (td_items d) -> exists a n s, ld h (g v) = Some a /\ a_shape a = n :: s) ->
  exists d', tree_map (d_new keq) h g d = Some d' /\ td_items d' = map (fun p => (fst p, g (snd p))) (td_items d) /\
    td_keys d' = map fst (td_items d) /\ fresh d_refresh h d'.
Proof. exact (fun T K keq h d g Hk => c35_map_dict keq Hk h d g). Qed.
Print Assumptions C35_map_partial.
Theorem C35_robust_map : forall (T K : Type) (keq : K -> K -> bool) (h : @heap T) (d : @tdict T K) g,
  keq_ok keq -> NoDup (map fst (td_items d)) ->
  exists d', tree_map (r_new keq) h g d = Some d' /\ td_items d' = map (fun p => (fst p, g (snd p))) (td_items d) /\
    td_keys d' = map fst (td_items d) /\ fresh r_refresh h d'.
Proof. exact (fun T K keq h d g Hk => c35_map_robust keq Hk h d g). Qed.
Print Assumptions C35_robust_map.
(** Mapping to zero-dimensional arrays (for instance a norm of each entry) raises. *)
Theorem C35_scalar_leaves_refuted : exists (d : @tdict Z Z) (g : @val Z -> @val Z),
  fresh d_refresh [] d /\ (forall v, exists a, ld [] (g v) = Some a /\ wf a) /\
  tree_map (d_new Z.eqb) [] g d = None.
Proof.
  exists (TD [(1, Jax (flat [1; 2]))] [1] [Some (0, 2)%nat]), (fun _ => Jax (Arr_ [] [5])).
  split; [split; [constructor; [intros []|constructor]|reflexivity]|]. split; [|reflexivity].
  intros _. eexists. split; reflexivity.
Qed.
Print Assumptions C35_scalar_leaves_refuted.
Example C35_case :
  exists d, (d0 <- d_new Z.eqb [] [(1, Jax (flat [1; 2]))] ;;
             mut_run Z.eqb d_refresh [] d0 [MSet 7 (Jax (flat [9]))]) = Some d /\ td_keys d = [1] /\
  option_map td_keys (tree_map (d_new Z.eqb) [] (fun v => match v with Jax a => Jax (flat (map Z.opp (a_data a))) | v => v end) d)
  = Some [1; 7].
Proof. eexists. repeat split. Qed.
