(** TFCDict and TFCDictRobust (utils/TFCUtils.py 326-762): ordered dictionaries of arrays
    with a cached key list and cached slices, packing, unpacking and arithmetic.

    Arrays are a shape and row-major data.  A dictionary value is a jax array (immutable), a
    NumPy array (a location of the heap, mutable and shared) or anything else.
    Simplifications: no dtypes; [+=] and [-=] on values that are not arrays raise; views of
    a fresh flat copy ([arr.flatten()[slice]]) are separate objects.  [_nKeys] is always set
    to [len(_keys)] together with [_keys] and is not kept apart. *)
From Coq Require Import List Arith Bool.
From Verif Require Import Base.
Import ListNotations.

Definition nprod (s : list nat) : nat := fold_right Nat.mul 1 s.

Section Dict.
Context {T K : Type} (keq : K -> K -> bool).

(** ** Arrays *)
Record arr := Arr_ { a_shape : list nat; a_data : list T }.
Definition flat (l : list T) : arr := Arr_ [length l] l.
(** [a.flatten()] *)
Definition flatten (a : arr) : arr := flat (a_data a).
(** [a.reshape(s)] for a shape without -1 *)
Definition reshape (a : arr) (s : list nat) : option arr :=
  if length (a_data a) =? nprod s then Some (Arr_ s (a_data a)) else None.
(** [a[slice(lo, hi, 1)]] of a flat array *)
Definition slice (l : list T) (lo hi : nat) : list T := firstn (hi - lo) (skipn lo l).
(** consecutive blocks of [sz] entries *)
Fixpoint chunks (sz n : nat) (l : list T) : list (list T) :=
  match n with O => [] | S n => firstn sz l :: chunks sz n (skipn sz l) end.

(** Broadcasting of two shapes: missing leading dimensions count as 1, and a dimension 1
    stretches to the other array's. *)
Definition bc_dim (a b : nat) : option nat :=
  if a =? b then Some a else if a =? 1 then Some b else if b =? 1 then Some a else None.
Definition pad (n : nat) (s : list nat) : list nat := repeat 1 (n - length s) ++ s.
Definition bc_shape (s t : list nat) : option (list nat) :=
  mapM (fun p => bc_dim (fst p) (snd p))
       (combine (pad (length t) s) (pad (length s) t)).
Fixpoint expand (si so : list nat) (l : list T) : list T :=
  match si, so with
  | d :: si', e :: so' =>
      let rows := map (expand si' so') (chunks (nprod si') d l) in
      concat (if d =? e then rows else repeat (hd [] rows) e)
  | _, _ => l
  end.
Definition bc_op (f : T -> T -> T) (a b : arr) : option arr :=
  s <- bc_shape (a_shape a) (a_shape b) ;;
  Some (Arr_ s (map (fun p => f (fst p) (snd p))
                    (combine (expand (pad (length s) (a_shape a)) s (a_data a))
                             (expand (pad (length s) (a_shape b)) s (a_data b))))).

(** [np.hstack(arrays)]: one-dimensional arrays are joined along axis 0, others along
    axis 1; no array at all, or arrays that do not fit, raise. *)
Definition shape_eqb (s t : list nat) : bool :=
  (length s =? length t) && forallb (fun p => fst p =? snd p) (combine s t).
Definition at_least_1d (a : arr) : arr := match a_shape a with [] => Arr_ [1] (a_data a) | _ => a end.
Definition hstack0 (l : list arr) : option arr :=
  match l with
  | [] => None
  | a0 :: _ =>
      match a_shape a0 with
      | r :: _ :: rest =>
          if forallb (fun a => match a_shape a with
                               | r' :: _ :: rest' => (r' =? r) && shape_eqb rest' rest
                               | _ => false end) l
          then let rows := map (fun a => chunks (nprod (tl (a_shape a))) r (a_data a)) l in
               Some (Arr_ (r :: list_sum (map (fun a => nth 1 (a_shape a) 0) l) :: rest)
                          (concat (map (fun i => concat (map (fun R => nth i R []) rows)) (seq 0 r))))
          else None
      | _ => if forallb (fun a => length (a_shape a) =? 1) l
             then Some (flat (concat (map a_data l))) else None
      end
  end.
Definition hstack (l : list arr) : option arr := hstack0 (map at_least_1d l).

(** ** Values and heap *)
Inductive val := Jax (a : arr) | Np (l : nat) | Oth (n : nat).
Definition heap := list arr.
(** the array a value denotes *)
Definition ld (h : heap) (v : val) : option arr :=
  match v with Jax a => Some a | Np l => nth_error h l | Oth _ => None end.
Fixpoint store (h : heap) (l : nat) (a : arr) : heap :=
  match h, l with [], _ => [] | _ :: t, O => a :: t | b :: t, S l => b :: store t l a end.
Definition is_jax (v : val) : bool := match v with Jax _ => true | _ => false end.
Definition is_arr (v : val) : bool := match v with Oth _ => false | _ => true end.

(** [x += y] as Python runs it: a NumPy array on the left takes a NumPy operand in place
    (which must broadcast to its shape) and gives way to a jax operand; a jax array on the
    left gives a new jax array. *)
Definition iop (f : T -> T -> T) (h : heap) (x y : val) : heap * option val :=
  match x, y with
  | Np l, Np _ =>
      match ld h x, ld h y with
      | Some a, Some b =>
          match bc_op f a b with
          | Some c => if shape_eqb (a_shape c) (a_shape a)
                      then (store h l c, Some (Np l)) else (h, None)
          | None => (h, None)
          end
      | _, _ => (h, None)
      end
  | _, _ =>
      match ld h x, ld h y with
      | Some a, Some b => (h, option_map Jax (bc_op f a b))
      | _, _ => (h, None)
      end
  end.

(** ** OrderedDict *)
Definition items := list (K * val).
Fixpoint od_get (d : items) (k : K) : option val :=
  match d with [] => None | (k', v) :: t => if keq k' k then Some v else od_get t k end.
Fixpoint od_set (d : items) (k : K) (v : val) : items :=
  match d with
  | [] => [(k, v)]
  | (k', v') :: t => if keq k' k then (k', v) :: t else (k', v') :: od_set t k v
  end.
Fixpoint od_del (d : items) (k : K) : items :=
  match d with [] => [] | (k', v) :: t => if keq k' k then t else (k', v) :: od_del t k end.
Definition od_update (d : items) (l : items) : items :=
  fold_left (fun d p => od_set d (fst p) (snd p)) l d.

(** A dictionary object: its items, [_keys] and [_slices] ([None] is the slice [None]). *)
Record tdict := TD { td_items : items; td_keys : list K; td_slices : list (option (nat * nat)) }.

(** The array operand or argument: [arr.flatten()], then [arr[_slices[k]]]; [arr[None]] adds
    a leading axis. *)
Definition pick (l : list T) (s : option (nat * nat)) : arr :=
  match s with Some (lo, hi) => flat (slice l lo hi) | None => Arr_ [1; length l] l end.

(** Slices from start 0: the loop 363-371 (TFCDict) and 564-571 (TFCDictRobust); [len] is the
    length the class uses; [None] when it raises. *)
Fixpoint slices_from (start : nat) (lens : list nat) : list (option (nat * nat)) :=
  match lens with [] => [] | n :: t => Some (start, start + n) :: slices_from (start + n) t end.

(** *** TFCDict *)
(** [self[key].shape[0]], IndexError for a zero-dimensional array *)
Definition len0 (h : heap) (v : val) : option nat :=
  a <- ld h v ;; match a_shape a with n :: _ => Some n | [] => None end.
(** getSlices, TFCUtils.py 353-375 *)
Definition d_getSlices (h : heap) (vs : list val) : option (list (option (nat * nat))) :=
  if forallb is_arr vs
  then lens <- mapM (len0 h) vs ;; Some (slices_from 0 lens)
  else Some (repeat None (length vs)).
(** __init__, 336-351; also what [update] (377-389) leaves behind *)
Definition d_refresh (h : heap) (d : items) : option tdict :=
  s <- d_getSlices h (map snd d) ;; Some (TD d (map fst d) s).
Definition d_new (h : heap) (l : items) : option tdict := d_refresh h (od_update [] l).
(** update, 377-389 (when getSlices raises the object keeps the new items; modelled as a
    failure) *)
Definition d_update (h : heap) (d : tdict) (l : items) : option tdict :=
  d_refresh h (od_update (td_items d) l).
(** toArray, 391-400 *)
Definition d_toArray (h : heap) (d : tdict) : option arr :=
  l <- mapM (ld h) (map snd (td_items d)) ;; hstack l.
(** toDict, 402-417.  The result's values are of the kind of the argument: jax arrays for a
    jax array, new NumPy arrays for a NumPy array. *)
Definition alloc (np : bool) (h : heap) (l : list arr) : heap * list val :=
  if np then (h ++ l, map Np (seq (length h) (length l))) else (h, map Jax l).
Definition d_toDict (np : bool) (h : heap) (d : tdict) (a : arr) : heap * option tdict :=
  let l := a_data (flatten a) in
  let (h', vs) := alloc np h (map (pick l) (td_slices d)) in
  (h', d_new h' (combine (td_keys d) vs)).

(** *** TFCDictRobust *)
(** getSlices, 555-574: jax arrays only *)
Definition r_getSlices (h : heap) (vs : list val) : option (list (option (nat * nat))) :=
  if forallb is_jax vs
  then lens <- mapM (fun v => a <- ld h v ;; Some (length (a_data (flatten a)))) vs ;;
       Some (slices_from 0 lens)
  else Some (repeat None (length vs)).
(** __init__, 538-553 *)
Definition r_refresh (h : heap) (d : items) : option tdict :=
  s <- r_getSlices h (map snd d) ;; Some (TD d (map fst d) s).
Definition r_new (h : heap) (l : items) : option tdict := r_refresh h (od_update [] l).
(** update, 576-588 *)
Definition r_update (h : heap) (d : tdict) (l : items) : option tdict :=
  r_refresh h (od_update (td_items d) l).
(** toArray, 590-599 *)
Definition r_toArray (h : heap) (d : tdict) : option arr :=
  l <- mapM (ld h) (map snd (td_items d)) ;; hstack (map flatten l).
(** [arr[self._slices[k]].reshape(self[self._keys[k]].shape)] *)
Definition r_pick (h : heap) (d : tdict) (l : list T) (p : K * option (nat * nat)) : option arr :=
  v <- od_get (td_items d) (fst p) ;; a <- ld h v ;; reshape (pick l (snd p)) (a_shape a).
(** toDict, 601-624 *)
Definition r_toDict (np : bool) (h : heap) (d : tdict) (a : arr) : heap * option tdict :=
  let l := a_data (flatten a) in
  match mapM (r_pick h d l) (combine (td_keys d) (td_slices d)) with
  | None => (h, None)
  | Some bs => let (h', vs) := alloc np h bs in (h', r_new h' (combine (td_keys d) vs))
  end.

(** ** Arithmetic *)
(** What may stand on the right of [+], [-], [+=], [-=].  A TFCDict, TFCDictRobust or any
    other dict is an [ODict]. *)
Inductive operand := ODict (d : items) | OJax (a : arr) | ONp (l : nat) | OOther.
Inductive outcome := Done | Raised.

(** One step [tgt[key] += rhs] of the loops: the right-hand side is evaluated after the
    left value is read. *)
Definition aug (f : T -> T -> T) (h : heap) (tgt : items) (k : K) (rhs : option val)
  : heap * items * outcome :=
  match od_get tgt k, rhs with
  | Some x, Some y =>
      match iop f h x y with
      | (h', Some z) => (h', od_set tgt k z, Done)
      | (h', None) => (h', tgt, Raised)
      end
  | _, _ => (h, tgt, Raised)
  end.
(** [for key in self._keys: tgt[key] += o[key]] *)
Fixpoint aug_dict (f : T -> T -> T) (h : heap) (tgt : items) (ks : list K) (o : items)
  : heap * items * outcome :=
  match ks with
  | [] => (h, tgt, Done)
  | k :: ks' =>
      match aug f h tgt k (od_get o k) with
      | (h', tgt', Done) => aug_dict f h' tgt' ks' o
      | r => r
      end
  end.
(** [for k in range(self._nKeys): tgt[self._keys[k]] += o[self._slices[k]]] (TFCDict), with
    [.reshape(self[self._keys[k]].shape)] in TFCDictRobust *)
Fixpoint aug_arr (f : T -> T -> T) (rhs : heap -> items -> K * option (nat * nat) -> option val)
    (h : heap) (tgt : items) (ks : list (K * option (nat * nat))) : heap * items * outcome :=
  match ks with
  | [] => (h, tgt, Done)
  | k :: ks' =>
      match aug f h tgt (fst k) (rhs h tgt k) with
      | (h', tgt', Done) => aug_arr f rhs h' tgt' ks'
      | r => r
      end
  end.
(** body shared by the four operators of TFCDict (446-453, 469-476, 492-499, 516-523): a
    dict operand, a jax operand, anything else (a NumPy array included) is ignored *)
Definition d_arith (f : T -> T -> T) (h : heap) (self tgt : tdict) (o : operand)
  : heap * items * outcome :=
  match o with
  | ODict od => aug_dict f h (td_items tgt) (td_keys self) od
  | OJax a => aug_arr f (fun _ _ p => Some (Jax (pick (a_data (flatten a)) (snd p))))
                      h (td_items tgt) (combine (td_keys self) (td_slices self))
  | ONp _ | OOther => (h, td_items tgt, Done)
  end.
(** the same for TFCDictRobust (653-660, 676-683, 699-706, 723-730): the shape comes from
    [self] *)
Definition r_arith (f : T -> T -> T) (inplace : bool) (h : heap) (self tgt : tdict) (o : operand)
  : heap * items * outcome :=
  match o with
  | ODict od => aug_dict f h (td_items tgt) (td_keys self) od
  | OJax a =>
      aug_arr f (fun h cur p =>
                   option_map Jax (r_pick h (TD (if inplace then cur else td_items self) [] [])
                                          (a_data (flatten a)) p))
              h (td_items tgt) (combine (td_keys self) (td_slices self))
  | ONp _ | OOther => (h, td_items tgt, Done)
  end.
(** __iadd__ / __isub__, 432-453 / 455-476: the cached keys and slices are not touched *)
Definition d_iop f h (d : tdict) (o : operand) : heap * tdict * outcome :=
  match d_arith f h d d o with (h', it, r) => (h', TD it (td_keys d) (td_slices d), r) end.
(** __add__ / __sub__, 478-499 / 502-523: [out = TFCDict(self)] shares the values *)
Definition d_op f h (d : tdict) (o : operand) : heap * option tdict :=
  match d_new h (td_items d) with
  | None => (h, None)
  | Some out =>
      match d_arith f h d out o with
      | (h', it, Done) => (h', Some (TD it (td_keys out) (td_slices out)))
      | (h', _, Raised) => (h', None)
      end
  end.
(** TFCDictRobust, 639-683 and 685-730 *)
Definition r_iop f h (d : tdict) (o : operand) : heap * tdict * outcome :=
  match r_arith f true h d d o with (h', it, r) => (h', TD it (td_keys d) (td_slices d), r) end.
Definition r_op f h (d : tdict) (o : operand) : heap * option tdict :=
  match r_new h (td_items d) with
  | None => (h, None)
  | Some out =>
      match r_arith f false h d out o with
      | (h', it, Done) => (h', Some (TD it (td_keys out) (td_slices out)))
      | (h', _, Raised) => (h', None)
      end
  end.

(** ** Inherited mutations of OrderedDict: the items change, the cached fields do not *)
Inductive mut :=
| MSet (k : K) (v : val) | MDel (k : K) | MSetDefault (k : K) (v : val) | MClear
| MMoveToEnd (k : K) (last : bool) | MIor (l : items)
| MUpdate (l : items).     (* the overridden [update] *)
Definition od_move (d : items) (k : K) (last : bool) : option items :=
  v <- od_get d k ;; Some (if last then od_del d k ++ [(k, v)] else (k, v) :: od_del d k).
(** [None]: the operation raised (the object is then unchanged, except for [update]) *)
Definition mut_step (refresh : heap -> items -> option tdict) (h : heap) (d : tdict) (o : mut)
  : option tdict :=
  let keep it := TD it (td_keys d) (td_slices d) in
  match o with
  | MSet k v => Some (keep (od_set (td_items d) k v))
  | MDel k => _ <- od_get (td_items d) k ;; Some (keep (od_del (td_items d) k))
  | MSetDefault k v => Some (keep (match od_get (td_items d) k with
                                   | Some _ => td_items d | None => od_set (td_items d) k v end))
  | MClear => Some (keep [])
  | MMoveToEnd k last => option_map keep (od_move (td_items d) k last)
  | MIor l => Some (keep (od_update (td_items d) l))
  | MUpdate l => refresh h (od_update (td_items d) l)
  end.
Fixpoint mut_run refresh h (d : tdict) (l : list mut) : option tdict :=
  match l with [] => Some d | o :: t => d' <- mut_step refresh h d o ;; mut_run refresh h d' t end.

(** ** Pytree registration, 526-531 and 733-738 *)
Definition tree_flatten (d : tdict) : list val * list K :=
  (map snd (td_items d), map fst (td_items d)).
Definition tree_unflatten (new : heap -> items -> option tdict) h (keys : list K) (vs : list val)
  : option tdict := new h (combine keys vs).
Definition tree_map new h (g : val -> val) (d : tdict) : option tdict :=
  let (vs, ks) := tree_flatten d in tree_unflatten new h ks (map g vs).

(** block_until_ready, 419-430 and 626-637: blocks on the first key's value; raises for an
    empty key list and for a NumPy value (no such method) *)
Definition block_until_ready (d : tdict) : option tdict :=
  k <- hd_error (td_keys d) ;; v <- od_get (td_items d) k ;;
  if is_jax v then Some d else None.
End Dict.
