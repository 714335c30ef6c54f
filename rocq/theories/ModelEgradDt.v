(** egrad and egradRobust (utils/TFCUtils.py 75-117, 120-200) with the dtypes of their arguments, and
    complex entries.

    [jax.jvp] refuses tangents whose dtype is not the tangent dtype of the argument: floating and
    complex types are their own tangent types, those of integers and booleans have no NumPy
    counterpart here.  [onp.ones(shape)] without a dtype is float64 (107-112), [onesRobust] and
    [zerosRobust] take the dtype of the array (140, 161).  Otherwise jvp is what it computes: the
    derivative along the straight line through the arguments in the direction of the tangents.
    tfc switches jax to 64 bits, so float64 is not narrowed. *)
From Coq Require Import Reals List Bool Arith String.
From Coquelicot Require Import Coquelicot.
From Verif Require Import Base.
Import ListNotations.
Local Open Scope C_scope.

Inductive ndtype := Float16 | Float32 | Float64 | Complex64 | Complex128 | Int64 | BoolT.
Record carr := CArr { c_dt : ndtype; c_sh : list nat; c_dat : list C }.
Definition c_numel (sh : list nat) : nat := fold_right Nat.mul 1%nat sh.
(** arguments: arrays, dictionaries of arrays, or Python numbers (which have no shape) *)
Inductive carg := CA (a : carr) | CD (d : list (string * carr)) | CN (x : C).
(** [onp.ones(shape, dtype)], [onp.zeros(shape, dtype)] *)
Definition fill_ (x : C) (dt : ndtype) (sh : list nat) : carr := CArr dt sh (repeat x (c_numel sh)).
(** [a + t * v] *)
Definition c_along (t : R) (a v : carr) : carr :=
  CArr (c_dt a) (c_sh a) (map (fun p => fst p + RtoC t * snd p) (combine (c_dat a) (c_dat v))).
Definition c_along_arg (t : R) (a v : carg) : carg :=
  match a, v with
  | CA a, CA v => CA (c_along t a v)
  | CD d, CD e => CD (map (fun p => (fst (fst p), c_along t (snd (fst p)) (snd (snd p)))) (combine d e))
  | _, _ => a
  end.
Definition c_along_args (t : R) (args tans : list carg) : list carg :=
  map (fun p => c_along_arg t (fst p) (snd p)) (combine args tans).
Definition tangent_dtype (dt : ndtype) : option ndtype :=
  match dt with Int64 | BoolT => None | _ => Some dt end.
Definition ndtype_eqb (a b : ndtype) : bool :=
  match a, b with
  | Float16, Float16 | Float32, Float32 | Float64, Float64 | Complex64, Complex64 | Complex128, Complex128
  | Int64, Int64 | BoolT, BoolT => true
  | _, _ => false
  end.
Definition leaf_ok (a v : carr) : bool :=
  match tangent_dtype (c_dt a) with Some dt => ndtype_eqb dt (c_dt v) | None => false end.
Definition arg_ok (a v : carg) : bool :=
  match a, v with
  | CA a, CA v => leaf_ok a v
  | CD d, CD e => forallb (fun p => leaf_ok (snd (fst p)) (snd (snd p))) (combine d e)
  | _, _ => false
  end.
(** [_, v = jvp(g, args, tans)]; [None] is a TypeError *)
Definition is_cjvp (g : list carg -> carr) (args tans : list carg) (r : option carr) : Prop :=
  if forallb (fun p => arg_ok (fst p) (snd p)) (combine args tans) then
    exists v, r = Some v /\ c_sh v = c_sh (g args) /\ List.length (c_dat v) = List.length (c_dat (g args)) /\
    forall i, (i < List.length (c_dat v))%nat ->
      @is_derive R_AbsRing C_R_NormedModule (fun t : R => nth i (c_dat (g (c_along_args t args tans))) 0) 0%R (nth i (c_dat v) 0)
  else r = None.

(** the tangents egrad builds, 107-112: [None] when an argument has no shape *)
Definition c_egrad_tans (j : nat) (args : list carg) : option (list carg) :=
  mapM (fun p : nat * carg => match snd p with
        | CA a => Some (CA (if (fst p =? j)%nat then fill_ 1 Float64 (c_sh a) else fill_ 0 Float64 (c_sh a)))
        | _ => None
        end) (combine (seq 0 (List.length args)) args).
Definition is_cegrad (g : list carg -> carr) (j : nat) (args : list carg) (r : option carr) : Prop :=
  match c_egrad_tans j args with
  | Some tans => is_cjvp g args tans r
  | None => r = None
  end.
(** onesRobust (x = 1) and zerosRobust (x = 0), 120-161 *)
Definition c_fillRobust (x : C) (a : carg) : option carg :=
  match a with
  | CA a => Some (CA (fill_ x (c_dt a) (c_sh a)))
  | CD d => Some (CD (map (fun p => (fst p, fill_ x (c_dt (snd p)) (c_sh (snd p)))) d))
  | CN _ => None
  end.
Definition c_egradRobust_tans (j : nat) (args : list carg) : option (list carg) :=
  mapM (fun p : nat * carg => c_fillRobust (if (fst p =? j)%nat then 1 else 0) (snd p))
    (combine (seq 0 (List.length args)) args).
Definition is_cegradRobust (g : list carg -> carr) (j : nat) (args : list carg) (r : option carr) : Prop :=
  match c_egradRobust_tans j args with
  | Some tans => is_cjvp g args tans r
  | None => r = None
  end.
