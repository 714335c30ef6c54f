(** egrad, egradRobust, onesRobust, zerosRobust, step (utils/TFCUtils.py 75-117, 120-200, 1731-1746).

    Arrays hold real numbers in row-major order next to their shape.  [jax.jvp] is modelled by
    what it computes: the derivative of the function along the straight line through the
    arguments in the direction of the tangents.  The unwrapping of jitted functions in
    egradRobust (180) does not change the function and is left out; so are dtypes. *)
From Coq Require Import Reals List Bool Arith String.
From Coquelicot Require Import Coquelicot.
From Verif Require Import Base.
Import ListNotations.
Local Open Scope R_scope.

Record arr := Arr { a_sh : list nat; a_dat : list R }.
Definition numel (sh : list nat) : nat := fold_right Nat.mul 1%nat sh.
Definition wf_arr (a : arr) : Prop := List.length (a_dat a) = numel (a_sh a).
(** [onp.ones(shape)], [onp.zeros(shape)] *)
Definition ones (sh : list nat) : arr := Arr sh (repeat 1 (numel sh)).
Definition zeros (sh : list nat) : arr := Arr sh (repeat 0 (numel sh)).
(** [a + t * v] *)
Definition along (t : R) (a v : arr) : arr :=
  Arr (a_sh a) (map (fun p => fst p + t * snd p) (combine (a_dat a) (a_dat v))).

(** arguments: arrays, dictionaries of arrays, or Python numbers (which have no shape) *)
Inductive arg := AArr (a : arr) | ADict (d : list (string * arr)) | ANum (x : R).
Definition along_arg (t : R) (a v : arg) : arg :=
  match a, v with
  | AArr a, AArr v => AArr (along t a v)
  | ADict d, ADict e => ADict (map (fun p => (fst (fst p), along t (snd (fst p)) (snd (snd p)))) (combine d e))
  | _, _ => a
  end.
Definition along_args (t : R) (args tans : list arg) : list arg :=
  map (fun p => along_arg t (fst p) (snd p)) (combine args tans).
(** [_, v = jvp(g, args, tans)] *)
Definition is_jvp (g : list arg -> arr) (args tans : list arg) (v : arr) : Prop :=
  a_sh v = a_sh (g args) /\ List.length (a_dat v) = List.length (a_dat (g args)) /\
  forall i, (i < List.length (a_dat v))%nat ->
    is_derive (fun t => nth i (a_dat (g (along_args t args tans))) 0) 0 (nth i (a_dat v) 0).

(** the tangents egrad builds, 107-112: [None] when an argument has no shape *)
Definition egrad_tans (j : nat) (args : list arg) : option (list arg) :=
  mapM (fun p : nat * arg => match snd p with
        | AArr a => Some (AArr (if (fst p =? j)%nat then ones (a_sh a) else zeros (a_sh a)))
        | _ => None
        end) (combine (seq 0 (List.length args)) args).
Definition is_egrad (g : list arg -> arr) (j : nat) (args : list arg) (r : option arr) : Prop :=
  match egrad_tans j args with
  | Some tans => exists v, r = Some v /\ is_jvp g args tans v
  | None => r = None
  end.
(** onesRobust, zerosRobust, 120-160; numbers have no shape either *)
Definition onesRobust (a : arg) : option arg :=
  match a with
  | AArr a => Some (AArr (ones (a_sh a)))
  | ADict d => Some (ADict (map (fun p => (fst p, ones (a_sh (snd p)))) d))
  | ANum _ => None
  end.
Definition zerosRobust (a : arg) : option arg :=
  match a with
  | AArr a => Some (AArr (zeros (a_sh a)))
  | ADict d => Some (ADict (map (fun p => (fst p, zeros (a_sh (snd p)))) d))
  | ANum _ => None
  end.
Definition egradRobust_tans (j : nat) (args : list arg) : option (list arg) :=
  mapM (fun p : nat * arg => if (fst p =? j)%nat then onesRobust (snd p) else zerosRobust (snd p))
    (combine (seq 0 (List.length args)) args).
Definition is_egradRobust (g : list arg -> arr) (j : nat) (args : list arg) (r : option arr) : Prop :=
  match egradRobust_tans j args with
  | Some tans => exists v, r = Some v /\ is_jvp g args tans v
  | None => r = None
  end.

(** [jnp.heaviside(x, h) = where(x < 0, 0, where(x > 0, 1, h))] and its derivative rule:
    [where] picks the derivative of the picked branch *)
Definition heaviside (x h : R) : R :=
  if Rlt_dec x 0 then 0 else if Rlt_dec 0 x then 1 else h.
Definition heaviside_jvp (x h x' h' : R) : R :=
  if Rlt_dec x 0 then 0 else if Rlt_dec 0 x then 0 else h'.
(** step, 1731-1746, and its derivative *)
Definition step (x : R) : R := heaviside x 0.
Definition step_jvp (x x' : R) : R := heaviside_jvp x 0 x' 0.
