(** What the [timer] option of LS, LsClass, NLLS and NllsClass measures, and what
    [block_until_ready] waits for (utils/TFCUtils.py 419-430, 626-637, 869-885, 1022-1041,
    1267-1287, 1485-1517).

    jax runs compiled functions asynchronously: a call compiles when the signature of its
    arguments (structure, shapes, dtypes) is new to the compiled function, starts a
    computation and returns at once; the computation ends at some later time, decided by the
    device.  [x.block_until_ready()] returns when the computation that makes [x] has ended;
    all results of one call are results of one computation.
    Simplifications: computations are numbered in the order of their start; the first call
    of NLLS ([it] = maxIter - 1) has the signature of the second ([it] = 0), as it has when
    maxIter is a Python int. *)
From Coq Require Import List Arith Bool.
From Verif Require Import Base ModelDict.
Import ListNotations.

Definition sig := nat.
Inductive event := ECompile (k : sig) | EStart (c : nat) | EEnd (c : nat) | EClock.

(** compiled signatures, computations that have not ended, number of computations so far *)
Record st := St { s_cache : list sig; s_run : list nat; s_next : nat }.

(** [f(args)]; [.block_until_ready()] on a result of the last call; [timer()] *)
Inductive cmd := Call (k : sig) | WaitLast | Clock.

Definition call (s : st) (k : sig) : list event * st :=
  (if existsb (Nat.eqb k) (s_cache s) then [EStart (s_next s)] else [ECompile k; EStart (s_next s)],
   St (k :: s_cache s) (s_next s :: s_run s) (S (s_next s))).

Inductive exec : st -> list cmd -> list event -> st -> Prop :=
| x_done s : exec s [] [] s
| x_end s c p t s' : In c (s_run s) ->
    exec (St (s_cache s) (remove Nat.eq_dec c (s_run s)) (s_next s)) p t s' -> exec s p (EEnd c :: t) s'
| x_call s k p t s' : exec (snd (call s k)) p t s' -> exec s (Call k :: p) (fst (call s k) ++ t) s'
| x_wait s p t s' : (forall c, S c = s_next s -> ~ In c (s_run s)) -> exec s p t s' -> exec s (WaitLast :: p) t s'
| x_clock s p t s' : exec s p t s' -> exec s (Clock :: p) (EClock :: t) s'.

(** LS with [timer=True], 872-879, and NLLS, 1271-1279 *)
Definition fun_timed (k : sig) : list cmd :=
  [Call k; WaitLast; Clock; Call k; WaitLast; Clock].
(** the same without timer, 884-885 and 1283-1287 *)
Definition fun_plain (k : sig) : list cmd := [Call k].

(** the [run] methods: LsClass 1022-1041, NllsClass 1489-1517; [compiled] is the attribute
    [_compiled].  LsClass.run without timer refers to a name that does not exist and raises
    before anything is called. *)
Inductive cls := CLs | CNlls.
Definition run_timed (compiled : bool) (k : sig) : list cmd :=
  (if compiled then [] else [Call k; WaitLast]) ++ [Clock; Call k; WaitLast; Clock].
Definition run_prog (c : cls) (timer compiled : bool) (k : sig) : list cmd :=
  if timer then run_timed compiled k else match c with CLs => [] | CNlls => [Call k] end.
Definition run_flag (c : cls) (timer compiled : bool) : bool :=
  if timer then true else match c with CLs => compiled | CNlls => true end.

(** runs of one object, one after another; the attribute [timer] may be changed in between *)
Inductive runs (c : cls) : bool -> st -> list (bool * sig) -> list (list event) -> Prop :=
| r_nil b s : runs c b s [] []
| r_cons b s tm k l t s' ts : exec s (run_prog c tm b k) t s' ->
    runs c (run_flag c tm b) s' l ts -> runs c b s ((tm, k) :: l) (t :: ts).

(** [d.block_until_ready()]: the computation it waits for, when the value of key [k] was made
    by computation [by_ k]; [None] when it raises (419-430, 626-637) *)
Definition dict_wait {T K} (keq : K -> K -> bool) (by_ : K -> nat) (d : @tdict T K) : option nat :=
  d <- block_until_ready keq d ;; k <- hd_error (td_keys d) ;; Some (by_ k).
