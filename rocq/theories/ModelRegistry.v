(** The C++ object registry: BF.cc 1-11 and 41-44, 1049-1052, 1314-1317.

    Every constructor of a concrete class runs exactly one registering constructor: the 1-D classes
    that of [BasisFunc] (through [ELM] for the ELM classes, BF.h 136-411), the n-D classes that of
    [nBasisFunc] or [nELM]; the dummy constructors ([BasisFunc()], [CP()], [LeP()], [FS()],
    [nBasisFunc()], BF.h 101-254, 468) register nothing.  Copying and moving are deleted.
    Destructors (BF.cc 55, 1064, 1330) do not touch the registry.

    The heap maps an address to the object living there; the allocator may choose any address that
    holds no live object.  [P] is what distinguishes objects (class, parameters, weights). *)
From Coq Require Import List Arith Bool.
From Verif Require Import Base.
Import ListNotations.

Inductive bclass := KCP | KLeP | KLaP | KHoPpro | KHoPphy | KFS
  | KELMSigmoid | KELMReLU | KELMTanh | KELMSin | KELMSwish
  | KnCP | KnLeP | KnFS | KnELMSigmoid | KnELMReLU | KnELMTanh | KnELMSin | KnELMSwish.
(** the constructors run, base first, by the mem-initialisers of BF.h *)
Inductive ctor := Cdummy | CBasisFunc | CELM | CnBasisFunc | CnBasisFunc0 | CnELM | Cleaf.
Definition ctors (k : bclass) : list ctor :=
  match k with
  | KCP | KLeP | KLaP | KHoPpro | KHoPphy | KFS => [CBasisFunc; Cleaf]
  | KELMSigmoid | KELMReLU | KELMTanh | KELMSin | KELMSwish => [CBasisFunc; CELM; Cleaf]
  | KnCP | KnLeP | KnFS => [Cdummy; CnBasisFunc; Cdummy; Cleaf]   (* virtual base, nBasisFunc, CP(), leaf *)
  | KnELMSigmoid | KnELMReLU | KnELMTanh | KnELMSin | KnELMSwish => [Cdummy; CnBasisFunc0; CnELM; Cleaf]
  end.

Section Reg.
Context {P : Type}.
Record object := Obj { o_id : option nat; o_pay : P }.            (* identifier: unset before registration *)
Record reg := Reg {
  r_next : nat;                                                    (* BasisFunc::nIdentifier *)
  r_cont : list nat;                                               (* BasisFunc::BasisFuncContainer *)
  r_heap : nat -> option object }.
Definition reg0 : reg := Reg 0 [] (fun _ => None).

Definition heap_set (h : nat -> option object) (a : nat) (o : option object) : nat -> option object :=
  fun b => if b =? a then o else h b.

(** one constructor body running on the object at [a] *)
Definition run_ctor (a : nat) (s : reg) (c : ctor) : reg :=
  match c with
  | CBasisFunc | CnBasisFunc | CnELM =>
      let o := match r_heap s a with
               | Some o => Some (Obj (Some (r_next s)) (o_pay o)) | None => None end in
      Reg (S (r_next s)) (r_cont s ++ [a]) (heap_set (r_heap s) a o)
  | Cdummy | CELM | CnBasisFunc0 | Cleaf => s
  end.

Inductive rop := New (k : bclass) (a : nat) (p : P) | Delete (a : nat).
(** [None]: the address is taken, or the object to delete does not exist *)
Definition reg_step (s : reg) (op : rop) : option reg :=
  match op with
  | New k a p =>
      match r_heap s a with
      | Some _ => None
      | None => Some (fold_left (run_ctor a) (ctors k)
                  (Reg (r_next s) (r_cont s) (heap_set (r_heap s) a (Some (Obj None p)))))
      end
  | Delete a =>
      match r_heap s a with
      | Some _ => Some (Reg (r_next s) (r_cont s) (heap_set (r_heap s) a None))
      | None => None
      end
  end.
Fixpoint reg_run (s : reg) (h : list rop) : option reg :=
  match h with [] => Some s | op :: h' => s' <- reg_step s op ;; reg_run s' h' end.

(** [xlaWrapper], BF.cc 8-11: the object whose [xla] method serves a call carrying identifier [n].
    [None]: out of range, or the address holds no object any more. *)
Definition dispatch (s : reg) (n : nat) : option object :=
  a <- nth_error (r_cont s) n ;; r_heap s a.
End Reg.
Arguments object : clear implicits. Arguments reg : clear implicits. Arguments rop : clear implicits.
