(** Allocation and release of memory by the C++ classes: BF.cc, BF.h, BF_Py.cc.

    Memory is the list of blocks that exist: number, how it was obtained, number of elements.
    [None] is undefined behaviour: a block that does not exist is used or released, or it is
    released by the wrong function.  Within a block every access is allowed here; bounds are the
    subject of ModelBFCpp.v, ModelELM.v, ModelND.v, ModelNELM.v.

    Simplifications: allocation never fails; CUDA is absent; the writable attributes [m], [numC],
    [dim], [numBasisFunc], [numBasisFuncFull], [identifier] are not assigned; setters with a wrong
    size end the process, others allocate nothing and are left out; [malloc(0)] is a block. *)
From Coq Require Import List Arith Bool.
From Verif Require Import Base ModelRegistry.
Import ListNotations.

(** [new T[n]], [malloc], [new T], a reference to a Python object *)
Inductive akind := ANew | AMalloc | AObj | APy.
Record block := Block { k_id : nat; k_kind : akind; k_size : nat }.
Record mem := Mem { next : nat; live : list block }.
Definition kind_eqb (a b : akind) : bool :=
  match a, b with ANew, ANew | AMalloc, AMalloc | AObj, AObj | APy, APy => true | _, _ => false end.

Definition cmd (A : Type) := mem -> option (mem * A).
Definition ret {A} (a : A) : cmd A := fun m => Some (m, a).
Definition seqc {A B} (c : cmd A) (f : A -> cmd B) : cmd B :=
  fun m => match c m with Some (m', a) => f a m' | None => None end.
Notation "x <~ c ;; f" := (seqc c (fun x => f)) (at level 61, c at next level, right associativity).
Notation "c ;;; f" := (seqc c (fun _ => f)) (at level 61, right associativity).
Definition anew (k : akind) (n : nat) : cmd nat :=
  fun m => Some (Mem (S (next m)) (Block (next m) k n :: live m), next m).
Definition adel (k : akind) (a : nat) : cmd unit := fun m =>
  match find (fun b => k_id b =? a) (live m) with
  | Some b => if kind_eqb (k_kind b) k then Some (Mem (next m) (filter (fun b => negb (k_id b =? a)) (live m)), tt) else None
  | None => None
  end.
Definition ause (a : nat) : cmd unit := fun m =>
  match find (fun b => k_id b =? a) (live m) with Some _ => Some (m, tt) | None => None end.
Fixpoint times (n : nat) (c : cmd unit) : cmd unit := match n with O => ret tt | S n' => c ;;; times n' c end.

(** ** Objects *)
Definition is_nd (k : bclass) : bool :=
  match k with KnCP | KnLeP | KnFS | KnELMSigmoid | KnELMReLU | KnELMTanh | KnELMSin | KnELMSwish => true | _ => false end.
Definition is_elm (k : bclass) : bool :=
  match k with
  | KELMSigmoid | KELMReLU | KELMTanh | KELMSin | KELMSwish
  | KnELMSigmoid | KnELMReLU | KnELMTanh | KnELMSin | KnELMSwish => true | _ => false end.
(** members; [p_x0], [p_c] are pointers in the n-D classes only, [p_w], [p_b] exist in the ELM classes only.
    [p_num], [p_numFull] are [numBasisFunc], [numBasisFuncFull] (ModelND.v). *)
Record cobj := CObj { p_cls : bclass; p_dim : nat; p_numC : nat; p_m : nat; p_num : nat; p_numFull : nat;
  p_self : nat; p_nC : nat; p_cap : nat; p_x0 : nat; p_c : nat; p_w : nat; p_b : nat }.

(** constructors: BasisFunc BF.cc 25-53, ELM 594-605, nBasisFunc 1013-1062, nELM 1266-1327; the
    object itself is made by pybind11 ([new CP(...)], BF_Py.cc 8-83) *)
Definition construct (k : bclass) (dim numC m num numFull : nat) : cmd cobj :=
  self <~ anew AObj 1 ;;
  if is_nd k then
    x0 <~ anew ANew dim ;; ause self ;;;                                (* 1031, 1286 *)
    nC <~ anew ANew (dim * numC) ;;                                     (* 1034, 1289 *)
    c <~ anew ANew dim ;; ause x0 ;;; ause c ;;;                        (* 1037, 1292 *)
    if is_elm k then
      ause nC ;;; cap <~ anew APy 1 ;;                                  (* 1295-1316 *)
      w <~ anew ANew (dim * m) ;; b <~ anew ANew m ;; ause w ;;; ause b ;;;  (* 1321-1326 *)
      ret (CObj k dim numC m num numFull self nC cap x0 c w b)
    else
      vec <~ anew ANew dim ;; ause vec ;;; ause nC ;;; adel ANew vec ;;;     (* 1045-1050 *)
      cap <~ anew APy 1 ;;                                              (* 1058 *)
      ret (CObj k dim numC m num numFull self nC cap x0 c 0 0)
  else
    nC <~ anew ANew numC ;; ause self ;;;                               (* 28 *)
    cap <~ anew APy 1 ;;                                                (* 49 *)
    if is_elm k then
      w <~ anew ANew m ;; b <~ anew ANew m ;; ause w ;;; ause b ;;;     (* 598-604 *)
      ret (CObj k dim numC m num numFull self nC cap 0 0 w b)
    else ret (CObj k dim numC m num numFull self nC cap 0 0 0 0).

(** destructor bodies, most derived first, the virtual base last: BF.cc 55, 607-610, 1064, 1329-1332, BF.h *)
Inductive dtor := DBasisFunc | DELM | DnBasisFunc | DnELM | Dempty.
Definition dtors (k : bclass) : list dtor :=
  match k with
  | KCP | KLeP | KLaP | KHoPpro | KHoPphy | KFS => [Dempty; DBasisFunc]
  | KELMSigmoid | KELMReLU | KELMTanh | KELMSin | KELMSwish => [Dempty; DELM; DBasisFunc]
  | KnCP | KnLeP | KnFS => [Dempty; Dempty; DnBasisFunc; DBasisFunc]
  | KnELMSigmoid | KnELMReLU | KnELMTanh | KnELMSin | KnELMSwish => [Dempty; DnELM; DnBasisFunc; DBasisFunc]
  end.
Definition run_dtor (o : cobj) (d : dtor) : cmd unit :=
  match d with
  | DBasisFunc => adel ANew (p_nC o)
  | DELM | DnELM => adel ANew (p_b o) ;;; adel ANew (p_w o)
  | DnBasisFunc => adel ANew (p_c o)
  | Dempty => ret tt
  end.
Definition destroy (o : cobj) : cmd unit :=
  fold_right (fun d c => ause (p_self o) ;;; run_dtor o d ;;; c) (adel AObj (p_self o)) (dtors (p_cls o)).

(** ** Methods *)
(** RecurseDeriv: BF.cc 212-237, 282-308, 353-379, 425-449, 495-520; the families differ in the numbers only *)
Definition recurse_deriv (d m n F : nat) : cmd unit :=
  times d (dark <~ anew ANew (m * n) ;; ause F ;;; ause dark ;;; adel ANew dark).
(** Hint of every family: 171-210, 240-280, 311-351, 382-423, 452-493, 523-591, and the 1-D ELM classes 644-1009 *)
Definition hint (o : cobj) (d n z dark : nat) : cmd unit :=
  ause (p_self o) ;;; ause z ;;; ause dark ;;;
  match p_cls o with
  | KFS | KnFS => ret tt
  | KELMSigmoid | KELMReLU | KELMTanh | KELMSin => ause (p_w o) ;;; ause (p_b o)
  | KELMSwish =>                                                        (* 885-886, 1006-1007 *)
      sig <~ anew ANew (n * p_m o) ;; zint <~ anew ANew (n * p_m o) ;;
      ause (p_w o) ;;; ause (p_b o) ;;; ause sig ;;; ause zint ;;; adel ANew sig ;;; adel ANew zint
  | KCP | KLeP | KLaP | KHoPpro | KHoPphy | KnCP | KnLeP => if p_m o <=? 2 then ret tt else recurse_deriv d (p_m o) n dark
  | _ => ret tt                                                         (* nELM: never called *)
  end.
(** the part common to BasisFunc::H and BasisFunc::xla, 57-144; [use] writes the output *)
Definition fill1 (o : cobj) (d n : nat) (full : bool) (dark z : nat) (use : cmd unit) : cmd unit :=
  ause (p_self o) ;;; ause z ;;; hint o d n z dark ;;; (if full then ret tt else ause (p_nC o)) ;;; ause dark ;;; use ;;;
  adel ANew dark ;;; adel ANew z.
Definition H1mem (o : cobj) (d n : nat) (full : bool) : cmd nat :=
  ause (p_self o) ;;; dark <~ anew ANew (n * p_m o) ;; z <~ anew ANew n ;;
  F <~ anew AMalloc ((if full then p_m o else p_m o - p_numC o) * n) ;;
  fill1 o d n full dark z (ause F) ;;; ret F.
Definition xla1mem (o : cobj) (d n : nat) (full : bool) : cmd unit :=
  ause (p_self o) ;;; dark <~ anew ANew (n * p_m o) ;; z <~ anew ANew n ;; fill1 o d n full dark z (ret tt).
(** nBasisFunc::nHint 1106-1146: one dimension after the other, then the products *)
Fixpoint hints (o : cobj) (d : list nat) (dims n z dark T : nat) : cmd unit :=
  match dims with
  | O => ret tt
  | S r => hint o (hd 0 d) n z dark ;;; ause (p_c o) ;;; ause dark ;;; ause T ;;; hints o (tl d) r n z dark T
  end.
Definition nhint (o : cobj) (d : list nat) (n : nat) (use : cmd unit) : cmd unit :=
  dark <~ anew ANew (n * p_m o) ;; T <~ anew ANew (n * p_m o * p_dim o) ;; z <~ anew ANew (n * p_dim o) ;;
  ause (p_x0 o) ;;; ause (p_c o) ;;; ause z ;;;
  hints o d (p_dim o) n z dark T ;;; use ;;;
  vec <~ anew ANew (p_dim o) ;; ause vec ;;; ause T ;;; ause (p_nC o) ;;; use ;;;
  adel ANew vec ;;; adel ANew dark ;;; adel ANew T ;;; adel ANew z.
(** nElmHint of the five classes, 1410-1950; Swish 1738-1740, 1901-1902 *)
Definition nelmhint (o : cobj) (n z : nat) (use : cmd unit) : cmd unit :=
  match p_cls o with
  | KnELMSwish =>
      sig <~ anew ANew (n * p_m o) ;; zint <~ anew ANew (n * p_m o) ;; ause (p_c o) ;;; ause (p_w o) ;;; ause (p_b o) ;;; ause z ;;;
      ause zint ;;; ause sig ;;; use ;;; adel ANew sig ;;; adel ANew zint
  | _ => ause (p_c o) ;;; ause (p_w o) ;;; ause (p_b o) ;;; ause z ;;; use
  end.
(** nELM::nHint 1369-1408; [numC] may have been reset to 0 by the constructor, either branch can run *)
Definition nelm_nhint (o : cobj) (n : nat) (whole : bool) (use : cmd unit) : cmd unit :=
  z <~ anew ANew (n * p_dim o) ;; ause (p_x0 o) ;;; ause (p_c o) ;;; ause z ;;;
  (if whole then nelmhint o n z use
   else dark <~ anew ANew (p_m o * n) ;; nelmhint o n z (ause dark) ;;; ause (p_nC o) ;;; ause dark ;;; use ;;; adel ANew dark) ;;;
  adel ANew z.
Definition nfill (o : cobj) (d : list nat) (n : nat) (full : bool) (use : cmd unit) : cmd unit :=
  ause (p_self o) ;;; if is_elm (p_cls o) then nelm_nhint o n ((p_numC o =? 0) || full) use else nhint o d n use.
(** nBasisFunc::H 1074-1088, nBasisFunc::xla 1094-1104 *)
Definition nHmem (o : cobj) (d : list nat) (n : nat) (full : bool) : cmd nat :=
  ause (p_self o) ;;; F <~ anew AMalloc ((if full then p_numFull o else p_num o) * n) ;; nfill o d n full (ause F) ;;; ret F.
Definition Hmem (o : cobj) (d : list nat) (n : nat) (full : bool) : cmd nat :=
  if is_nd (p_cls o) then nHmem o d n full else H1mem o (hd 0 d) n full.
Definition xlamem (o : cobj) (d : list nat) (n : nat) (full : bool) : cmd unit :=
  if is_nd (p_cls o) then nfill o d n full (ret tt) else xla1mem o (hd 0 d) n full.
(** getW 630-636, 1352-1359; getB 638-644, 1361-1367 *)
Definition getWmem (o : cobj) : cmd nat :=
  ause (p_self o) ;;; F <~ anew AMalloc (if is_nd (p_cls o) then p_m o * p_dim o else p_m o) ;; ause (p_w o) ;;; ause F ;;; ret F.
Definition getBmem (o : cobj) : cmd nat := ause (p_self o) ;;; F <~ anew AMalloc (p_m o) ;; ause (p_b o) ;;; ause F ;;; ret F.

(** ** Python *)
(** what a variable can refer to: object number i, an array owning a block (its capsule calls [free],
    BF_Py.cc 123-129 and the other properties), a view of [c] that keeps object i (229-232), the capsule of object i (96-100) *)
Inductive handle := HObj (i : nat) | HArr (a : nat) | HView (i : nat) | HCap (i : nat).
Record pstate := PState { s_mem : mem; s_objs : list cobj; s_vars : list handle }.
Definition pinit : pstate := PState (Mem 0 []) [] [].
(** [j] is the position of a variable.  [EXla N]: a compiled call carrying identifier N, BF.cc 8-11 *)
Inductive pevent :=
| ENew (k : bclass) (dim numC m num numFull : nat) | ECopy (j : nat) | ERelease (j : nat)
| EH (j : nat) (d : list nat) (n : nat) (full : bool) | EW (j : nat) | EB (j : nat) | EC (j : nat) | ECap (j : nat) | ERead (j : nat)
| EXla (N : nat) (d : list nat) (n : nat) (full : bool).
Definition keeps (i : nat) (h : handle) : bool := match h with HObj i' | HView i' => i' =? i | _ => false end.
Fixpoint drop_nth {X} (j : nat) (l : list X) : list X :=
  match j, l with _, [] => [] | O, _ :: l' => l' | S j', x :: l' => x :: drop_nth j' l' end.

(** the last reference is gone: CPython destroys the object.  The capsule still has the reference taken in
    the constructor, which nothing gives back. *)
Definition release (objs : list cobj) (rest : list handle) (h : handle) : cmd unit :=
  match h with
  | HArr a => adel AMalloc a
  | HObj i | HView i =>
      if existsb (keeps i) rest then ret tt
      else match nth_error objs i with Some o => destroy o | None => ret tt end
  | HCap _ => ret tt
  end.
Definition on_obj (s : pstate) (j : nat) (f : nat -> cobj -> cmd (option handle)) : option pstate :=
  match nth_error (s_vars s) j with
  | Some (HObj i) =>
      match nth_error (s_objs s) i with
      | Some o => match f i o (s_mem s) with
                  | Some (m, Some h) => Some (PState m (s_objs s) (s_vars s ++ [h]))
                  | Some (m, None) => Some (PState m (s_objs s) (s_vars s))
                  | None => None
                  end
      | None => Some s
      end
  | _ => Some s                                                         (* AttributeError *)
  end.
Definition pstep (s : pstate) (e : pevent) : option pstate :=
  match e with
  | ENew k dim numC m num numFull =>
      match construct k dim numC m num numFull (s_mem s) with
      | Some (m', o) => Some (PState m' (s_objs s ++ [o]) (s_vars s ++ [HObj (length (s_objs s))]))
      | None => None
      end
  | ECopy j => match nth_error (s_vars s) j with
               | Some (HArr _) | None => Some s                         (* an alias of an array is the same variable *)
               | Some h => Some (PState (s_mem s) (s_objs s) (s_vars s ++ [h])) end
  | ERelease j =>
      match nth_error (s_vars s) j with
      | Some h => let rest := drop_nth j (s_vars s) in
                  match release (s_objs s) rest h (s_mem s) with
                  | Some (m, _) => Some (PState m (s_objs s) rest)
                  | None => None
                  end
      | None => Some s
      end
  | EH j d n full => on_obj s j (fun _ o => F <~ Hmem o d n full ;; ret (Some (HArr F)))
  | EW j => on_obj s j (fun _ o => if is_elm (p_cls o) then F <~ getWmem o ;; ret (Some (HArr F)) else ret None)
  | EB j => on_obj s j (fun _ o => if is_elm (p_cls o) then F <~ getBmem o ;; ret (Some (HArr F)) else ret None)
  | EC j => on_obj s j (fun i o => ause (p_self o) ;;; if is_nd (p_cls o) then ret (Some (HView i)) else ret None)
  | ECap j => on_obj s j (fun i o => ause (p_self o) ;;; ause (p_cap o) ;;; ret (Some (HCap i)))
  | ERead j =>
      match nth_error (s_vars s) j with
      | Some (HArr a) => r <- ause a (s_mem s) ;; Some s
      | Some (HView i) => match nth_error (s_objs s) i with Some o => r <- ause (p_c o) (s_mem s) ;; Some s | None => Some s end
      | Some (HCap i) => match nth_error (s_objs s) i with Some o => r <- ause (p_cap o) (s_mem s) ;; Some s | None => Some s end
      | _ => Some s
      end
  | EXla N d n full =>
      match nth_error (s_objs s) N with
      | Some o => match xlamem o d n full (s_mem s) with Some (m, _) => Some (PState m (s_objs s) (s_vars s)) | None => None end
      | None => None
      end
  end.
Fixpoint prun (s : pstate) (es : list pevent) : option pstate :=
  match es with [] => Some s | e :: es' => s' <- pstep s e ;; prun s' es' end.
