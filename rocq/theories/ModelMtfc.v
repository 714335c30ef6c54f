(** The multivariate class: /repo/src/tfc/mtfc.py.  Same simplifications as ModelUtfc.v; also:
    - [n] is a list of natural numbers, and [x0], [xf] are one-dimensional ([None] is Python's None);
    - a product of point counts that does not fit int32 is a failure: [self.N] wraps and the
      assignment to the rows of [self.z] then has the wrong length;
    - the array dtypes are not modelled. *)
From Coq Require Import List Arith ZArith Bool.
From Verif Require Import Base ModelBFPy ModelBFCpp ModelELM ModelUtfc ModelND ModelNELM.
Import ListNotations.

Inductive mbasis := MB (f : fam) | ME (f : elm).

(** the [nC] argument.  For an ELM basis the branches are those of utfc.  For a product basis the
    entry of one dimension is an integer or a list (or array) of integers; [MJax2] is a
    two-dimensional jax array. *)
Inductive nc_ent := EInt (n : Z) | EList (l : list Z).
Inductive mnc_arg := MInt (n : Z) | MJax1 (l : list Z) | MJax2 (M : mat Z) | MList (l : list nc_ent)
  | MNumpy (l : list nc_ent).

(** ELM bases, mtfc.py 195-207; nC is one-dimensional there: the entries of a list must be integers *)
Definition ent_int (e : nc_ent) : option Z := match e with EInt n => Some n | EList _ => None end.
Definition mtfc_elm_nC (a : mnc_arg) : option (list Z) :=
  match a with
  | MInt n => utfc_nC (NcInt n)
  | MJax1 l => utfc_nC (NcJax l)
  | MList l => l <- mapM ent_int l ;; utfc_nC (NcList l)
  | MNumpy l => l <- mapM ent_int l ;; utfc_nC (NcNumpy l)
  | MJax2 _ => None
  end.

(** product bases, mtfc.py 208-262 *)
Definition ent_flat (e : nc_ent) : list Z := match e with EInt n => [n] | EList l => l end.   (* 233-236 *)
Definition ent_max (l : list Z) : Z := match l with [n] => n | _ => Z.of_nat (length l) end.  (* 237-240 *)
Definition nc_max (es : list nc_ent) : Z :=                                                   (* 231-242 *)
  fold_left (fun mx e => if Z.ltb mx (ent_max (ent_flat e)) then ent_max (ent_flat e) else mx) es 0%Z.
Definition ent_row (mx : nat) (e : nc_ent) : list Z :=                                        (* 250-261 *)
  let l := match ent_flat e with [n] => map Z.of_nat (seq 0 (Z.to_nat n)) | l => l end in
  l ++ repeat (-1)%Z (mx - length l).
Definition mtfc_rows (dim deg : nat) (es : list nc_ent) : option (mat Z) :=
  if (length es =? dim)%nat then                                                              (* 223-230 *)
    if Z.ltb (Z.of_nat deg) (nc_max es) then None                                             (* 244-247 *)
    else let mx := Z.to_nat (nc_max es) in Some (Mat dim mx (map (ent_row mx) es))
  else None.
Definition mtfc_prod_nC (dim deg : nat) (a : mnc_arg) : option (mat Z) :=
  match a with
  | MInt _ => None                                                                            (* 209-212 *)
  | MJax2 M => if (mr M =? dim)%nat then Some M else None                                     (* 214-221 *)
  | MJax1 l => mtfc_rows dim deg (map EInt l)                                                 (* 222-224 *)
  | MList es | MNumpy es => mtfc_rows dim deg es
  end.

Definition natprod (l : list nat) : nat := fold_right Nat.mul 1%nat l.

Section Mtfc.
Context {T : Type} (A : Ops T) (E : Fun T) (jvpn : (list T -> T) -> list T -> list T -> T).
Local Notation "0" := (o0 A). Local Notation "1" := (o1 A).
Local Infix "+" := (oadd A). Local Infix "-" := (osub A).
Local Infix "*" := (omul A). Local Infix "/" := (odiv A).
Local Notation "# n" := (onat A n) (at level 1).

Record mtfc := Mtfc {
  m_n : list nat; m_N : nat; m_dim : nat; m_be : backend; m_basis : mbasis;
  m_B : nbasis (T:=T); m_w : list T; m_b : list T;                  (* self.basisClass *)
  m_z : list (list T); m_x : list (list T) }.

(** the points of one dimension: 327-329 for CP and LeP (0 divided by 0 with one point), 337-339 otherwise *)
Definition mtfc_axis (bs : mbasis) (x00 : option T) (z0 zf : T) (nk : nat) : option (list T) :=
  match bs with
  | MB CP | MB LeP =>
      x00 <- x00 ;;                                                 (* the argument itself: None[0] *)
      match nk with
      | O => Some []
      | S O => None
      | S j => Some (map (fun I => fcos E (fpi E * (#j - I) / #j)) (linspace A (0 * x00) #j (S j)))
      end
  | _ => Some (linspace A z0 zf nk)
  end.
(** [hstack([dark] * nProd).flatten()], then [array([dark] * nStack).flatten()]; [hstack([])] raises *)
Definition mtfc_spread {X} (axis : list X) (nProd nStack : nat) : option (list X) :=
  if (nProd =? 0)%nat then None
  else Some (concat (repeat (concat (map (fun v => repeat v nProd) axis)) nStack)).
(** 319-342 *)
Definition mtfc_points (bs : mbasis) (n : list nat) (x0 : option (list T)) (z0 zf : T) (c x0v : list T)
    : option (list (list T) * list (list T)) :=
  z <- mapM (fun k =>
         nk <- nth_error n k ;;
         axis <- mtfc_axis bs (l <- x0 ;; nth_error l 0) z0 zf nk ;;
         mtfc_spread axis (natprod (skipn (S k) n)) (natprod (firstn k n))) (seq 0 (length n)) ;;
  x <- mapM (fun k =>
         zk <- nth_error z k ;; ck <- nth_error c k ;; x0k <- nth_error x0v k ;;
         Some (map (fun z => (z - z0) / ck + x0k) zk)) (seq 0 (length n)) ;;
  Some (z, x).

(** [mtfc.__init__], mtfc.py 92-349 *)
Definition mtfc_init (be : backend) (bs : mbasis) (n : list nat) (nC : mnc_arg) (deg dim : nat)
    (x0 xf : option (list T)) (w b : list T) : option mtfc :=
  if negb (length n =? dim)%nat then None                           (* 101-121 *)
  else if negb (Z.ltb (Z.of_nat (natprod n)) 2147483648) then None  (* 122 *)
  else
  let x0v := match x0 with None => repeat 0 dim | Some l => l end in   (* 126-155 *)
  let xfv := match xf with None => repeat 0 dim | Some l => l end in   (* 163-192 *)
  if negb ((length x0v =? dim) && (length xfv =? dim))%nat then None
  else
  r <- match bs with
       | ME _ =>
           nC <- mtfc_elm_nC nC ;;
           if (deg <? length nC)%nat then None                      (* 202-203 *)
           else if existsb (fun i => Z.ltb i 0%Z) nC then None      (* 204-207 *)
           else B <- nelm_init A be x0v xfv nC (deg + 1)%nat ;; Some (B, 0, 1)
       | MB f =>
           nC <- mtfc_prod_nC dim deg nC ;;
           zz <- nd_dom A E f ;;
           B <- nd_init A E be f x0v xfv nC (deg + 1)%nat ;; Some (B, fst zz, snd zz)
       end ;;                                                       (* 265-308 *)
  let '(B, z0, zf) := r in
  zx <- mtfc_points bs n x0 z0 zf (nb_c B) x0v ;;
  Some (Mtfc n (natprod n) dim be bs B w b (fst zx) (snd zx)).

(** [np.array(x)] of the tuple of point arrays: one row per array, all of one length *)
Definition stack (xs : list (list T)) : option (mat T) :=
  match xs with
  | [] => None
  | x :: _ => if forallb (fun y => (length y =? length x)%nat) xs then Some (Mat (length xs) (length x) xs) else None
  end.
(** [self.basisClass.H(np.array(x), d, full)], [H_impl], mtfc.py 546-550; [d] is a tuple *)
Definition mtfc_H (u : mtfc) (xs : list (list T)) (d : list nat) (full : bool) : option (mat T) :=
  x <- stack xs ;;
  match m_basis u with
  | MB f => nd_H A E (m_be u) f (m_B u) x d full
  | ME f => nelm_H A E jvpn (m_be u) f (m_B u) (m_w u) (m_b u) x (DTuple d) full
  end.
(** [self.basisClass.numBasisFunc], [numBasisFuncFull] *)
Definition mtfc_num (u : mtfc) (full : bool) : nat := if full then nb_numFull (m_B u) else nb_num (m_B u).

(** the named methods, mtfc.py 361-525: the tuple of orders; assigning [d[1]] in one dimension is an
    IndexError *)
Inductive mmeth := mmH | mmHx | mmHx2 | mmHy2 | mmHx2y | mmHy | mmHxy | mmHz.
Definition at_k (dim k v : nat) : list nat := map (fun i => if (i =? k)%nat then v else O) (seq 0 dim).
Definition mmeth_orders (m : mmeth) (dim : nat) : option (list nat) :=
  match m with
  | mmH => Some (repeat O dim)
  | mmHx => Some (at_k dim 0 1)
  | mmHx2 => Some (at_k dim 0 2)
  | mmHy2 => Some (at_k dim 1 2)
  | mmHx2y => match dim with O | S O => None | S (S n) => Some (2 :: 1 :: repeat O n)%nat end
  | mmHy => Some (at_k dim 1 1)
  | mmHxy => match dim with O | S O => None | S (S n) => Some (1 :: 1 :: repeat O n)%nat end
  | mmHz => Some (at_k dim 2 1)
  end.
Definition mtfc_call (u : mtfc) (m : mmeth) (xs : list (list T)) (full : bool) : option (mat T) :=
  d <- mmeth_orders m (m_dim u) ;; mtfc_H u xs d full.

(** [H_abstract_eval], mtfc.py 554-564, on the shape of the first array *)
Definition mtfc_abstract (u : mtfc) (shape : list nat) (full : bool) : list nat :=
  match shape with [] => [mtfc_num u full] | n :: _ => [n; mtfc_num u full] end.

(** the compiled call, [H_xla], mtfc.py 573-606: the arrays are concatenated; sizes of the result *)
Definition mtfc_compiled (u : mtfc) (xs : list (list T)) (d : list nat) (full : bool) : option (mat T) :=
  match m_be u, xs with
  | Py, _ => None
  | Cpp, [] => None
  | Cpp, x :: _ =>
      let dim0 := length x in
      let dim1 := mtfc_num u full in
      let out := bnew (dim0 * dim1)%nat in
      F <- match m_basis u with
           | MB f => cpp_n_xla A E f (m_B u) (bof (concat xs)) d full dim0 dim1 out
           | ME f => cpp_nelm_xla A E f (m_B u) (m_w u) (m_b u) (bof (concat xs)) d full dim0 dim1 out
           end ;;
      rows <- buf_matrix F dim0 dim1 ;;
      Some (Mat dim0 dim1 rows)
  end.

(** [H_batch], mtfc.py 609-610, for a scalar call mapped over arrays *)
Definition mvmap_H (u : mtfc) (xs : list (list T)) (d : list nat) (full : bool) : option (list (list T)) :=
  M <- mtfc_H u xs d full ;; Some (md M).

(** [H_jvp], mtfc.py 615-637, for one-dimensional point arrays.  [None] is the symbolic zero
    [ad.Zero].  (Not modelled: scalar points inside a [vmap], for which [shape[0]] raises.) *)
Definition mat_zeros (r c : nat) : mat T := Mat r c (repeat (repeat 0 c) r).
Definition mat_add (M N : mat T) : option (mat T) :=
  if ((mr M =? mr N) && (mc M =? mc N))%nat
  then Some (Mat (mr M) (mc M) (map (fun p => map (fun q => fst q + snd q) (combine (fst p) (snd p))) (combine (md M) (md N))))
  else None.
Definition bump (d : list nat) (k : nat) : list nat :=
  map (fun j => if (k =? j)%nat then S (nth j d O) else nth j d O) (seq 0 (length d)).
Definition mtfc_jvp (u : mtfc) (xs : list (list T)) (tans : list (option (list T))) (d : list nat) (full : bool)
    : option (mat T * mat T) :=
  x0 <- nth_error xs 0 ;;
  out <- for_ 0 (length xs) (fun k out =>
           t <- nth_error tans k ;;
           match t with
           | None => Some out
           | Some tk =>
               if existsb (nonzero A E) tk then
                 Hk <- mtfc_H u xs (bump d k) full ;;
                 S <- scale_rows A Hk tk ;;
                 mat_add out S
               else Some out
           end) (mat_zeros (length x0) (mtfc_num u full)) ;;
  M <- mtfc_H u xs d full ;;
  Some (M, out).
End Mtfc.
Arguments Mtfc {T}. Arguments m_n {T}. Arguments m_N {T}. Arguments m_dim {T}. Arguments m_be {T}.
Arguments m_basis {T}. Arguments m_B {T}. Arguments m_w {T}. Arguments m_b {T}. Arguments m_z {T}. Arguments m_x {T}.
