(** The [int] arithmetic of the C++ basis classes: sizes of blocks and indexes into them, BF.cc.

    Every [int] operation is checked against the range of a 32-bit [int], every access against the
    size of its block.  [None] is undefined behaviour: a result outside the range, a block of
    negative size, an access outside a block.  The numbers stored in blocks of doubles do not
    matter here (the control flow does not depend on them, except that the n-D ReLU skips some
    assignments to cells it has just read); they are the subject of ModelBFCpp.v, ModelELM.v,
    ModelND.v, ModelNELM.v, whose indexes are natural numbers without a bound.

    Simplifications: allocation of a block of non-negative size succeeds; a block is its size;
    searches through [nC] do not stop early; conversions of an [int] to [size_t] and the product
    with [sizeof(double)] are exact on 64 bits once the [int] is not negative; the loop counter of
    a loop with an [int] bound cannot overflow; CUDA is absent. *)
From Coq Require Import List ZArith Bool.
From Verif Require Import Base ModelRegistry.
Import ListNotations.
Local Open Scope Z_scope.

Definition INT_MAX : Z := 2147483647.
Definition INT_MIN : Z := -2147483648.
(** an expression of type [int] *)
Definition iexp := option Z.
Definition lit (z : Z) : iexp := Some z.
Coercion lit : Z >-> iexp.
Definition int (z : Z) : iexp := if (INT_MIN <=? z) && (z <=? INT_MAX) then Some z else None.
Definition iop (f : Z -> Z -> Z) (a b : iexp) : iexp := x <- a ;; y <- b ;; int (f x y).
Declare Scope int_scope.
Delimit Scope int_scope with int.
Bind Scope int_scope with iexp.
Notation "a + b" := (iop Z.add a b) : int_scope.
Notation "a - b" := (iop Z.sub a b) : int_scope.
Notation "a * b" := (iop Z.mul a b) : int_scope.

Definition cmd := option unit.
Definition skip : cmd := Some tt.
Notation "a ;;; b" := (bind a (fun _ : unit => b)) (at level 100, right associativity).
(** a block is the number of its elements *)
Definition new (e : iexp) : option Z := s <- e ;; if 0 <=? s then Some s else None.
Definition at_ (b : Z) (e : iexp) : cmd := i <- e ;; if (0 <=? i) && (i <? b) then skip else None.
Arguments new e%int. Arguments at_ b%Z e%int.
(** [memcpy] of the first [e] elements *)
Definition copy (dst src : Z) (e : iexp) : cmd := s <- e ;; if (0 <=? s) && (s <=? dst) && (s <=? src) then skip else None.
Arguments copy dst%Z src%Z e%int.
Fixpoint each {X} (l : list X) (f : X -> cmd) : cmd :=
  match l with [] => skip | a :: r => f a ;;; each r f end.
Definition range (lo hi : Z) : list Z := map (fun i => lo + Z.of_nat i) (seq 0 (Z.to_nat (hi - lo))).
(** [for (k = lo; k < hi; k++) f] *)
Definition for_ (lo : Z) (hi : iexp) (f : Z -> cmd) : cmd := h <- hi ;; each (range lo h) f.
Arguments for_ lo%Z hi%int f.
Definition numC_of (nC : list Z) : Z := Z.of_nat (length nC).

(** ** Hint of the families
    [m] basis functions, [n] points, [x] and [dark] the blocks of points and of results *)

(** RecurseDeriv: CP 212-236, with [steps] orders still to go; [o] is [dCurr] *)
Fixpoint cp_deriv (m n x F : Z) (o steps : nat) : cmd :=
  match steps with
  | O => skip
  | S s =>
      dark <- new (m * n) ;; copy dark F (m * n) ;;;
      (match o with
       | O => for_ 0 n (fun k => at_ F (m * k) ;;; at_ F (m * k + 1))
       | 1%nat => for_ 0 n (fun k => at_ F (m * k + 1))
       | _ => skip
       end) ;;;
      for_ 2 m (fun k => for_ 0 n (fun j =>
        at_ dark (m * j + k - 1) ;;; at_ x j ;;; at_ F (m * j + k - 1) ;;; at_ F (m * j + k - 2) ;;; at_ F (m * j + k))) ;;;
      cp_deriv m n x F (S o) s
  end.
(** RecurseDeriv: LeP 279-307, LaP 350-378, HoPpro 421-448, HoPphy 491-519 *)
Fixpoint poly_deriv (m n x F : Z) (o steps : nat) : cmd :=
  match steps with
  | O => skip
  | S s =>
      dark <- new (m * n) ;; copy dark F (m * n) ;;;
      (match o with
       | O => for_ 0 n (fun k => at_ F (m * k) ;;; at_ F (m * k + 1))
       | 1%nat => for_ 0 n (fun k => at_ F (m * k + 1))
       | _ => skip
       end) ;;;
      for_ 1 (m - 1) (fun k => for_ 0 n (fun j =>
        at_ dark (m * j + k) ;;; at_ x j ;;; at_ F (m * j + k) ;;; at_ F (m * j + k - 1) ;;; at_ F (m * j + k + 1))) ;;;
      poly_deriv m n x F (S o) s
  end.
(** Hint: 171-210 (CP), 240-277 (LeP), 311-348 (LaP), 383-419 (HoPpro), 453-489 (HoPphy) *)
Definition poly_hint (cheb : bool) (m n : Z) (d : nat) (x dark : Z) : cmd :=
  deg <- (m - 1)%int ;;
  if deg =? 0 then for_ 0 n (fun k => at_ dark k)
  else if deg =? 1 then
    match d with
    | O => for_ 0 n (fun k => at_ dark (m * k) ;;; at_ dark (m * k + 1) ;;; at_ x k)
    | 1%nat => for_ 0 n (fun k => at_ dark (m * k) ;;; at_ dark (m * k + 1))
    | _ => for_ 0 (m * n) (fun k => at_ dark k)
    end
  else
    for_ 0 n (fun k => at_ dark (m * k) ;;; at_ dark (m * k + 1) ;;; at_ x k) ;;;
    (if cheb then
       for_ 2 m (fun k => for_ 0 n (fun j =>
         at_ x j ;;; at_ dark (m * j + k - 1) ;;; at_ dark (m * j + k - 2) ;;; at_ dark (m * j + k)))
     else
       for_ 1 (m - 1) (fun k => for_ 0 n (fun j =>
         at_ x j ;;; at_ dark (m * j + k) ;;; at_ dark (m * j + k - 1) ;;; at_ dark (m * j + k + 1)))) ;;;
    if cheb then cp_deriv m n x dark 0 d else poly_deriv m n x dark 0 d.
(** Hint: 524-590 (FS); the four branches access the same cells *)
Definition fs_hint (m n : Z) (x dark : Z) : cmd :=
  for_ 0 n (fun k => at_ dark (m * k)) ;;;
  for_ 1 m (fun j => for_ 0 n (fun k => at_ x k ;;; at_ dark (m * k + j))).
(** one pass over all cells, with weights [w], [b]: 652-656, 684-687, 774-777, 853-858 *)
Definition elm_pass (m n : Z) (x dark w b : Z) : cmd :=
  for_ 0 n (fun j => for_ 0 m (fun k => at_ w k ;;; at_ x j ;;; at_ b k ;;; at_ dark (m * j + k))).
(** a pass that only reads the cells and the weights: the cases of the switches 689-763, 779-844 *)
Definition elm_again (m n : Z) (dark w : Z) : cmd :=
  for_ 0 n (fun j => for_ 0 m (fun k => at_ w k ;;; at_ dark (m * j + k))).
Definition elm_hint (k : bclass) (m n : Z) (d : nat) (x dark w b : Z) : cmd :=
  match k with
  | KELMReLU => match d with 0%nat | 1%nat => elm_pass m n x dark w b | _ => elm_again m n dark w end   (* 647-675 *)
  | KELMSin => elm_pass m n x dark w b                                                                 (* 850-879 *)
  | KELMSwish =>                                                                                       (* 883-1009 *)
      sig <- new (n * m) ;; zint <- new (n * m) ;;
      match d with
      | O => elm_pass m n x dark w b
      | _ => elm_pass m n x zint w b ;;; elm_again m n sig w ;;;
             if (d <=? 8)%nat then elm_again m n dark w ;;; elm_again m n sig w ;;; elm_again m n zint w else skip
      end
  | _ =>                                                                                               (* 679-765, 769-846 *)
      elm_pass m n x dark w b ;;;
      if (1 <=? d)%nat && (d <=? 8)%nat then elm_again m n dark w else skip
  end.
Definition hint (k : bclass) (m n : Z) (d : nat) (x dark w b : Z) : cmd :=
  match k with
  | KCP | KnCP => poly_hint true m n d x dark
  | KLeP | KLaP | KHoPpro | KHoPphy | KnLeP => poly_hint false m n d x dark
  | KFS | KnFS => fs_hint m n x dark
  | _ => elm_hint k m n d x dark w b
  end.

(** the kinds of classes of BF.h *)
Definition is_elm (k : bclass) : bool := match k with KCP | KLeP | KLaP | KHoPpro | KHoPphy | KFS | KnCP | KnLeP | KnFS => false | _ => true end.
Definition one_d (k : bclass) : bool :=
  match k with
  | KCP | KLeP | KLaP | KHoPpro | KHoPphy | KFS | KELMSigmoid | KELMReLU | KELMTanh | KELMSin | KELMSwish => true
  | _ => false end.
Definition n_d (k : bclass) : bool := match k with KnCP | KnLeP | KnFS => true | _ => false end.
Definition n_elm (k : bclass) : bool :=
  match k with KnELMSigmoid | KnELMReLU | KnELMTanh | KnELMSin | KnELMSwish => true | _ => false end.

(** ** The one-dimensional classes *)

(** the columns that stay: [i] is the number of the last column written, BF.cc 72-90, 122-140 *)
Fixpoint columns (js : list Z) (nC : list Z) (m n mOut F dark : Z) (i : Z) : cmd :=
  match js with
  | [] => skip
  | j :: r =>
      for_ 0 (numC_of nC) (fun k => at_ (numC_of nC) k) ;;;
      if existsb (Z.eqb j) nC then columns r nC m n mOut F dark i
      else i <- (i + 1)%int ;;
           for_ 0 n (fun k => at_ dark (m * k + j) ;;; at_ F (mOut * k + i)) ;;;
           columns r nC m n mOut F dark i
  end.
(** the end of [H] and of [xla]: 72-96, 121-146 *)
Definition store (nC : list Z) (m n mOut F dark : Z) (full : bool) : cmd :=
  if full then for_ 0 m (fun j => for_ 0 n (fun k => at_ dark (m * k + j) ;;; at_ F (m * k + j)))
  else columns (range 0 m) nC m n mOut F dark (-1).
(** [x] has [n] entries; 61-67, 108-117 *)
Definition mapped (n : Z) : option Z := z <- new n ;; for_ 0 n (fun k => at_ n k ;;; at_ z k) ;;; Some z.
(** BasisFunc::H 57-99; the result is the shape *)
Definition H_int (c : bclass) (m : Z) (nC : list Z) (n : Z) (d : nat) (full : bool) : option (Z * Z) :=
  mOut <- (if full then lit m else (m - numC_of nC)%int) ;;
  dark <- new (n * m) ;;
  z <- mapped n ;;
  F <- new (mOut * n) ;;
  hint c m n d z dark m m ;;;
  store nC m n mOut F dark full ;;;
  Some (n, mOut).
(** BasisFunc::xla 101-149: the block of results, with [n * mOut] cells, and the shape are XLA's *)
Definition xla_int (c : bclass) (m : Z) (nC : list Z) (n : Z) (d : nat) (full : bool) (mOut : Z) : cmd :=
  dark <- new (n * m) ;;
  z <- mapped n ;;
  hint c m n d z dark m m ;;;
  store nC m n mOut (Z.mul n mOut) dark full.

(** ** The n-dimensional classes *)

(** [sum += vec[j]] for all [j], from 0 *)
Definition isum (vec : list Z) : iexp := fold_left (fun s v => (s + lit v)%int) vec (lit 0).
(** "at least one of the dimensions' basis functions is not a constraint", 1166-1176, 1228-1238;
    [nC] row by row *)
Definition flagged (dim numC : Z) (nC : list Z) (vec : list Z) : option bool :=
  for_ 0 dim (fun j => for_ 0 numC (fun g => at_ dim j ;;; at_ (Z.of_nat (length nC)) (j * numC + g))) ;;;
  Some (existsb (fun j =>
          forallb (fun g => negb (nth (Z.to_nat j) vec 0 =? nth (Z.to_nat (j * numC + g)) nC 0)) (range 0 numC))
        (range 0 dim)).
(** the recursion over the dimensions, 1149-1193 and 1195-1260: [r] dimensions to go, the entries of
    the others in [vec]; [f] is what is done for a product that is kept *)
Fixpoint products (full : bool) (m dim numC : Z) (nC : list Z) (f : list Z -> Z -> cmd) (r : nat) (vec : list Z) (count : Z) : option Z :=
  match r with
  | O =>
      keep <- (if full then Some true else flagged dim numC nC vec) ;;
      if keep : bool then
        s <- isum vec ;; top <- (m - 1)%int ;;
        if s <=? top then f vec count ;;; (count + 1)%int else Some count
      else Some count
  | S r' =>
      fold_left (fun c k => c <- c ;; products full m dim numC nC f r' (k :: vec) c) (range 0 m) (Some count)
  end.
Record nobj := NObj { s_cls : bclass; s_dim : Z; s_m : Z; s_numC : Z; s_nC : list Z; s_num : Z; s_numFull : Z }.
(** nBasisFunc::nBasisFunc 1013-1062; [nC] has [ncDim0] rows of [ncDim1] entries *)
Definition nbasis_int (k : bclass) (dim ncDim0 ncDim1 : Z) (nCin : list Z) (m : Z) : option nobj :=
  x0 <- new dim ;; copy x0 dim dim ;;;
  nC <- new (dim * ncDim1) ;; copy nC (Z.of_nat (length nCin)) (ncDim0 * ncDim1) ;;;
  c <- new dim ;; for_ 0 dim (fun k => at_ c k ;;; at_ dim k ;;; at_ x0 k) ;;;
  vec <- new dim ;; _ <- (dim - 1)%int ;;
  num <- products false m dim ncDim1 nCin (fun _ _ => skip) (Z.to_nat dim) [] 0 ;;
  numFull <- products true m dim ncDim1 nCin (fun _ _ => skip) (Z.to_nat dim) [] 0 ;;
  Some (NObj k dim m ncDim1 nCin num numFull).
(** nBasisFunc::nHint 1106-1146; [x] has [dim] rows of [n] entries, [d] is the list of orders *)
Definition nhint_int (o : nobj) (n : Z) (d : list nat) (numBasis F : Z) (full : bool) : cmd :=
  let m := s_m o in let dim := s_dim o in
  dark <- new (n * m) ;; T <- new (n * m * dim) ;; z <- new (n * dim) ;;
  for_ 0 dim (fun j => for_ 0 n (fun k =>
    at_ (Z.mul dim n) (j * n + k) ;;; at_ dim j ;;; at_ z (j * n + k))) ;;;
  for_ 0 dim (fun k =>
    off <- (k * n)%int ;;
    hint (s_cls o) m n (nth (Z.to_nat k) d 0%nat) (z - off) dark 0 0 ;;;
    for_ 0 (n * m) (fun j => at_ dark j ;;; at_ T (j + k * m * n))) ;;;
  for_ 0 (n * numBasis) (fun k => at_ F k) ;;;
  vec <- new dim ;; _ <- (dim - 1)%int ;;
  c <- products full m dim (s_numC o) (s_nC o)
    (fun vec count => for_ 0 n (fun h => for_ 0 dim (fun l =>
       at_ dim l ;;; at_ T (m * n * l + nth (Z.to_nat l) vec 0 + h * m) ;;; at_ F (h * numBasis + count))))
    (Z.to_nat dim) [] 0 ;;
  skip.
(** nBasisFunc::H 1074-1088; the result is the shape *)
Definition nH_int (o : nobj) (n : Z) (d : list nat) (full : bool) : option (Z * Z) :=
  let numBasis := if full then s_numFull o else s_num o in
  F <- new (numBasis * n) ;;
  nhint_int o n d numBasis F full ;;;
  Some (n, numBasis).

(** ** The n-dimensional ELM classes *)
Record eobj := EObj { e_cls : bclass; e_dim : Z; e_m : Z; e_nC : list Z (* the first [numC] entries *) }.
(** nELM::nELM 1266-1327 *)
Definition nelm_int (k : bclass) (dim : Z) (nCin : list Z) (m : Z) : option eobj :=
  x0 <- new dim ;; copy x0 dim dim ;;;
  nC <- new (dim * numC_of nCin) ;; copy nC (numC_of nCin) (numC_of nCin) ;;;
  c <- new dim ;; for_ 0 dim (fun k => at_ c k ;;; at_ dim k ;;; at_ x0 k) ;;;
  for_ 0 (numC_of nCin) (fun k => at_ nC k) ;;;
  let nC' := if forallb (fun c => c =? -1) nCin then [] else nCin in
  _ <- (m - numC_of nC')%int ;;
  w <- new (dim * m) ;; b <- new m ;;
  for_ 0 (dim * m) (fun k => at_ w k) ;;; for_ 0 m (fun k => at_ b k) ;;;
  Some (EObj k dim m nC').
(** the sum of the orders, [dark1 += d[i]], with [c[i]] *)
Definition orders_int (dim : Z) (d : list nat) : iexp :=
  fold_left (fun s i => at_ dim (lit (Z.of_nat i)) ;;; (s + lit (Z.of_nat (nth i d 0%nat)))%int) (seq 0 (length d)) (lit 0).
(** [w[i*m+k] * x[i*in+j]] for all dimensions, then one cell *)
Definition dot_pass (dim m n x F w b : Z) : cmd :=
  for_ 0 n (fun j => for_ 0 m (fun k =>
    for_ 0 dim (fun i => at_ w (i * m + k) ;;; at_ x (i * n + j)) ;;; at_ b k ;;; at_ F (m * j + k))).
(** [pow(w[i*m+k], d[i])] for all given orders, then one cell *)
Definition pow_pass (m n : Z) (d : list nat) (F w : Z) : cmd :=
  for_ 0 n (fun j => for_ 0 m (fun k =>
    for_ 0 (Z.of_nat (length d)) (fun i => at_ w (i * m + k)) ;;; at_ F (m * j + k))).
(** the search for an order 1, 1912-1920: [zeroFlag] and [h] *)
Fixpoint relu_scan (dim : Z) (d : list nat) (i h : Z) : option (bool * Z) :=
  match d with
  | [] => Some (false, h)
  | o :: r =>
      if (2 <=? o)%nat || ((o =? 1)%nat && negb (h =? -1)) then Some (true, h)
      else if (o =? 1)%nat then at_ dim i ;;; relu_scan dim r (i + 1) i
      else relu_scan dim r (i + 1) h
  end.
(** nElmHint: 1411-1541 (Sigmoid), 1545-1666 (Tanh), 1669-1730 (Sin), 1733-1903 (Swish), 1907-1948 (ReLU) *)
Definition nelmhint_int (o : eobj) (n : Z) (d : list nat) (x F : Z) : cmd :=
  let m := e_m o in let dim := e_dim o in let w := Z.mul dim m in let b := m in
  match e_cls o with
  | KnELMReLU =>
      zh <- relu_scan dim d 0 (-1) ;;
      (if fst zh : bool then for_ 0 n (fun j => for_ 0 m (fun k => at_ F (m * j + k))) else dot_pass dim m n x F w b) ;;;
      if snd zh =? -1 then skip
      else for_ 0 n (fun j => for_ 0 m (fun k => at_ F (m * j + k) ;;; at_ w (snd zh * m + k)))
  | KnELMSin => s <- orders_int dim d ;; dot_pass dim m n x F w b ;;; pow_pass m n d F w
  | KnELMSwish =>
      sig <- new (n * m) ;; zint <- new (n * m) ;; s <- orders_int dim d ;;
      if s =? 0 then dot_pass dim m n x F w b
      else dot_pass dim m n x zint w b ;;; elm_again m n sig m ;;;
           if s <=? 8 then pow_pass m n d F w ;;; elm_again m n sig m ;;; elm_again m n zint m else skip
  | _ =>
      dot_pass dim m n x F w b ;;; s <- orders_int dim d ;;
      if (1 <=? s) && (s <=? 8) then pow_pass m n d F w else skip
  end.
(** nELM::nHint 1369-1408 and nBasisFunc::H 1074-1088 *)
Definition nelmH_int (o : eobj) (n : Z) (d : list nat) (full : bool) : option (Z * Z) :=
  let m := e_m o in let dim := e_dim o in
  numBasis <- (if full then lit m else (m - numC_of (e_nC o))%int) ;;
  F <- new (numBasis * n) ;;
  z <- new (n * dim) ;;
  for_ 0 dim (fun j => for_ 0 n (fun k => at_ (Z.mul dim n) (j * n + k) ;;; at_ dim j ;;; at_ z (j * n + k))) ;;;
  (match e_nC o, full with
   | [], _ | _, true => nelmhint_int o n d z F
   | _, _ => dark <- new (m * n) ;; nelmhint_int o n d z dark ;;; columns (range 0 m) (e_nC o) m n numBasis F dark (-1)
   end) ;;;
  Some (n, numBasis).
