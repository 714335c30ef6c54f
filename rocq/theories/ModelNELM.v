(** n-dimensional extreme-learning-machine bases: /repo/src/tfc/utils/BF_Py.py 1214-1627 and
    /repo/src/tfc/utils/BF.cc 1266-1950.
    Same simplifications as ModelND.v and ModelELM.v.  The geometry fields of [nbasis] are shared
    with the product bases; [nb_nC] holds the single row of removed columns. *)
From Coq Require Import List Arith ZArith Bool.
From Verif Require Import Base ModelBFPy ModelBFCpp ModelELM ModelND.
Import ListNotations.

(** How the orders reach Python: a NumPy array, or a tuple as mtfc passes them (mtfc.py 546-550). *)
Inductive orders := DArr (d : list nat) | DTuple (d : list nat).
Definition ord_list (o : orders) : list nat := match o with DArr d | DTuple d => d end.

Section NElm.
Context {T : Type} (A : Ops T) (E : Fun T).
Local Notation "0" := (o0 A). Local Notation "1" := (o1 A).
Local Infix "+" := (oadd A). Local Infix "-" := (osub A).
Local Infix "*" := (omul A). Local Infix "/" := (odiv A).
Local Notation "- x" := (oopp A x).
Local Notation lit := (lit A).

(** [np.any(nC != -1)], BF_Py.py 1251-1254; the loop of BF.cc 1294-1300 *)
Definition ne_numC (nC : list Z) : nat :=
  if existsb (fun z => negb (Z.eqb z (-1))) nC then length nC else O.
(** [nELM.__init__], BF_Py.py 1219-1274, with [z0 = 0] and [zf = 1].  [reshape((dim, 1))] needs
    [dim] entries.  The initial random weights are arguments of [H] below.
    Simplification: more removed columns than functions is a failure here (Python would keep a
    negative count and fail, or not, in [H]). *)
Definition py_nelm_init (x0 xf : list T) (nC : list Z) (m : nat) : option (nbasis (T:=T)) :=
  let dim := length x0 in
  if ((length xf =? dim) && (ne_numC nC <=? m))%nat%bool then
    Some (NBasis dim m (ne_numC nC) [nC] (bof nC) x0 (nd_c A 0 1 x0 xf) 0 (m - ne_numC nC)%nat m)
  else None.
(** nELM::nELM, BF.cc 1266-1327: [nC] has [dim * ncDim0] cells and receives [ncDim0] numbers;
    [xf[k]] is read for [k < dim]. *)
Definition cpp_nelm_init (x0 xf : list T) (nC : list Z) (m : nat) : option (nbasis (T:=T)) :=
  let dim := length x0 in
  if ((dim <=? length xf) && (length nC <=? dim * length nC) && (ne_numC nC <=? m))%nat%bool then
    Some (NBasis dim m (ne_numC nC) [nC] (bof nC) x0 (nd_c A 0 1 x0 (firstn dim xf)) 0
            (m - ne_numC nC)%nat m)
  else None.
Definition nelm_init (be : backend) := match be with Py => py_nelm_init | Cpp => cpp_nelm_init end.
(** the removed columns *)
Definition ne_nC (B : nbasis (T:=T)) : list Z := concat (nb_nC B).

(** ** C++ *)

(** [dark = 0; for (i..dim) dark += w[i*m+k] * x[i*in+j]] *)
Definition cpp_ne_dot (dim m n : nat) (w x : buf T) (j k : nat) : option T :=
  for_ 0 dim (fun i dark =>
    wv <- brd w (i * m + k)%nat ;; xv <- brd x (i * n + j)%nat ;; Some (dark + wv * xv)) 0.
(** [dark1 += d[i]; dark2 *= pow(c[i], d[i])], e.g. BF.cc 1425-1428 *)
Definition cpp_ne_ord (c : list T) (d : list nat) : option (nat * T) :=
  for_ 0 (length d) (fun i (s : nat * T) =>
    di <- nth_error d i ;; ci <- nth_error c i ;;
    Some ((fst s + di)%nat, snd s * opow A ci di)) (O, 1).
(** [dark = 1; for (i..dDim0) dark *= pow(w[i*m+k], d[i])] *)
Definition cpp_ne_wpow (m : nat) (w : buf T) (d : list nat) (k : nat) : option T :=
  for_ 0 (length d) (fun i dark =>
    wv <- brd w (i * m + k)%nat ;; di <- nth_error d i ;; Some (dark * opow A wv di)) 1.

(** the [switch (dark1)] of nELMSigmoid::nElmHint, BF.cc 1430-1541: the factor multiplying
    [dark2 * dark] for a cell that holds [s].  No default. *)
Definition cpp_nsigmoid_case (d : nat) : option (T -> T) :=
  match d with
  | 1%nat => Some (fun s => (s - opow A s 2))
  | 2%nat => Some (fun s => (s - lit 3 * opow A s 2 + lit 2 * opow A s 3))
  | 3%nat => Some (fun s => (s - lit 7 * opow A s 2 + lit 12 * opow A s 3 - lit 6 * opow A s
        4))
  | 4%nat => Some (fun s => (s - lit 15 * opow A s 2 + lit 50 * opow A s 3 - lit 60 * opow A s
        4 + lit 24 * opow A s 5))
  | 5%nat => Some (fun s => (s - lit 31 * opow A s 2 + lit 180 * opow A s 3 - lit 390 * opow A
        s 4 + lit 360 * opow A s 5 - lit 120 * opow A s 6))
  | 6%nat => Some (fun s => (s - lit 63 * opow A s 2 + lit 602 * opow A s 3 - lit 2100 * opow
        A s 4 + lit 3360 * opow A s 5 - lit 2520 * opow A s 6 + lit 720 * opow A s 7))
  | 7%nat => Some (fun s => (s - lit 127 * opow A s 2 + lit 1932 * opow A s 3 - lit 10206 *
        opow A s 4 + lit 25200 * opow A s 5 - lit 31920 * opow A s 6 + lit 20160 * opow A s 7 - lit
        5040 * opow A s 8))
  | 8%nat => Some (fun s => (s - lit 255 * opow A s 2 + lit 6050 * opow A s 3 - lit 46620 *
        opow A s 4 + lit 166824 * opow A s 5 - lit 317520 * opow A s 6 + lit 332640 * opow A s 7 -
        lit 181440 * opow A s 8 + lit 40320 * opow A s 9))
  | _ => None
  end.
(** of nELMTanh::nElmHint, BF.cc 1563-1664 *)
Definition cpp_ntanh_case (d : nat) : option (T -> T) :=
  match d with
  | 1%nat => Some (fun s => (1 - opow A s 2))
  | 2%nat => Some (fun s => (- lit 2 * s + lit 2 * opow A s 3))
  | 3%nat => Some (fun s => (- lit 2 + lit 8 * opow A s 2 - lit 6 * opow A s 4))
  | 4%nat => Some (fun s => (lit 16 * s - lit 40 * opow A s 3 + lit 24 * opow A s 5))
  | 5%nat => Some (fun s => (lit 16 - lit 136 * opow A s 2 + lit 240 * opow A s 4 - lit 120 *
        opow A s 6))
  | 6%nat => Some (fun s => (- lit 272 * s + lit 1232 * opow A s 3 - lit 1680 * opow A s 5 +
        lit 720 * opow A s 7))
  | 7%nat => Some (fun s => (- lit 272 + lit 3968 * opow A s 2 - lit 12096 * opow A s 4 + lit
        13440 * opow A s 6 - lit 5040 * opow A s 8))
  | 8%nat => Some (fun s => (lit 7936 * s - lit 56320 * opow A s 3 + lit 129024 * opow A s 5 -
        lit 120960 * opow A s 7 + lit 40320 * opow A s 9))
  | _ => None
  end.
(** of nELMSwish::nElmHint, BF.cc 1768-1897, for [sig] = [s] and [zint] = [z] *)
Definition cpp_nswish_case (d : nat) : option (T -> T -> T) :=
  match d with
  | 1%nat => Some (fun s z => (s + z * (s - opow A s 2)))
  | 2%nat => Some (fun s z => (lit 2 * (s - opow A s 2) + z * (s - lit 3 * opow A s 2 + lit 2
        * opow A s 3)))
  | 3%nat => Some (fun s z => (lit 3 * (s - lit 3 * opow A s 2 + lit 2 * opow A s 3) + z * (s
        - lit 7 * opow A s 2 + lit 12 * opow A s 3 - lit 6 * opow A s 4)))
  | 4%nat => Some (fun s z => (lit 4 * (s - lit 7 * opow A s 2 + lit 12 * opow A s 3 - lit 6 *
        opow A s 4) + z * (s - lit 15 * opow A s 2 + lit 50 * opow A s 3 - lit 60 * opow A s 4 + lit
        24 * opow A s 5)))
  | 5%nat => Some (fun s z => (lit 5 * (s - lit 15 * opow A s 2 + lit 50 * opow A s 3 - lit 60
        * opow A s 4 + lit 24 * opow A s 5) + z * (s - lit 31 * opow A s 2 + lit 180 * opow A s 3 -
        lit 390 * opow A s 4 + lit 360 * opow A s 5 - lit 120 * opow A s 6)))
  | 6%nat => Some (fun s z => (lit 6 * (s - lit 31 * opow A s 2 + lit 180 * opow A s 3 - lit
        390 * opow A s 4 + lit 360 * opow A s 5 - lit 120 * opow A s 6) + z * (s - lit 63 * opow A s
        2 + lit 602 * opow A s 3 - lit 2100 * opow A s 4 + lit 3360 * opow A s 5 - lit 2520 * opow A
        s 6 + lit 720 * opow A s 7)))
  | 7%nat => Some (fun s z => (lit 7 * (s - lit 63 * opow A s 2 + lit 602 * opow A s 3 - lit
        2100 * opow A s 4 + lit 3360 * opow A s 5 - lit 2520 * opow A s 6 + lit 720 * opow A s 7) +
        z * (s - lit 127 * opow A s 2 + lit 1932 * opow A s 3 - lit 10206 * opow A s 4 + lit 25200 *
        opow A s 5 - lit 31920 * opow A s 6 + lit 20160 * opow A s 7 - lit 5040 * opow A s 8)))
  | 8%nat => Some (fun s z => (lit 8 * (s - lit 127 * opow A s 2 + lit 1932 * opow A s 3 - lit
        10206 * opow A s 4 + lit 25200 * opow A s 5 - lit 31920 * opow A s 6 + lit 20160 * opow A s
        7 - lit 5040 * opow A s 8) + z * (s - lit 255 * opow A s 2 + lit 6050 * opow A s 3 - lit
        46620 * opow A s 4 + lit 166824 * opow A s 5 - lit 317520 * opow A s 6 + lit 332640 * opow A
        s 7 - lit 181440 * opow A s 8 + lit 40320 * opow A s 9)))
  | _ => None
  end.
(** second half of the sigmoid and tanh methods *)
Definition cpp_ne_switch (m n : nat) (w : buf T) (d : list nat) (dark2 : T) (case : option (T -> T))
    (F : buf T) : option (buf T) :=
  match case with
  | None => Some F
  | Some f => elm_loop m n (fun j k F =>
      dark <- cpp_ne_wpow m w d k ;; s <- brd F (m * j + k)%nat ;; Some (dark2 * dark * f s)) F
  end.
(** nELMSigmoid::nElmHint, BF.cc 1411-1542 *)
Definition cpp_nsigmoid_hint (dim m : nat) (c : list T) (w b : buf T) (d : list nat) (x : buf T) (n : nat)
    (F : buf T) : option (buf T) :=
  F <- elm_loop m n (fun j k _ =>
         dark <- cpp_ne_dot dim m n w x j k ;; bk <- brd b k ;;
         Some (1 / (1 + fexp E (- dark - bk)))) F ;;
  o <- cpp_ne_ord c d ;;
  cpp_ne_switch m n w d (snd o) (cpp_nsigmoid_case (fst o)) F.
(** nELMTanh::nElmHint, BF.cc 1545-1666 *)
Definition cpp_ntanh_hint (dim m : nat) (c : list T) (w b : buf T) (d : list nat) (x : buf T) (n : nat)
    (F : buf T) : option (buf T) :=
  F <- elm_loop m n (fun j k _ =>
         dark <- cpp_ne_dot dim m n w x j k ;; bk <- brd b k ;; Some (ftanh E (dark + bk))) F ;;
  o <- cpp_ne_ord c d ;;
  cpp_ne_switch m n w d (snd o) (cpp_ntanh_case (fst o)) F.
(** nELMSin::nElmHint, BF.cc 1669-1730 *)
Definition cpp_nsin_hint (dim m : nat) (c : list T) (w b : buf T) (d : list nat) (x : buf T) (n : nat)
    (F : buf T) : option (buf T) :=
  o <- cpp_ne_ord c d ;;
  let (dark1, dark2) := (o : nat * T) in
  let loop (v : T -> T -> T) := elm_loop m n (fun j k _ =>
        dark <- cpp_ne_wpow m w d k ;; darkw <- cpp_ne_dot dim m n w x j k ;; bk <- brd b k ;;
        Some (v dark (darkw + bk))) F in
  if dark1 mod 4 =? 0%nat then loop (fun dark u => dark2 * dark * fsin E u)
  else if dark1 mod 4 =? 1%nat then loop (fun dark u => dark2 * dark * fcos E u)
  else if dark1 mod 4 =? 2%nat then loop (fun dark u => - dark2 * dark * fsin E u)
  else loop (fun dark u => - dark2 * dark * fcos E u).
(** nELMSwish::nElmHint, BF.cc 1733-1902.  [zint] and [sig] are filled in one loop nest in the C++;
    they are independent blocks and are filled one after the other here. *)
Definition cpp_nswish_hint (dim m : nat) (c : list T) (w b : buf T) (d : list nat) (x : buf T) (n : nat)
    (F : buf T) : option (buf T) :=
  o <- cpp_ne_ord c d ;;
  let (dark1, dark2) := (o : nat * T) in
  if dark1 =? 0%nat then
    elm_loop m n (fun j k _ =>
      dark <- cpp_ne_dot dim m n w x j k ;; bk <- brd b k ;;
      Some ((dark + bk) * 1 / (1 + fexp E (- dark - bk)))) F
  else
    zint <- elm_loop m n (fun j k _ =>
              dark <- cpp_ne_dot dim m n w x j k ;; bk <- brd b k ;; Some (dark + bk)) (bnew (n * m)%nat) ;;
    sig <- elm_loop m n (fun j k _ =>
             z <- brd zint (m * j + k)%nat ;; Some (1 / (1 + fexp E (- z)))) (bnew (n * m)%nat) ;;
    match cpp_nswish_case dark1 with
    | None => Some F
    | Some f => elm_loop m n (fun j k _ =>
        dark <- cpp_ne_wpow m w d k ;; s <- brd sig (m * j + k)%nat ;; z <- brd zint (m * j + k)%nat ;;
        Some (dark2 * dark * f s z)) F
    end.
(** the first loop of nELMReLU::nElmHint, BF.cc 1912-1920: [h] with [dark1], and [zeroFlag];
    once the flag is set the loop has been left *)
Definition cpp_nrelu_scan (c : list T) (d : list nat) : option (option (nat * T) * bool) :=
  for_ 0 (length d) (fun i (s : option (nat * T) * bool) =>
    if snd s then Some s else
    di <- nth_error d i ;;
    if ((1 <? di) || ((di =? 1) && match fst s with Some _ => true | None => false end))%nat%bool
    then Some (fst s, true)
    else if (di =? 1)%nat then ci <- nth_error c i ;; Some (Some (i, ci), false)
    else Some s) (None, false).
(** nELMReLU::nElmHint, BF.cc 1907-1948; [v != 0.] is [v > 0 || v < 0] *)
Definition cpp_nrelu_hint (dim m : nat) (c : list T) (w b : buf T) (d : list nat) (x : buf T) (n : nat)
    (F : buf T) : option (buf T) :=
  s <- cpp_nrelu_scan c d ;;
  F <- (if (snd s : bool) then elm_loop m n (fun _ _ _ => Some 0) F
        else elm_loop m n (fun j k _ =>
               dark <- cpp_ne_dot dim m n w x j k ;; bk <- brd b k ;;
               let v := dark + bk in Some (if fgt0 E v then v else 0)) F) ;;
  match fst s with
  | None => Some F
  | Some (h, dark1) => elm_loop m n (fun j k F =>
      v <- brd F (m * j + k)%nat ;;
      if (fgt0 E v || fgt0 E (- v))%bool then wv <- brd w (h * m + k)%nat ;; Some (dark1 * wv) else Some v) F
  end.
(** virtual dispatch of [nElmHint] *)
Definition cpp_nelm_hint (f : elm) :=
  match f with
  | ReLU => cpp_nrelu_hint | Sigmoid => cpp_nsigmoid_hint | Tanh => cpp_ntanh_hint
  | Sin => cpp_nsin_hint | Swish => cpp_nswish_hint
  end.

(** column compaction, BF.cc 1388-1403.  The C++ [i] starts at -1 and is incremented before use;
    here it counts the columns copied so far. *)
Definition cpp_ne_emit (nC : list Z) (m n numBasis : nat) (dark F : buf T) : option (buf T) :=
  r <- for_ 0 m (fun j (s : nat * buf T) =>
         let (i, F) := s in
         if in_nC nC j then Some (i, F)
         else F <- for_ 0 n (fun k F =>
                     v <- brd dark (m * k + j)%nat ;; bwr F (numBasis * k + i)%nat v) F ;;
              Some (S i, F)) (0%nat, F) ;;
  Some (snd r).
(** nELM::nHint, BF.cc 1369-1408 *)
Definition cpp_nelm_nHint (f : elm) (B : nbasis) (w b : buf T) (x : buf T) (n : nat) (d : list nat)
    (numBasis : nat) (F : buf T) (full : bool) : option (buf T) :=
  z <- cpp_nd_z A B x n ;;
  if ((nb_numC B =? 0) || full)%nat%bool then cpp_nelm_hint f (nb_dim B) (nb_m B) (nb_c B) w b d z n F
  else
    dark <- cpp_nelm_hint f (nb_dim B) (nb_m B) (nb_c B) w b d z n (bnew (nb_m B * n)%nat) ;;
    cpp_ne_emit (ne_nC B) (nb_m B) n numBasis dark F.
(** nBasisFunc::H, BF.cc 1074-1088, inherited *)
Definition cpp_nelm_H (f : elm) (B : nbasis) (w b : list T) (x : mat T) (d : list nat) (full : bool)
  : option (mat T) :=
  let numBasis := if full then nb_numFull B else nb_num B in
  let n := mc x in
  F <- cpp_nelm_nHint f B (bof w) (bof b) (bof (concat (md x))) n d numBasis (bnew (numBasis * n)%nat) full ;;
  rows <- buf_matrix F n numBasis ;;
  Some (Mat n numBasis rows).
(** nBasisFunc::xla, BF.cc 1094-1104, inherited *)
Definition cpp_nelm_xla (f : elm) (B : nbasis) (w b : list T) (x : buf T) (d : list nat) (full : bool)
    (nOut mOut : nat) (out : buf T) : option (buf T) :=
  cpp_nelm_nHint f B (bof w) (bof b) x nOut d mOut out full.

(** ** Python *)

(** column [k] of [self._w], which is [w] reshaped to (dim, m) *)
Definition py_ne_wcol (dim m : nat) (w : list T) (k : nat) : option (list T) :=
  mapM (fun i => nth_error w (i * m + k)%nat) (seq 0 dim).
(** [dot(z, w)] for one point and one column *)
Definition py_ne_dot (z wk : list T) : T :=
  fold_left (fun acc p => acc + fst p * snd p) (combine z wk) 0.
(** [f] of nELMSin 1464, nELMTanh 1511, nELMSigmoid 1558, nELMSwish 1605-1607: one entry *)
Definition py_nact (f : elm) (wk : list T) (bk : T) (z : list T) : T :=
  match f with
  | ReLU => 0                                   (* not used: nELMReLU has its own _nHint *)
  | Sigmoid => 1 / (1 + fexp E (- py_ne_dot z wk - bk))
  | Tanh => ftanh E (py_ne_dot z wk + bk)
  | Sin => fsin E (py_ne_dot z wk + bk)
  | Swish => let dark := py_ne_dot z wk + bk in dark / (1 + fexp E (- dark))
  end.
(** [egrad(g, j)], TFCUtils.py 75-117, on a function of several numbers: tangent 1 for argument [j],
    0 for the others.  [jvpn g z t] is the second component of jax's [jvp(g, z, t)]. *)
Context (jvpn : (list T -> T) -> list T -> list T -> T).
Definition egradn (g : list T -> T) (j : nat) : list T -> T :=
  fun z => jvpn g z (map (fun i => if (i =? j)%nat then 1 else 0) (seq 0 (length z))).
(** [Recurse], BF_Py.py 1468-1476 *)
Fixpoint py_nrecurse (dark : list T -> T) (d dim : nat) : list T -> T :=
  match d with O => dark | S d' => py_nrecurse (egradn dark dim) d' dim end.
(** the loop over [enumerate(d)], BF_Py.py 1478-1482 *)
Fixpoint py_nloop (dark : list T -> T) (dim : nat) (d : list nat) : list T -> T :=
  match d with [] => dark | deriv :: d' => py_nloop (py_nrecurse dark deriv dim) (S dim) d' end.
Definition py_ne_dark2 (c : list T) (d : list nat) : option T :=
  for_ 0 (length d) (fun i dark2 =>
    ci <- nth_error c i ;; di <- nth_error d i ;; Some (dark2 * opow A ci di)) 1.
(** one row (one point) of [_nHint] of the smooth classes *)
Definition py_nsmooth_row (f : elm) (dim m : nat) (c w b : list T) (d : list nat) (z : list T)
  : option (list T) :=
  dark2 <- py_ne_dark2 c d ;;
  mapM (fun k => wk <- py_ne_wcol dim m w k ;; bk <- nth_error b k ;;
         Some (py_nloop (py_nact f wk bk) 0 d z * dark2)) (seq 0 m).
(** [np.where(d == 1)[0][0]]: for an array the first index; a tuple is never equal to 1, and the
    first element of the resulting empty index array is an IndexError *)
Fixpoint first_one (i : nat) (d : list nat) : option nat :=
  match d with [] => None | a :: d' => if (a =? 1)%nat then Some i else first_one (S i) d' end.
Definition py_where1 (o : orders) : option nat :=
  match o with DArr d => first_one 0 d | DTuple _ => None end.
(** nELMReLU._nHint, BF_Py.py 1402-1437, one row *)
Definition py_nrelu_row (dim m : nat) (c w b : list T) (o : orders) (z : list T) : option (list T) :=
  let dorder := list_sum (ord_list o) in
  if (1 <? dorder)%nat then Some (repeat 0 m)
  else if (dorder =? 1)%nat then
    ind <- py_where1 o ;;
    ci <- nth_error c ind ;;
    mapM (fun k => wi <- nth_error w (ind * m + k)%nat ;; wk <- py_ne_wcol dim m w k ;; bk <- nth_error b k ;;
           Some (ci * wi * (if fgt0 E (py_ne_dot z wk + bk) then 1 else 0))) (seq 0 m)
  else
    mapM (fun k => wk <- py_ne_wcol dim m w k ;; bk <- nth_error b k ;;
           let v := py_ne_dot z wk + bk in Some (if fgt0 E v then v else 0)) (seq 0 m).
Definition py_nelm_row (f : elm) (dim m : nat) (c w b : list T) (o : orders) (z : list T) :=
  match f with
  | ReLU => py_nrelu_row dim m c w b o z
  | _ => py_nsmooth_row f dim m c w b (ord_list o) z
  end.
(** [nELM.H], BF_Py.py 1336-1373; with no point the scan of the orders still happens in Python, a
    case this model answers with the empty matrix *)
Definition py_nelm_H (f : elm) (B : nbasis) (w b : list T) (x : mat T) (o : orders) (full : bool)
  : option (mat T) :=
  if (mr x =? nb_dim B)%nat then
    rows <- mapM (fun j =>
              xj <- mapM (fun r => nth_error r j) (md x) ;;
              py_nelm_row f (nb_dim B) (nb_m B) (nb_c B) w b o (py_nd_z A B xj)) (seq 0 (mc x)) ;;
    let F := Mat (mc x) (nb_m B) rows in
    if (negb full && (0 <? nb_numC B)%nat)%bool then np_delete_cols F (ne_nC B) else Some F
  else None.

Definition nelm_H (be : backend) (f : elm) (B : nbasis) (w b : list T) (x : mat T) (o : orders) (full : bool) :=
  match be with
  | Py => py_nelm_H f B w b x o full
  | Cpp => cpp_nelm_H f B w b x (ord_list o) full
  end.
End NElm.
