(** Extreme-learning-machine bases, one dimension: /repo/src/tfc/utils/BF_Py.py 592-868
    and /repo/src/tfc/utils/BF.cc 592-1009.
    Same simplifications as ModelBFPy.v and ModelBFCpp.v. *)
From Coq Require Import List Arith ZArith Bool.
From Verif Require Import Base ModelBFPy ModelBFCpp.
Import ListNotations.

Inductive elm := ReLU | Sigmoid | Tanh | Sin | Swish.

Section Elm.
Context {T : Type} (A : Ops T) (E : Fun T).
Local Notation "0" := (o0 A). Local Notation "1" := (o1 A).
Local Infix "+" := (oadd A). Local Infix "-" := (osub A).
Local Infix "*" := (omul A). Local Infix "/" := (odiv A).
Local Notation "- x" := (oopp A x).

(** a positive floating-point literal such as [46620.] *)
Fixpoint lit (p : positive) : T :=
  match p with
  | xH => 1
  | xO p => (1 + 1) * lit p
  | xI p => 1 + (1 + 1) * lit p
  end.

(** ** C++ *)

(** [for (j..nOut) for (k..m) dark[m*j+k] = body], the shape of every loop of these methods *)
Definition elm_loop (m nOut : nat) (body : nat -> nat -> buf T -> option T) (dark : buf T)
  : option (buf T) :=
  for_ 0 nOut (fun j dark => for_ 0 m (fun k dark =>
    v <- body j k dark ;; bwr dark (m * j + k)%nat v) dark) dark.

(** the same, with [w[k]], [b[k]] and [x[j]] read first *)
Definition elm_loop_wbx (m nOut : nat) (w b x : buf T) (body : T -> T -> T -> T) (dark : buf T)
  : option (buf T) :=
  elm_loop m nOut (fun j k _ =>
    wk <- brd w k ;; xj <- brd x j ;; bk <- brd b k ;; Some (body wk xj bk)) dark.

(** ELMReLU::Hint, BF.cc 647-677.  [std::max(0., v)] returns its first argument
    unless it is smaller than the second; [v <= 0] is the negation of [v > 0]. *)
Definition cpp_relu_hint (m : nat) (w b : buf T) (d : nat) (x : buf T) (nOut : nat) (dark : buf T)
  : option (buf T) :=
  if d =? 0%nat then                                               (* 650-655 *)
    elm_loop_wbx m nOut w b x (fun wk xj bk =>
      let v := wk * xj + bk in if fgt0 E v then v else 0) dark
  else if d =? 1%nat then                                          (* 656-667 *)
    elm_loop_wbx m nOut w b x (fun wk xj bk =>
      let dark1 := wk * xj + bk in if negb (fgt0 E dark1) then 0 else wk) dark
  else elm_loop m nOut (fun _ _ _ => Some 0) dark.                 (* 668-674 *)

(** the [switch (d)] of ELMSigmoid::Hint, BF.cc 687-765: the new value of a cell that
    holds [s], for weight [w].  [None]: no case for this [d] (there is no default). *)
Definition cpp_sigmoid_case (d : nat) : option (T -> T -> T) :=
  match d with
  | 1%nat => Some (fun w s => w * (s - opow A s 2))
  | 2%nat => Some (fun w s => opow A w 2 * (s - lit 3 * opow A s 2 + lit 2 * opow A s 3))
  | 3%nat => Some (fun w s => opow A w 3 * (s - lit 7 * opow A s 2 + lit 12 * opow A s 3
                              - lit 6 * opow A s 4))
  | 4%nat => Some (fun w s => opow A w 4 * (s - lit 15 * opow A s 2 + lit 50 * opow A s 3
                              - lit 60 * opow A s 4 + lit 24 * opow A s 5))
  | 5%nat => Some (fun w s => opow A w 5 * (s - lit 31 * opow A s 2 + lit 180 * opow A s 3
                              - lit 390 * opow A s 4 + lit 360 * opow A s 5 - lit 120 * opow A s 6))
  | 6%nat => Some (fun w s => opow A w 6 * (s - lit 63 * opow A s 2 + lit 602 * opow A s 3
                              - lit 2100 * opow A s 4 + lit 3360 * opow A s 5
                              - lit 2520 * opow A s 6 + lit 720 * opow A s 7))
  | 7%nat => Some (fun w s => opow A w 7 * (s - lit 127 * opow A s 2 + lit 1932 * opow A s 3
                              - lit 10206 * opow A s 4 + lit 25200 * opow A s 5
                              - lit 31920 * opow A s 6 + lit 20160 * opow A s 7 - lit 5040 * opow A s 8))
  | 8%nat => Some (fun w s => opow A w 8 * (s - lit 255 * opow A s 2 + lit 6050 * opow A s 3
                              - lit 46620 * opow A s 4 + lit 166824 * opow A s 5
                              - lit 317520 * opow A s 6 + lit 332640 * opow A s 7
                              - lit 181440 * opow A s 8 + lit 40320 * opow A s 9))
  | _ => None                                                      (* case 0: break *)
  end.
(** second half of ELMSigmoid::Hint and ELMTanh::Hint: rewrite the cells in place *)
Definition cpp_elm_switch (m nOut : nat) (w : buf T) (case : option (T -> T -> T)) (dark : buf T)
  : option (buf T) :=
  match case with
  | None => Some dark
  | Some f => elm_loop m nOut (fun j k dark =>
      wk <- brd w k ;; s <- brd dark (m * j + k)%nat ;; Some (f wk s)) dark
  end.
(** ELMSigmoid::Hint, BF.cc 679-767 *)
Definition cpp_sigmoid_hint (m : nat) (w b : buf T) (d : nat) (x : buf T) (nOut : nat) (dark : buf T)
  : option (buf T) :=
  dark <- elm_loop_wbx m nOut w b x (fun wk xj bk =>               (* 682-685 *)
            1 / (1 + fexp E (- wk * xj - bk))) dark ;;
  cpp_elm_switch m nOut w (cpp_sigmoid_case d) dark.

(** the [switch (d)] of ELMTanh::Hint, BF.cc 778-845 *)
Definition cpp_tanh_case (d : nat) : option (T -> T -> T) :=
  match d with
  | 1%nat => Some (fun w s => w * (1 - opow A s 2))
  | 2%nat => Some (fun w s => opow A w 2 * (- lit 2 * s + lit 2 * opow A s 3))
  | 3%nat => Some (fun w s => opow A w 3 * (- lit 2 + lit 8 * opow A s 2 - lit 6 * opow A s 4))
  | 4%nat => Some (fun w s => opow A w 4 * (lit 16 * s - lit 40 * opow A s 3 + lit 24 * opow A s 5))
  | 5%nat => Some (fun w s => opow A w 5 * (lit 16 - lit 136 * opow A s 2 + lit 240 * opow A s 4
                              - lit 120 * opow A s 6))
  | 6%nat => Some (fun w s => opow A w 6 * (- lit 272 * s + lit 1232 * opow A s 3
                              - lit 1680 * opow A s 5 + lit 720 * opow A s 7))
  | 7%nat => Some (fun w s => opow A w 7 * (- lit 272 + lit 3968 * opow A s 2 - lit 12096 * opow A s 4
                              + lit 13440 * opow A s 6 - lit 5040 * opow A s 8))
  | 8%nat => Some (fun w s => opow A w 8 * (lit 7936 * s - lit 56320 * opow A s 3
                              + lit 129024 * opow A s 5 - lit 120960 * opow A s 7
                              + lit 40320 * opow A s 9))
  | _ => None
  end.
(** ELMTanh::Hint, BF.cc 771-847 *)
Definition cpp_tanh_hint (m : nat) (w b : buf T) (d : nat) (x : buf T) (nOut : nat) (dark : buf T)
  : option (buf T) :=
  dark <- elm_loop_wbx m nOut w b x (fun wk xj bk => ftanh E (wk * xj + bk)) dark ;;
  cpp_elm_switch m nOut w (cpp_tanh_case d) dark.

(** ELMSin::Hint, BF.cc 851-881 *)
Definition cpp_sin_hint (m : nat) (w b : buf T) (d : nat) (x : buf T) (nOut : nat) (dark : buf T)
  : option (buf T) :=
  if d mod 4 =? 0%nat then
    elm_loop_wbx m nOut w b x (fun wk xj bk => opow A wk d * fsin E (wk * xj + bk)) dark
  else if d mod 4 =? 1%nat then
    elm_loop_wbx m nOut w b x (fun wk xj bk => opow A wk d * fcos E (wk * xj + bk)) dark
  else if d mod 4 =? 2%nat then
    elm_loop_wbx m nOut w b x (fun wk xj bk => - opow A wk d * fsin E (wk * xj + bk)) dark
  else
    elm_loop_wbx m nOut w b x (fun wk xj bk => - opow A wk d * fcos E (wk * xj + bk)) dark.

(** the [switch (d)] of ELMSwish::Hint, BF.cc 905-1001: value for weight [w],
    [sig] and [zint]; no default *)
Definition cpp_swish_case (d : nat) : option (T -> T -> T -> T) :=
  match d with
  | 1%nat => Some (fun w s z => w * (s + z * (s - opow A s 2)))
  | 2%nat => Some (fun w s z => opow A w 2 * (lit 2 * (s - opow A s 2)
               + z * (s - lit 3 * opow A s 2 + lit 2 * opow A s 3)))
  | 3%nat => Some (fun w s z => opow A w 3 * (lit 3 * (s - lit 3 * opow A s 2 + lit 2 * opow A s 3)
               + z * (s - lit 7 * opow A s 2 + lit 12 * opow A s 3 - lit 6 * opow A s 4)))
  | 4%nat => Some (fun w s z => opow A w 4 * (lit 4 * (s - lit 7 * opow A s 2 + lit 12 * opow A s 3
                                                       - lit 6 * opow A s 4)
               + z * (s - lit 15 * opow A s 2 + lit 50 * opow A s 3 - lit 60 * opow A s 4
                      + lit 24 * opow A s 5)))
  | 5%nat => Some (fun w s z => opow A w 5 * (lit 5 * (s - lit 15 * opow A s 2 + lit 50 * opow A s 3
                                                       - lit 60 * opow A s 4 + lit 24 * opow A s 5)
               + z * (s - lit 31 * opow A s 2 + lit 180 * opow A s 3 - lit 390 * opow A s 4
                      + lit 360 * opow A s 5 - lit 120 * opow A s 6)))
  | 6%nat => Some (fun w s z => opow A w 6 * (lit 6 * (s - lit 31 * opow A s 2 + lit 180 * opow A s 3
                                                       - lit 390 * opow A s 4 + lit 360 * opow A s 5
                                                       - lit 120 * opow A s 6)
               + z * (s - lit 63 * opow A s 2 + lit 602 * opow A s 3 - lit 2100 * opow A s 4
                      + lit 3360 * opow A s 5 - lit 2520 * opow A s 6 + lit 720 * opow A s 7)))
  | 7%nat => Some (fun w s z => opow A w 7 * (lit 7 * (s - lit 63 * opow A s 2 + lit 602 * opow A s 3
                                                       - lit 2100 * opow A s 4 + lit 3360 * opow A s 5
                                                       - lit 2520 * opow A s 6 + lit 720 * opow A s 7)
               + z * (s - lit 127 * opow A s 2 + lit 1932 * opow A s 3 - lit 10206 * opow A s 4
                      + lit 25200 * opow A s 5 - lit 31920 * opow A s 6 + lit 20160 * opow A s 7
                      - lit 5040 * opow A s 8)))
  | 8%nat => Some (fun w s z => opow A w 8 * (lit 8 * (s - lit 127 * opow A s 2 + lit 1932 * opow A s 3
                                                       - lit 10206 * opow A s 4 + lit 25200 * opow A s 5
                                                       - lit 31920 * opow A s 6 + lit 20160 * opow A s 7
                                                       - lit 5040 * opow A s 8)
               + z * (s - lit 255 * opow A s 2 + lit 6050 * opow A s 3 - lit 46620 * opow A s 4
                      + lit 166824 * opow A s 5 - lit 317520 * opow A s 6 + lit 332640 * opow A s 7
                      - lit 181440 * opow A s 8 + lit 40320 * opow A s 9)))
  | _ => None
  end.
(** ELMSwish::Hint, BF.cc 885-1009.  [sig] and [zint] are filled in one loop nest in the
    C++ (897-902); they are independent blocks and are filled one after the other here. *)
Definition cpp_swish_hint (m : nat) (w b : buf T) (d : nat) (x : buf T) (nOut : nat) (dark : buf T)
  : option (buf T) :=
  if d =? 0%nat then
    elm_loop_wbx m nOut w b x (fun wk xj bk =>
      (wk * xj + bk) * 1 / (1 + fexp E (- wk * xj - bk))) dark
  else
    zint <- elm_loop_wbx m nOut w b x (fun wk xj bk => wk * xj + bk) (bnew (nOut * m)%nat) ;;
    sig <- elm_loop m nOut (fun j k _ =>
             z <- brd zint (m * j + k)%nat ;; Some (1 / (1 + fexp E (- z)))) (bnew (nOut * m)%nat) ;;
    match cpp_swish_case d with
    | None => Some dark
    | Some f => elm_loop m nOut (fun j k _ =>
        wk <- brd w k ;; s <- brd sig (m * j + k)%nat ;; z <- brd zint (m * j + k)%nat ;;
        Some (f wk s z)) dark
    end.

(** Virtual dispatch of [Hint]. *)
Definition cpp_elm_hint (f : elm) (m : nat) (w b : buf T) (d : nat) (x : buf T) (nOut : nat) (dark : buf T)
  : option (buf T) :=
  match f with
  | ReLU => cpp_relu_hint m w b d x nOut dark | Sigmoid => cpp_sigmoid_hint m w b d x nOut dark
  | Tanh => cpp_tanh_hint m w b d x nOut dark | Sin => cpp_sin_hint m w b d x nOut dark
  | Swish => cpp_swish_hint m w b d x nOut dark
  end.

(** [H] on an ELM object, as received by Python: BF.cc 57-98 with the [Hint] above *)
Definition cpp_elm_H_mat (f : elm) (w b : buf T) (B : basis) (xs : list T) (d : nat) (full : bool)
  : option (mat T) :=
  r <- cpp_H_with A (cpp_elm_hint f (b_m B) w b) B (bof xs) (length xs) d full ;;
  let '(n, mOut, F) := r in
  rows <- buf_matrix F n mOut ;;
  Some (Mat n mOut rows).

(** ** Python *)

(** constructor, BF_Py.py 618 ([super().__init__(x0, xf, nC, m, 0.0, 1.0)]) and BF.cc 594-595;
    the random initial weights are arguments of the functions below *)
Definition elm_init (x0 xf : T) (nC : list Z) (m : nat) : basis := basis_init A x0 xf nC m 0 (Some 1).

(** [w * z + b] with [z] of shape (N, 1), [w], [b] of shape (1, m): one row per point *)
Definition py_rows (w b : list T) (g : T -> T -> T -> T) (zs : list T) : list (list T) :=
  map (fun z => map (fun wb => g (fst wb) (snd wb) z) (combine w b)) zs.

(** ELMReLU._Hint, BF_Py.py 691-715.  Line 715 builds the zero matrix as (m, N). *)
Definition py_relu_hint (m : nat) (w b : list T) (zs : list T) (d : nat) : option (mat T) :=
  if d =? 0%nat then
    Some (Mat (length zs) m
      (py_rows w b (fun wk bk z => let v := wk * z + bk in if fgt0 E v then v else 0) zs))
  else if d =? 1%nat then
    Some (Mat (length zs) m
      (py_rows w b (fun wk bk z => wk * (if fgt0 E (wk * z + bk) then 1 else 0)) zs))
  else Some (Mat m (length zs) (repeat (repeat 0 (length zs)) m)).

(** [egrad(g)], TFCUtils.py 75-117, for a function of one number: the tangent is 1.
    [jvp g z t] stands for the second component of jax's [jvp(g, (z,), (t,))]. *)
Context (jvp : (T -> T) -> T -> T -> T).
Definition egrad1 (g : T -> T) : T -> T := fun z => jvp g z 1.
(** [Recurse], BF_Py.py 737-749 and the same lines of the other smooth families *)
Fixpoint py_recurse (n : nat) (dark : T -> T) : T -> T :=
  match n with O => dark | S n' => py_recurse n' (egrad1 dark) end.
(** [f] of ELMSigmoid 735, ELMTanh 773, ELMSin 811, ELMSwish 849; entry for weight [w], bias [b] *)
Definition py_act (f : elm) (w b x : T) : T :=
  match f with
  | ReLU => 0                                   (* not used: ELMReLU has its own _Hint *)
  | Sigmoid => 1 / (1 + fexp E (- w * x - b))
  | Tanh => ftanh E (w * x + b)
  | Sin => fsin E (w * x + b)
  | Swish => (w * x + b) / (1 + fexp E (- w * x - b))
  end.
(** [_Hint] of the five classes.  The function of the (N, 1) array [z] acts on each entry
    separately, so the tangent of ones differentiates each entry of the (N, m) result. *)
Definition py_elm_hint (f : elm) (m : nat) (w b : list T) (zs : list T) (d : nat) : option (mat T) :=
  match f with
  | ReLU => py_relu_hint m w b zs d
  | _ => Some (Mat (length zs) m (py_rows w b (fun wk bk z => py_recurse d (py_act f wk bk) z) zs))
  end.
Definition py_elm_H (f : elm) (w b : list T) (B : basis) :=
  py_H_with A (py_elm_hint f (b_m B) w b) B.
End Elm.
