(** C++ basis functions, one dimension: /repo/src/tfc/utils/BF.cc lines 8-591.

    Simplifications, valid for the whole file:
    - [double] is an exact number of the carrier [T]; [int] does not overflow;
    - a pointer parameter is a checked buffer, and a function that writes through
      it returns the new buffer; [None] is undefined behaviour;
    - [delete[]]/[free] are not modelled (no buffer is used after them here). *)
From Coq Require Import List Arith ZArith Bool.
From Verif Require Import Base ModelBFPy.
Import ListNotations.

Section Cpp.
Context {T : Type} (A : Ops T) (E : Fun T).
Local Notation "0" := (o0 A). Local Notation "1" := (o1 A).
Local Infix "+" := (oadd A). Local Infix "-" := (osub A).
Local Infix "*" := (omul A). Local Infix "/" := (odiv A).
Local Notation "- x" := (oopp A x).
Local Notation "# n" := (onat A n) (at level 1).

(** Cases [deg == 0] and [deg == 1] of every polynomial [Hint] (CP: 175-199, LeP: 244-268,
    LaP: 315-338, HoPpro: 387-410, HoPphy: 457-480).  [v1 k] is the value written in
    column 1 for [d == 0], [w1] the constant written there for [d == 1]. *)
Definition cpp_deg0 (d nOut : nat) (dark : buf T) : option (buf T) :=
  if (0 <? d)%nat then for_ 0 nOut (fun k dark => bwr dark k 0) dark
  else for_ 0 nOut (fun k dark => bwr dark k 1) dark.
Definition cpp_col01 (m nOut : nat) (v0 : T) (v1 : nat -> option T) (dark : buf T) : option (buf T) :=
  for_ 0 nOut (fun k dark =>
    dark <- bwr dark (m * k)%nat v0 ;;
    v <- v1 k ;;
    bwr dark (m * k + 1)%nat v) dark.
Definition cpp_deg1 (m d nOut : nat) (w1 : T) (v1 : nat -> option T) (dark : buf T) : option (buf T) :=
  if (1 <? d)%nat then for_ 0 (m * nOut)%nat (fun k dark => bwr dark k 0) dark
  else if (0 <? d)%nat then cpp_col01 m nOut 0 (fun _ => Some w1) dark
  else cpp_col01 m nOut 1 v1 dark.

(** First lines of every polynomial [RecurseDeriv]: copy, then reset the first two
    columns (CP: 215-227, LeP: 285-297, LaP: 356-368, HoPpro: 428-440, HoPphy: 498-510). *)
Definition cpp_reset (dCurr mOut nOut : nat) (w1 : T) (F : buf T) : option (buf T) :=
  if dCurr =? 0%nat then cpp_col01 mOut nOut 0 (fun _ => Some w1) F
  else if dCurr =? 1%nat then for_ 0 nOut (fun k F => bwr F (mOut * k + 1)%nat 0) F
  else Some F.

(** CP::RecurseDeriv, BF.cc 212-237 (called with [mOut = m]); [n = d - dCurr] *)
Fixpoint cpp_cp_deriv (m n dCurr : nat) (x : buf T) (nOut : nat) (F : buf T) : option (buf T) :=
  match n with
  | O => Some F
  | S n' =>
      dark <- bcopy F (m * nOut)%nat ;;
      F <- cpp_reset dCurr m nOut 1 F ;;
      F <- for_ 2 m (fun k F => for_ 0 nOut (fun j F =>           (* 228-232 *)
             a <- brd dark (m * j + k - 1)%nat ;;
             xj <- brd x j ;;
             b <- brd F (m * j + k - 1)%nat ;;
             c <- brd F (m * j + k - 2)%nat ;;
             bwr F (m * j + k)%nat ((#2 + #2 * #dCurr) * a + #2 * xj * b - c)) F) F ;;
      cpp_cp_deriv m n' (S dCurr) x nOut F
  end.
(** CP::Hint, BF.cc 171-210.  [deg == 0] is [m == 1], [deg == 1] is [m == 2]. *)
Definition cpp_cp_hint (m d : nat) (x : buf T) (nOut : nat) (dark : buf T) : option (buf T) :=
  if m =? 1%nat then cpp_deg0 d nOut dark
  else if m =? 2%nat then cpp_deg1 m d nOut 1 (brd x) dark
  else
    dark <- cpp_col01 m nOut 1 (brd x) dark ;;                    (* 200-203 *)
    dark <- for_ 2 m (fun k dark => for_ 0 nOut (fun j dark =>    (* 204-207 *)
              xj <- brd x j ;;
              a <- brd dark (m * j + k - 1)%nat ;;
              b <- brd dark (m * j + k - 2)%nat ;;
              bwr dark (m * j + k)%nat (#2 * xj * a - b)) dark) dark ;;
    cpp_cp_deriv m d 0%nat x nOut dark.                           (* 208 *)

(** LeP::RecurseDeriv, BF.cc 281-308 *)
Fixpoint cpp_lep_deriv (m n dCurr : nat) (x : buf T) (nOut : nat) (F : buf T) : option (buf T) :=
  match n with
  | O => Some F
  | S n' =>
      dark <- bcopy F (m * nOut)%nat ;;
      F <- cpp_reset dCurr m nOut 1 F ;;
      F <- for_ 1 (m - 1)%nat (fun k F => for_ 0 nOut (fun j F => (* 298-303 *)
             a <- brd dark (m * j + k)%nat ;;
             xj <- brd x j ;;
             b <- brd F (m * j + k)%nat ;;
             c <- brd F (m * j + k - 1)%nat ;;
             bwr F (m * j + k + 1)%nat
               (((#2 * #k + 1) * ((#dCurr + 1) * a + xj * b) - #k * c) / (#k + 1))) F) F ;;
      cpp_lep_deriv m n' (S dCurr) x nOut F
  end.
(** LeP::Hint, BF.cc 240-279 *)
Definition cpp_lep_hint (m d : nat) (x : buf T) (nOut : nat) (dark : buf T) : option (buf T) :=
  if m =? 1%nat then cpp_deg0 d nOut dark
  else if m =? 2%nat then cpp_deg1 m d nOut 1 (brd x) dark
  else
    dark <- cpp_col01 m nOut 1 (brd x) dark ;;
    dark <- for_ 1 (m - 1)%nat (fun k dark => for_ 0 nOut (fun j dark => (* 273-276 *)
              xj <- brd x j ;;
              a <- brd dark (m * j + k)%nat ;;
              b <- brd dark (m * j + k - 1)%nat ;;
              bwr dark (m * j + k + 1)%nat (((#2 * #k + 1) * xj * a - #k * b) / (#k + 1))) dark) dark ;;
    cpp_lep_deriv m d 0%nat x nOut dark.

(** LaP::RecurseDeriv, BF.cc 352-379 *)
Fixpoint cpp_lap_deriv (m n dCurr : nat) (x : buf T) (nOut : nat) (F : buf T) : option (buf T) :=
  match n with
  | O => Some F
  | S n' =>
      dark <- bcopy F (m * nOut)%nat ;;
      F <- cpp_reset dCurr m nOut (oopp A 1) F ;;
      F <- for_ 1 (m - 1)%nat (fun k F => for_ 0 nOut (fun j F => (* 369-374 *)
             xj <- brd x j ;;
             b <- brd F (m * j + k)%nat ;;
             a <- brd dark (m * j + k)%nat ;;
             c <- brd F (m * j + k - 1)%nat ;;
             bwr F (m * j + k + 1)%nat
               (((#2 * #k + 1 - xj) * b - (#dCurr + 1) * a - #k * c) / (#k + 1))) F) F ;;
      cpp_lap_deriv m n' (S dCurr) x nOut F
  end.
(** LaP::Hint, BF.cc 311-350 *)
Definition cpp_lap_hint (m d : nat) (x : buf T) (nOut : nat) (dark : buf T) : option (buf T) :=
  let v1 k := xk <- brd x k ;; Some (1 - xk) in
  if m =? 1%nat then cpp_deg0 d nOut dark
  else if m =? 2%nat then cpp_deg1 m d nOut (oopp A 1) v1 dark
  else
    dark <- cpp_col01 m nOut 1 v1 dark ;;
    dark <- for_ 1 (m - 1)%nat (fun k dark => for_ 0 nOut (fun j dark => (* 344-347 *)
              xj <- brd x j ;;
              a <- brd dark (m * j + k)%nat ;;
              b <- brd dark (m * j + k - 1)%nat ;;
              bwr dark (m * j + k + 1)%nat (((#2 * #k + 1 - xj) * a - #k * b) / (#k + 1))) dark) dark ;;
    cpp_lap_deriv m d 0%nat x nOut dark.

(** HoPpro::RecurseDeriv, BF.cc 424-449 *)
Fixpoint cpp_hoppro_deriv (m n dCurr : nat) (x : buf T) (nOut : nat) (F : buf T) : option (buf T) :=
  match n with
  | O => Some F
  | S n' =>
      dark <- bcopy F (m * nOut)%nat ;;
      F <- cpp_reset dCurr m nOut 1 F ;;
      F <- for_ 1 (m - 1)%nat (fun k F => for_ 0 nOut (fun j F => (* 441-444 *)
             a <- brd dark (m * j + k)%nat ;;
             xj <- brd x j ;;
             b <- brd F (m * j + k)%nat ;;
             c <- brd F (m * j + k - 1)%nat ;;
             bwr F (m * j + k + 1)%nat ((#dCurr + 1) * a + xj * b - #k * c)) F) F ;;
      cpp_hoppro_deriv m n' (S dCurr) x nOut F
  end.
(** HoPpro::Hint, BF.cc 383-422 *)
Definition cpp_hoppro_hint (m d : nat) (x : buf T) (nOut : nat) (dark : buf T) : option (buf T) :=
  if m =? 1%nat then cpp_deg0 d nOut dark
  else if m =? 2%nat then cpp_deg1 m d nOut 1 (brd x) dark
  else
    dark <- cpp_col01 m nOut 1 (brd x) dark ;;
    dark <- for_ 1 (m - 1)%nat (fun k dark => for_ 0 nOut (fun j dark => (* 416-419 *)
              xj <- brd x j ;;
              a <- brd dark (m * j + k)%nat ;;
              b <- brd dark (m * j + k - 1)%nat ;;
              bwr dark (m * j + k + 1)%nat (xj * a - #k * b)) dark) dark ;;
    cpp_hoppro_deriv m d 0%nat x nOut dark.

(** HoPphy::RecurseDeriv, BF.cc 494-520 *)
Fixpoint cpp_hopphy_deriv (m n dCurr : nat) (x : buf T) (nOut : nat) (F : buf T) : option (buf T) :=
  match n with
  | O => Some F
  | S n' =>
      dark <- bcopy F (m * nOut)%nat ;;
      F <- cpp_reset dCurr m nOut #2 F ;;
      F <- for_ 1 (m - 1)%nat (fun k F => for_ 0 nOut (fun j F => (* 511-515 *)
             a <- brd dark (m * j + k)%nat ;;
             xj <- brd x j ;;
             b <- brd F (m * j + k)%nat ;;
             c <- brd F (m * j + k - 1)%nat ;;
             bwr F (m * j + k + 1)%nat
               (#2 * (#dCurr + 1) * a + #2 * xj * b - #2 * #k * c)) F) F ;;
      cpp_hopphy_deriv m n' (S dCurr) x nOut F
  end.
(** HoPphy::Hint, BF.cc 453-492 *)
Definition cpp_hopphy_hint (m d : nat) (x : buf T) (nOut : nat) (dark : buf T) : option (buf T) :=
  let v1 k := xk <- brd x k ;; Some (#2 * xk) in
  if m =? 1%nat then cpp_deg0 d nOut dark
  else if m =? 2%nat then cpp_deg1 m d nOut #2 v1 dark
  else
    dark <- cpp_col01 m nOut 1 v1 dark ;;
    dark <- for_ 1 (m - 1)%nat (fun k dark => for_ 0 nOut (fun j dark => (* 486-489 *)
              xj <- brd x j ;;
              a <- brd dark (m * j + k)%nat ;;
              b <- brd dark (m * j + k - 1)%nat ;;
              bwr dark (m * j + k + 1)%nat (#2 * xj * a - #2 * #k * b)) dark) dark ;;
    cpp_hopphy_deriv m d 0%nat x nOut dark.

(** FS::Hint, BF.cc 524-591.  [g = ceil(j / 2.)] is [(j + 1) / 2]. *)
Definition cpp_fs_loop (m : nat) (x : buf T) (nOut : nat) (even odd : T -> T -> T) (dark : buf T)
  : option (buf T) :=
  for_ 1 m (fun j dark => for_ 0 nOut (fun k dark =>
    let g := #((j + 1) / 2)%nat in
    xk <- brd x k ;;
    bwr dark (m * k + j)%nat (if j mod 2 =? 0%nat then even g xk else odd g xk)) dark) dark.
Definition cpp_fs_hint (m d : nat) (x : buf T) (nOut : nat) (dark : buf T) : option (buf T) :=
  if d =? 0%nat then                                              (* 527-539 *)
    dark <- for_ 0 nOut (fun k dark => bwr dark (m * k)%nat 1) dark ;;
    cpp_fs_loop m x nOut (fun g xk => fcos E (g * xk)) (fun g xk => fsin E (g * xk)) dark
  else
    dark <- for_ 0 nOut (fun k dark => bwr dark (m * k)%nat 0) dark ;;  (* 541-542 *)
    if d mod 4 =? 0%nat then                                      (* 543-553 *)
      cpp_fs_loop m x nOut (fun g xk => opow A g d * fcos E (g * xk))
                           (fun g xk => opow A g d * fsin E (g * xk)) dark
    else if d mod 4 =? 1%nat then                                 (* 554-564 *)
      cpp_fs_loop m x nOut (fun g xk => - opow A g d * fsin E (g * xk))
                           (fun g xk => opow A g d * fcos E (g * xk)) dark
    else if d mod 4 =? 2%nat then                                 (* 565-575 *)
      cpp_fs_loop m x nOut (fun g xk => - opow A g d * fcos E (g * xk))
                           (fun g xk => - opow A g d * fsin E (g * xk)) dark
    else                                                          (* 576-587 *)
      cpp_fs_loop m x nOut (fun g xk => opow A g d * fsin E (g * xk))
                           (fun g xk => - opow A g d * fcos E (g * xk)) dark.

(** Virtual dispatch of [Hint]. *)
Definition cpp_hint (f : fam) (m d : nat) (x : buf T) (nOut : nat) (dark : buf T) : option (buf T) :=
  match f with
  | CP => cpp_cp_hint m d x nOut dark | LeP => cpp_lep_hint m d x nOut dark
  | LaP => cpp_lap_hint m d x nOut dark | HoPpro => cpp_hoppro_hint m d x nOut dark
  | HoPphy => cpp_hopphy_hint m d x nOut dark | FS => cpp_fs_hint m d x nOut dark
  end.

(** [z[k] = (x[k] - x0) * c + z0], BF.cc 66-67 / 113-114, into a fresh block of [n] cells *)
Definition cpp_map_points (B : basis (T:=T)) (x : buf T) (n : nat) : option (buf T) :=
  for_ 0 n (fun k z => xk <- brd x k ;; bwr z k ((xk - b_x0 B) * b_c B + b_z0 B)) (bnew n).

(** inner loop over [nC], BF.cc 76-81: is column [j] listed? *)
Definition in_nC (nC : list Z) (j : nat) : bool := existsb (Z.eqb (Z.of_nat j)) nC.

(** The copy of [dark] into the output, BF.cc 72-95 and again 118-140.
    The C++ variable [i] starts at -1 and is incremented before use; here [i] is
    the number of columns copied so far, i.e. the C++ value plus one. *)
Definition cpp_emit (nC : list Z) (m n mOut : nat) (dMult : T) (full : bool) (dark F : buf T)
  : option (buf T) :=
  if full then
    for_ 0 m (fun j F => for_ 0 n (fun k F =>
      v <- brd dark (m * k + j)%nat ;; bwr F (m * k + j)%nat (v * dMult)) F) F
  else
    r <- for_ 0 m (fun j (s : nat * buf T) =>
           let (i, F) := s in
           if in_nC nC j then Some (i, F)
           else F <- for_ 0 n (fun k F =>
                       v <- brd dark (m * k + j)%nat ;;
                       bwr F (mOut * k + i)%nat (v * dMult)) F ;;
                Some (S i, F)) (0%nat, F) ;;
    Some (snd r).

(** BasisFunc::H, BF.cc 57-98, with an arbitrary [Hint].  The result is the output
    buffer and its advertised shape.  A negative [m - numC] makes the [malloc]
    size meaningless: undefined. *)
Definition cpp_H_with (hint : nat -> buf T -> nat -> buf T -> option (buf T)) (B : basis (T:=T))
    (x : buf T) (n d : nat) (full : bool) : option (nat * nat * buf T) :=
  let m := b_m B in
  let numC := length (b_nC B) in
  if (negb full && (m <? numC)%nat)%bool then None else
  let mOut := if full then m else (m - numC)%nat in               (* 58-59 *)
  let dMult := opow A (b_c B) d in                                (* 62 *)
  let dark := bnew (n * m)%nat in                                 (* 63 *)
  z <- cpp_map_points B x n ;;                                    (* 64-67 *)
  let F := bnew (mOut * n)%nat in                                 (* 69 *)
  dark <- hint d z n dark ;;                                      (* 70 *)
  F <- cpp_emit (b_nC B) m n mOut dMult full dark F ;;            (* 72-95 *)
  Some (n, mOut, F).
Definition cpp_H (f : fam) (B : basis) := cpp_H_with (cpp_hint f (b_m B)) B.

(** BasisFunc::xla, BF.cc 100-144: the caller supplies [n], [mOut] and the output block. *)
Definition cpp_xla_with (hint : nat -> buf T -> nat -> buf T -> option (buf T)) (B : basis (T:=T))
    (x : buf T) (d : nat) (full : bool) (n mOut : nat) (out : buf T) : option (buf T) :=
  let m := b_m B in
  let dMult := opow A (b_c B) d in
  let dark := bnew (n * m)%nat in
  z <- cpp_map_points B x n ;;
  dark <- hint d z n dark ;;
  cpp_emit (b_nC B) m n mOut dMult full dark out.
Definition cpp_xla (f : fam) (B : basis) := cpp_xla_with (cpp_hint f (b_m B)) B.

(** What Python receives from [BasisFunc::H] (BF_Py.cc binding): an array of the
    advertised shape over the returned memory. *)
Definition cpp_H_mat (f : fam) (B : basis) (xs : list T) (d : nat) (full : bool) : option (mat T) :=
  r <- cpp_H f B (bof xs) (length xs) d full ;;
  let '(n, mOut, F) := r in
  rows <- buf_matrix F n mOut ;;
  Some (Mat n mOut rows).
End Cpp.
