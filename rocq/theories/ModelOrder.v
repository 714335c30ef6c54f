(** [H] called with any integer as the derivative order: /repo/src/tfc/utils/BF_Py.py 60-87,
    123-868 and /repo/src/tfc/utils/BF.cc 57-98, 171-1009.

    The other models take the order as a natural number and let the recursions run to their
    end.  Here the order is an integer, as the methods receive it, and the recursions stop
    where the code stops them: they test [dCurr == d], count [dCurr] up from 0 and call
    themselves, so they need [d] nested calls.  [lim] is the number of nested calls there is
    room for (Python's recursion limit; in C++ the stack, and at most INT_MAX).  Beyond it
    Python raises RecursionError and C++ is undefined: [None] here.

    Simplifications besides those of ModelBFPy.v, ModelBFCpp.v and ModelELM.v: [**] and [pow]
    with a negative exponent are the inverse of the positive power. *)
From Coq Require Import List Arith ZArith Bool.
From Verif Require Import Base ModelBFPy ModelBFCpp ModelELM.
Import ListNotations.

(** [RecurseDeriv] / [Recurse]: BF.cc 212-237 and BF_Py.py 189-209 and the same lines of the
    other classes; [step dCurr] is what one call does to its table *)
Fixpoint climb {X} (lim : nat) (step : nat -> X -> option X) (d : Z) (dCurr : nat) (F : X) : option X :=
  if Z.eqb (Z.of_nat dCurr) d then Some F
  else match lim with
       | O => None
       | S lim => F <- step dCurr F ;; climb lim step d (S dCurr) F
       end.

Section Order.
Context {T : Type} (A : Ops T) (E : Fun T) (lim : nat).
Local Notation "0" := (o0 A). Local Notation "1" := (o1 A).
Local Infix "+" := (oadd A). Local Infix "-" := (osub A).
Local Infix "*" := (omul A). Local Infix "/" := (odiv A).
Local Notation "- x" := (oopp A x).
Local Notation "# n" := (onat A n) (at level 1).

(** [x ** d], [pow(x, d)] *)
Definition opowz (x : T) (d : Z) : T :=
  match d with Z0 => 1 | Zpos p => opow A x (Pos.to_nat p) | Zneg p => 1 / opow A x (Pos.to_nat p) end.

(** ** Polynomials *)
(** one call of [Recurse], BF_Py.py 189-207, 280-298, 348-366, 414-432, 480-500 *)
Definition py_step (f : fam) (m : nat) (z : T) (dCurr : nat) (F : buf T) : option (buf T) :=
  match f with
  | CP => py_cp_recurse A m z 1 dCurr F | LeP => py_lep_recurse A m z 1 dCurr F
  | LaP => py_lap_recurse A m z 1 dCurr F | HoPpro => py_hoppro_recurse A m z 1 dCurr F
  | HoPphy => py_hopphy_recurse A m z 1 dCurr F | FS => None
  end.
(** one call of [RecurseDeriv], BF.cc 212-237, 281-308, 352-379, 424-449, 494-520 *)
Definition cpp_step (f : fam) (m : nat) (x : buf T) (nOut : nat) (dCurr : nat) (F : buf T) : option (buf T) :=
  match f with
  | CP => cpp_cp_deriv A m 1 dCurr x nOut F | LeP => cpp_lep_deriv A m 1 dCurr x nOut F
  | LaP => cpp_lap_deriv A m 1 dCurr x nOut F | HoPpro => cpp_hoppro_deriv A m 1 dCurr x nOut F
  | HoPphy => cpp_hopphy_deriv A m 1 dCurr x nOut F | FS => None
  end.
(** the table of order 0 and the cases of one and two functions are those of the other models *)
Definition py_fam_hint (f : fam) (m : nat) (z : T) (d : nat) : option (buf T) :=
  match f with
  | CP => py_cp_hint A m z d | LeP => py_lep_hint A m z d | LaP => py_lap_hint A m z d
  | HoPpro => py_hoppro_hint A m z d | HoPphy => py_hopphy_hint A m z d
  | FS => py_fs_hint A E m z d
  end.

(** ** Fourier series *)
(** FS._Hint, BF_Py.py 533-589; [%] of Python is [Z.modulo] *)
Definition py_fs_hint_z (m : nat) (z : T) (d : Z) : option (buf T) :=
  let F := bfill m 0 in
  let g k := #((k + 1) / 2)%nat in
  if (d =? 0)%Z then
    F <- bwr F 0%nat 1 ;;
    for_ 1 m (fun k F => bwr F k (if k mod 2 =? 0%nat then fcos E (g k * z) else fsin E (g k * z))) F
  else
    F <- bwr F 0%nat 0 ;;
    if (d mod 4 =? 0)%Z then
      for_ 1 m (fun k F => bwr F k (if k mod 2 =? 0%nat then opowz (g k) d * fcos E (g k * z)
                                    else opowz (g k) d * fsin E (g k * z))) F
    else if (d mod 4 =? 1)%Z then
      for_ 1 m (fun k F => bwr F k (if k mod 2 =? 0%nat then - opowz (g k) d * fsin E (g k * z)
                                    else opowz (g k) d * fcos E (g k * z))) F
    else if (d mod 4 =? 2)%Z then
      for_ 1 m (fun k F => bwr F k (if k mod 2 =? 0%nat then - opowz (g k) d * fcos E (g k * z)
                                    else - opowz (g k) d * fsin E (g k * z))) F
    else
      for_ 1 m (fun k F => bwr F k (if k mod 2 =? 0%nat then opowz (g k) d * fsin E (g k * z)
                                    else - opowz (g k) d * fcos E (g k * z))) F.
(** FS::Hint, BF.cc 524-591; [%] of C++ is [Z.rem], which takes the sign of [d] *)
Definition cpp_fs_hint_z (m : nat) (d : Z) (x : buf T) (nOut : nat) (dark : buf T) : option (buf T) :=
  if (d =? 0)%Z then
    dark <- for_ 0 nOut (fun k dark => bwr dark (m * k)%nat 1) dark ;;
    cpp_fs_loop A m x nOut (fun g xk => fcos E (g * xk)) (fun g xk => fsin E (g * xk)) dark
  else
    dark <- for_ 0 nOut (fun k dark => bwr dark (m * k)%nat 0) dark ;;
    if (Z.rem d 4 =? 0)%Z then
      cpp_fs_loop A m x nOut (fun g xk => opowz g d * fcos E (g * xk)) (fun g xk => opowz g d * fsin E (g * xk)) dark
    else if (Z.rem d 4 =? 1)%Z then
      cpp_fs_loop A m x nOut (fun g xk => - opowz g d * fsin E (g * xk)) (fun g xk => opowz g d * fcos E (g * xk)) dark
    else if (Z.rem d 4 =? 2)%Z then
      cpp_fs_loop A m x nOut (fun g xk => - opowz g d * fcos E (g * xk)) (fun g xk => - opowz g d * fsin E (g * xk)) dark
    else
      cpp_fs_loop A m x nOut (fun g xk => opowz g d * fsin E (g * xk)) (fun g xk => - opowz g d * fcos E (g * xk)) dark.

(** ** [_Hint] and [Hint] *)
(** With one or two functions the polynomial classes only ask whether [d] exceeds 0 and 1
    (BF_Py.py 170-183, BF.cc 175-199 and the same lines of the others): every [d <= 0] is as 0. *)
Definition py_hint_row_z (f : fam) (m : nat) (z : T) (d : Z) : option (list T) :=
  b <- match f with
       | FS => py_fs_hint_z m z d
       | _ => if ((m =? 1) || (m =? 2))%nat then py_fam_hint f m z (Z.to_nat d)
              else F <- py_fam_hint f m z 0 ;; climb lim (py_step f m z) d 0 F
       end ;;
  bto_list b.
Definition py_hint_z (f : fam) (m : nat) (zs : list T) (d : Z) : option (mat T) :=
  rows <- mapM (fun z => py_hint_row_z f m z d) zs ;;
  Some (Mat (length zs) m rows).
Definition cpp_hint_z (f : fam) (m : nat) (d : Z) (x : buf T) (nOut : nat) (dark : buf T) : option (buf T) :=
  match f with
  | FS => cpp_fs_hint_z m d x nOut dark
  | _ => if ((m =? 1) || (m =? 2))%nat then cpp_hint A E f m (Z.to_nat d) x nOut dark
         else F <- cpp_hint A E f m 0 x nOut dark ;; climb lim (cpp_step f m x nOut) d 0 F
  end.

(** ** Extreme learning machines *)
(** ELMSin::Hint, BF.cc 851-881 *)
Definition cpp_sin_hint_z (m : nat) (w b : buf T) (d : Z) (x : buf T) (nOut : nat) (dark : buf T) : option (buf T) :=
  if (Z.rem d 4 =? 0)%Z then
    elm_loop_wbx m nOut w b x (fun wk xj bk => opowz wk d * fsin E (wk * xj + bk)) dark
  else if (Z.rem d 4 =? 1)%Z then
    elm_loop_wbx m nOut w b x (fun wk xj bk => opowz wk d * fcos E (wk * xj + bk)) dark
  else if (Z.rem d 4 =? 2)%Z then
    elm_loop_wbx m nOut w b x (fun wk xj bk => - opowz wk d * fsin E (wk * xj + bk)) dark
  else
    elm_loop_wbx m nOut w b x (fun wk xj bk => - opowz wk d * fcos E (wk * xj + bk)) dark.
(** The others compare [d] with 0 and 1 (ReLU, 647-677) or switch over 0 to 8 without a
    default (679-847, 885-1009): a negative [d] takes the way of every [d > 8]. *)
Definition like (d : Z) : nat := if (d <? 0)%Z then 9%nat else Z.to_nat d.
Definition cpp_elm_hint_z (f : elm) (m : nat) (w b : buf T) (d : Z) (x : buf T) (nOut : nat) (dark : buf T) : option (buf T) :=
  match f with
  | Sin => cpp_sin_hint_z m w b d x nOut dark
  | _ => cpp_elm_hint A E f m w b (like d) x nOut dark
  end.
(** ELMReLU._Hint, BF_Py.py 691-715; [Recurse] of the other classes, 735-868 *)
Definition py_elm_hint_z (jvp : (T -> T) -> T -> T -> T) (f : elm) (m : nat) (w b : list T) (zs : list T) (d : Z) : option (mat T) :=
  match f with
  | ReLU => py_relu_hint A E m w b zs (like d)
  | _ => g <- climb lim (fun _ g => Some (fun wk bk => egrad1 A jvp (g wk bk))) d 0 (py_act A E f) ;;
         Some (Mat (length zs) m (py_rows w b g zs))
  end.

(** ** [H] *)
(** BasisFunc.H, BF_Py.py 78-87 *)
Definition py_Hz_with (hint : list T -> Z -> option (mat T)) (B : basis (T:=T)) (xs : list T) (d : Z) (full : bool) : option (mat T) :=
  let z := map (fun x => (x - b_x0 B) * b_c B + b_z0 B) xs in
  let dMult := opowz (b_c B) d in
  F <- hint z d ;;
  let F := mat_scale A dMult F in
  if negb full && (0 <? length (b_nC B))%nat then np_delete_cols F (b_nC B) else Some F.
(** BasisFunc::H, BF.cc 57-98, and the array Python receives *)
Definition cpp_Hz_with (hint : Z -> buf T -> nat -> buf T -> option (buf T)) (B : basis (T:=T)) (xs : list T) (d : Z) (full : bool)
  : option (mat T) :=
  let m := b_m B in
  let n := length xs in
  let numC := length (b_nC B) in
  if (negb full && (m <? numC)%nat)%bool then None else
  let mOut := if full then m else (m - numC)%nat in
  let dMult := opowz (b_c B) d in
  let dark := bnew (n * m)%nat in
  z <- cpp_map_points A B (bof xs) n ;;
  let F := bnew (mOut * n)%nat in
  dark <- hint d z n dark ;;
  F <- cpp_emit A (b_nC B) m n mOut dMult full dark F ;;
  rows <- buf_matrix F n mOut ;;
  Some (Mat n mOut rows).
Definition py_Hz (f : fam) (B : basis) := py_Hz_with (py_hint_z f (b_m B)) B.
Definition cpp_Hz (f : fam) (B : basis) := cpp_Hz_with (cpp_hint_z f (b_m B)) B.
Definition py_elm_Hz (jvp : (T -> T) -> T -> T -> T) (f : elm) (w b : list T) (B : basis) := py_Hz_with (py_elm_hint_z jvp f (b_m B) w b) B.
Definition cpp_elm_Hz (f : elm) (w b : list T) (B : basis) := cpp_Hz_with (cpp_elm_hint_z f (b_m B) (bof w) (bof b)) B.
End Order.
