(** Python basis functions, one dimension: /repo/src/tfc/utils/BF_Py.py lines 8-590.

    Simplifications, valid for the whole file:
    - floats are exact numbers of the carrier [T];
    - every NumPy statement in these methods treats all rows (points) alike, so
      [_Hint] is transcribed on one row and mapped over the points; a row is a
      checked buffer, so an out-of-range column is a failure;
    - [np.ones_like], [np.zeros_like], [np.zeros] are numbers 1 and 0 (dtype ignored). *)
From Coq Require Import List Arith ZArith Bool.
From Verif Require Import Base.
Import ListNotations.

(** A two-dimensional NumPy array: its shape and its rows. *)
Record mat (T : Type) := Mat { mr : nat; mc : nat; md : list (list T) }.
Arguments Mat {T}. Arguments mr {T}. Arguments mc {T}. Arguments md {T}.

(** The families of BF_Py.py lines 123-590 (ELM families are in ModelELM.v). *)
Inductive fam := CP | LeP | LaP | HoPpro | HoPphy | FS.

(** The two implementations of a basis object: BF_Py.py and BF.cc. *)
Inductive backend := Py | Cpp.

(** the entries of [r], numbered from [k], whose number is not in [idx] *)
Fixpoint drop_cols {T} (idx : list nat) (k : nat) (r : list T) : list T :=
  match r with
  | [] => []
  | a :: t => if existsb (Nat.eqb k) idx then drop_cols idx (S k) t
              else a :: drop_cols idx (S k) t
  end.

Section Py.
Context {T : Type} (A : Ops T) (E : Fun T).
Local Notation "0" := (o0 A). Local Notation "1" := (o1 A).
Local Infix "+" := (oadd A). Local Infix "-" := (osub A).
Local Infix "*" := (omul A). Local Infix "/" := (odiv A).
Local Notation "- x" := (oopp A x).
Local Notation "# n" := (onat A n) (at level 1).

(** [np.hstack((a, b, np.zeros((N, m - 2))))] on one row: BF_Py.py 182, 196 and the
    same lines of the other families.  [np.zeros] rejects a negative size. *)
Definition np_row2 (m : nat) (a b : T) : option (buf T) :=
  if m <? 2 then None
  else Some (Buf m (fun k => match k with O => Some a | S O => Some b | _ => Some 0 end)).

(** CP._Hint, BF_Py.py 151-209 *)
Fixpoint py_cp_recurse (m : nat) (z : T) (n dCurr : nat) (dark : buf T) : option (buf T) :=
  match n with                                   (* n = d - dCurr; lines 189-207 *)
  | O => Some dark                               (* 193-194: dCurr == d *)
  | S n' =>
      dark2 <- (if dCurr =? 0%nat then np_row2 m 0 1            (* 196-197 *)
                else Some (bfill m 0)) ;;                        (* 199 *)
      dark2 <- for_ 2 m (fun k dark2 =>                          (* 200-205 *)
                 a <- brd dark (k - 1)%nat ;;
                 b <- brd dark2 (k - 1)%nat ;;
                 c <- brd dark2 (k - 2)%nat ;;
                 bwr dark2 k (#(2 + 2 * dCurr)%nat * a + #2 * z * b - c)) dark2 ;;
      py_cp_recurse m z n' (S dCurr) dark2                       (* 206-207 *)
  end.
Definition py_cp_hint (m : nat) (z : T) (d : nat) : option (buf T) :=
  if m =? 1%nat then                                             (* 170-175 *)
    Some (bof [if 0%nat <? d then 0 else 1])
  else if m =? 2%nat then                                        (* 176-183 *)
    Some (bof (if 1%nat <? d then [0; 0] else if 0%nat <? d then [0; 1] else [1; z]))
  else
    F <- np_row2 m 1 z ;;                                        (* 185 *)
    F <- for_ 2 m (fun k F =>                                    (* 186-187 *)
           a <- brd F (k - 1)%nat ;; b <- brd F (k - 2)%nat ;;
           bwr F k (#2 * z * a - b)) F ;;
    py_cp_recurse m z d 0%nat F.                                 (* 209 *)

(** LeP._Hint, BF_Py.py 240-300 *)
Fixpoint py_lep_recurse (m : nat) (z : T) (n dCurr : nat) (dark : buf T) : option (buf T) :=
  match n with                                                   (* 280-298 *)
  | O => Some dark
  | S n' =>
      dark2 <- (if dCurr =? 0%nat then np_row2 m 0 1 else Some (bfill m 0)) ;;
      dark2 <- for_ 1 (m - 1)%nat (fun k dark2 =>                (* 291-296 *)
                 a <- brd dark k ;;
                 b <- brd dark2 k ;;
                 c <- brd dark2 (k - 1)%nat ;;
                 bwr dark2 (k + 1)%nat
                   (((#2 * #k + 1) * ((#dCurr + 1) * a + z * b) - #k * c) / (#k + 1))) dark2 ;;
      py_lep_recurse m z n' (S dCurr) dark2
  end.
Definition py_lep_hint (m : nat) (z : T) (d : nat) : option (buf T) :=
  if m =? 1%nat then Some (bof [if 0%nat <? d then 0 else 1])
  else if m =? 2%nat then
    Some (bof (if 1%nat <? d then [0; 0] else if 0%nat <? d then [0; 1] else [1; z]))
  else
    F <- np_row2 m 1 z ;;                                        (* 274 *)
    F <- for_ 1 (m - 1)%nat (fun k F =>                          (* 275-278 *)
           a <- brd F k ;; b <- brd F (k - 1)%nat ;;
           bwr F (k + 1)%nat (((#2 * #k + 1) * z * a - #k * b) / (#k + 1))) F ;;
    py_lep_recurse m z d 0%nat F.

(** LaP._Hint, BF_Py.py 308-368 *)
Fixpoint py_lap_recurse (m : nat) (z : T) (n dCurr : nat) (dark : buf T) : option (buf T) :=
  match n with                                                   (* 348-366 *)
  | O => Some dark
  | S n' =>
      dark2 <- (if dCurr =? 0%nat then np_row2 m 0 (oopp A 1) else Some (bfill m 0)) ;;
      dark2 <- for_ 1 (m - 1)%nat (fun k dark2 =>                (* 359-364 *)
                 a <- brd dark k ;;
                 b <- brd dark2 k ;;
                 c <- brd dark2 (k - 1)%nat ;;
                 bwr dark2 (k + 1)%nat
                   (((#2 * #k + 1 - z) * b - (#dCurr + 1) * a - #k * c) / (#k + 1))) dark2 ;;
      py_lap_recurse m z n' (S dCurr) dark2
  end.
Definition py_lap_hint (m : nat) (z : T) (d : nat) : option (buf T) :=
  if m =? 1%nat then Some (bof [if 0%nat <? d then 0 else 1])
  else if m =? 2%nat then
    Some (bof (if 1%nat <? d then [0; 0] else if 0%nat <? d then [0; oopp A 1] else [1; 1 - z]))
  else
    F <- np_row2 m 1 (1 - z) ;;                                  (* 342 *)
    F <- for_ 1 (m - 1)%nat (fun k F =>                          (* 343-346 *)
           a <- brd F k ;; b <- brd F (k - 1)%nat ;;
           bwr F (k + 1)%nat (((#2 * #k + 1 - z) * a - #k * b) / (#k + 1))) F ;;
    py_lap_recurse m z d 0%nat F.

(** HoPpro._Hint, BF_Py.py 376-434 *)
Fixpoint py_hoppro_recurse (m : nat) (z : T) (n dCurr : nat) (dark : buf T) : option (buf T) :=
  match n with                                                   (* 414-432 *)
  | O => Some dark
  | S n' =>
      dark2 <- (if dCurr =? 0%nat then np_row2 m 0 1 else Some (bfill m 0)) ;;
      dark2 <- for_ 1 (m - 1)%nat (fun k dark2 =>                (* 425-430 *)
                 a <- brd dark k ;;
                 b <- brd dark2 k ;;
                 c <- brd dark2 (k - 1)%nat ;;
                 bwr dark2 (k + 1)%nat ((#dCurr + 1) * a + z * b - #k * c)) dark2 ;;
      py_hoppro_recurse m z n' (S dCurr) dark2
  end.
Definition py_hoppro_hint (m : nat) (z : T) (d : nat) : option (buf T) :=
  if m =? 1%nat then Some (bof [if 0%nat <? d then 0 else 1])
  else if m =? 2%nat then
    Some (bof (if 1%nat <? d then [0; 0] else if 0%nat <? d then [0; 1] else [1; z]))
  else
    F <- np_row2 m 1 z ;;                                        (* 410 *)
    F <- for_ 1 (m - 1)%nat (fun k F =>                          (* 411-412 *)
           a <- brd F k ;; b <- brd F (k - 1)%nat ;;
           bwr F (k + 1)%nat (z * a - #k * b)) F ;;
    py_hoppro_recurse m z d 0%nat F.

(** HoPphy._Hint, BF_Py.py 442-502 *)
Fixpoint py_hopphy_recurse (m : nat) (z : T) (n dCurr : nat) (dark : buf T) : option (buf T) :=
  match n with                                                   (* 480-500 *)
  | O => Some dark
  | S n' =>
      dark2 <- (if dCurr =? 0%nat then np_row2 m 0 (#2 * 1) else Some (bfill m 0)) ;;
      dark2 <- for_ 1 (m - 1)%nat (fun k dark2 =>                (* 493-498 *)
                 a <- brd dark k ;;
                 b <- brd dark2 k ;;
                 c <- brd dark2 (k - 1)%nat ;;
                 bwr dark2 (k + 1)%nat
                   (#2 * (#dCurr + 1) * a + #2 * z * b - #2 * #k * c)) dark2 ;;
      py_hopphy_recurse m z n' (S dCurr) dark2
  end.
Definition py_hopphy_hint (m : nat) (z : T) (d : nat) : option (buf T) :=
  if m =? 1%nat then Some (bof [if 0%nat <? d then 0 else 1])
  else if m =? 2%nat then
    Some (bof (if 1%nat <? d then [0; 0] else if 0%nat <? d then [0; #2 * 1] else [1; #2 * z]))
  else
    F <- np_row2 m 1 (#2 * z) ;;                                 (* 476 *)
    F <- for_ 1 (m - 1)%nat (fun k F =>                          (* 477-478 *)
           a <- brd F k ;; b <- brd F (k - 1)%nat ;;
           bwr F (k + 1)%nat (#2 * z * a - #2 * #k * b)) F ;;
    py_hopphy_recurse m z d 0%nat F.

(** FS._Hint, BF_Py.py 533-589.  [np.ceil(k / 2.0)] is [(k + 1) / 2] on naturals.
    [F[:, 0] = ...] on a zero-column array is an IndexError ([bwr] fails). *)
Definition py_fs_hint (m : nat) (z : T) (d : nat) : option (buf T) :=
  let F := bfill m 0 in                                          (* 551 *)
  let g k := #((k + 1) / 2)%nat in
  if d =? 0%nat then                                             (* 552-559 *)
    F <- bwr F 0%nat 1 ;;
    for_ 1 m (fun k F => bwr F k (if k mod 2 =? 0%nat then fcos E (g k * z) else fsin E (g k * z))) F
  else
    F <- bwr F 0%nat 0 ;;                                        (* 561 *)
    if d mod 4 =? 0%nat then                                     (* 562-568 *)
      for_ 1 m (fun k F => bwr F k (if k mod 2 =? 0%nat then opow A (g k) d * fcos E (g k * z)
                                    else opow A (g k) d * fsin E (g k * z))) F
    else if d mod 4 =? 1%nat then                                (* 569-575 *)
      for_ 1 m (fun k F => bwr F k (if k mod 2 =? 0%nat then - opow A (g k) d * fsin E (g k * z)
                                    else opow A (g k) d * fcos E (g k * z))) F
    else if d mod 4 =? 2%nat then                                (* 576-582 *)
      for_ 1 m (fun k F => bwr F k (if k mod 2 =? 0%nat then - opow A (g k) d * fcos E (g k * z)
                                    else - opow A (g k) d * fsin E (g k * z))) F
    else                                                         (* 583-589 *)
      for_ 1 m (fun k F => bwr F k (if k mod 2 =? 0%nat then opow A (g k) d * fsin E (g k * z)
                                    else - opow A (g k) d * fcos E (g k * z))) F.

(** Method dispatch of [self._Hint], on one row. *)
Definition py_hint_row (f : fam) (m : nat) (z : T) (d : nat) : option (list T) :=
  b <- match f with
       | CP => py_cp_hint m z d | LeP => py_lep_hint m z d | LaP => py_lap_hint m z d
       | HoPpro => py_hoppro_hint m z d | HoPphy => py_hopphy_hint m z d
       | FS => py_fs_hint m z d
       end ;;
  bto_list b.
Definition py_hint (f : fam) (m : nat) (zs : list T) (d : nat) : option (mat T) :=
  rows <- mapM (fun z => py_hint_row f m z d) zs ;;
  Some (Mat (length zs) m rows).

(** Basis object, BF_Py.py 46-57.  Division by zero ([xf == x0]) is not
    modelled here: the theorems assume [x0 <> xf]. *)
Record basis := Basis {
  b_m : nat; b_nC : list Z; b_x0 : T; b_c : T; b_z0 : T }.
(** [BasisFunc.__init__], 46-57; [zf = None] stands for [float("inf")]. *)
Definition basis_init (x0 xf : T) (nC : list Z) (m : nat) (z0 : T) (zf : option T) : basis :=
  match zf with
  | None => Basis m nC 0 1 z0                                    (* 52-54 *)
  | Some zf => Basis m nC x0 ((zf - z0) / (xf - x0)) z0          (* 55-57 *)
  end.
(** constructors: CP 149, LeP 238, FS 531; LaP/HoPpro/HoPphy inherit the defaults (25-26) *)
Definition fam_init (f : fam) (x0 xf : T) (nC : list Z) (m : nat) : basis :=
  match f with
  | CP | LeP => basis_init x0 xf nC m (oopp A 1) (Some 1)
  | FS => basis_init x0 xf nC m (- fpi E) (Some (fpi E))
  | LaP | HoPpro | HoPphy => basis_init x0 xf nC m 0 None
  end.

(** One entry of the index list of [np.delete] along an axis of size [m]:
    negative entries count from the end, others are an IndexError. *)
Definition np_index (m : nat) (i : Z) : option nat :=
  if (Z.leb (Z.opp (Z.of_nat m)) i && Z.ltb i (Z.of_nat m))%bool
  then Some (Z.to_nat (if Z.ltb i 0%Z then (i + Z.of_nat m)%Z else i)) else None.
(** [np.delete(F, nC, axis=1)], NumPy semantics: repeated entries delete once. *)
Definition np_delete_cols (F : mat T) (nC : list Z) : option (mat T) :=
  idx <- mapM (np_index (mc F)) nC ;;
  Some (Mat (mr F) (length (drop_cols idx 0 (repeat 0%nat (mc F))))
            (map (drop_cols idx 0) (md F))).

(** [F * dMult] *)
Definition mat_scale (s : T) (F : mat T) : mat T :=
  Mat (mr F) (mc F) (map (map (fun v => v * s)) (md F)).

(** [BasisFunc.H] with an arbitrary [_Hint], BF_Py.py 78-87, for a one-dimensional [x]. *)
Definition py_H_with (hint : list T -> nat -> option (mat T)) (B : basis)
    (xs : list T) (d : nat) (full : bool) : option (mat T) :=
  let z := map (fun x => (x - b_x0 B) * b_c B + b_z0 B) xs in    (* 78-80 *)
  let dMult := opow A (b_c B) d in                               (* 81 *)
  F <- hint z d ;;
  let F := mat_scale dMult F in                                  (* 82 *)
  if negb full && (0 <? length (b_nC B))%nat                     (* 83-84 *)
  then np_delete_cols F (b_nC B) else Some F.
Definition py_H (f : fam) (B : basis) := py_H_with (py_hint f (b_m B)) B.
End Py.
Arguments Basis {T}. Arguments b_m {T}. Arguments b_nC {T}. Arguments b_x0 {T}.
Arguments b_c {T}. Arguments b_z0 {T}.
