(** The matplotlib figure class: __init__ of utils/MakePlot.py (20-187).

    A label argument is a string, a flat list or tuple (or one-dimensional array), a nested one
    (or two-dimensional array), or something else; an entry is a text or Python's None.
    matplotlib is modelled by what it is told: a subplot is the cell it is placed in, its kind and
    its texts.  Fonts, styles and layout are left out.  TFCPrint.Error, an exception and a
    ragged nested list (which NumPy rejects) are [None]. *)
From Coq Require Import List Bool Arith Ascii String.
From Verif Require Import Base ModelPrinter.
Import ListNotations.
Local Open Scope list_scope.

Inductive larg := LStr (s : text) | LFlat (l : list (option text)) | LNested (l : list (list (option text))) | LOther.
(** a two-dimensional array of labels *)
Record labs := Labs { l_r : nat; l_c : nat; l_d : list (list (option text)) }.

(** 67-79 (x labels); 81-92, 94-106, 108-120 and 122-134 are the same for the others *)
Definition norm (a : larg) : option labs :=
  match a with
  | LStr s => Some (Labs 1 1 [[Some s]])
  | LFlat l => Some (Labs (List.length l) 1 (map (fun x => [x]) l))
  | LNested [] => Some (Labs 0 1 [])
  | LNested (r :: l) => if forallb (fun r' => List.length r' =? List.length r) l
                        then Some (Labs (S (List.length l)) (List.length r) (r :: l)) else None
  | LOther => None
  end.
(** an argument that may be Python's None *)
Definition norm_opt (a : option larg) : option (option labs) :=
  match a with None => Some None | Some a => v <- norm a ;; Some (Some v) end.
(** [labs[j, k]] *)
Definition at_ (L : labs) (j k : nat) : option (option text) :=
  if (j <? l_r L) && (k <? l_c L) then r <- nth_error (l_d L) j ;; nth_error r k else None.

(** A subplot: the number given to add_subplot, whether it is three-dimensional, and its texts;
    [None] is no text. *)
Record axes := Axes { ax_num : nat; ax_3d : bool; ax_x : option text; ax_y : option text; ax_z : option text; ax_title : option text }.
Definition set_title (t : option text) (a : axes) : axes := Axes (ax_num a) (ax_3d a) (ax_x a) (ax_y a) (ax_z a) t.
(** [l[i] = f(l[i])]; [None] is IndexError *)
Fixpoint modify {A} (f : A -> A) (l : list A) (i : nat) : option (list A) :=
  match l, i with
  | [], _ => None
  | a :: r, 0 => Some (f a :: r)
  | a :: r, S i' => r' <- modify f r i' ;; Some (a :: r')
  end.

(** [for j in range(n[0]): for k in range(n[1])] *)
Definition cells (r c : nat) : list (nat * nat) := List.concat (map (fun j => map (fun k => (j, k)) (seq 0 c)) (seq 0 r)).
Fixpoint foldM {A S} (f : A -> S -> option S) (l : list A) (s : S) : option S :=
  match l with [] => Some s | a :: r => s' <- f a s ;; foldM f r s' end.

(** the loop that makes the subplots, 136-164 *)
Definition make_axes (X Y : labs) (Z : option labs) : option (list axes) :=
  foldM (fun (jk : nat * nat) (ax : list axes) =>
    let (j, k) := jk in
    x <- at_ X j k ;;
    match x with
    | None => Some ax
    | Some x =>
        y <- at_ Y j k ;;
        z <- match Z with None => Some None | Some Z => at_ Z j k end ;;
        Some (ax ++ [Axes (j * l_c X + k + 1) (match Z with None => false | Some _ => true end) (Some x) y z None])
    end) (cells (l_r X) (l_c X)) [].
(** 166-174: the twin axes, each with the number of the subplot it belongs to and its label *)
Definition make_twins (X : labs) (ax : list axes) (T : labs) : option (list (nat * option text)) :=
  s <- foldM (fun (jk : nat * nat) (s : nat * list (nat * option text)) =>
    let (j, k) := jk in let (count, tw) := s in
    x <- at_ X j k ;;
    match x with
    | None => Some s
    | Some _ =>
        a <- nth_error ax count ;;
        t <- at_ T j k ;;
        Some (S count, tw ++ [(ax_num a, t)])
    end) (cells (l_r X) (l_c X)) (0, []) ;;
  Some (snd s).
(** 176-184: the titles *)
Definition add_titles (X : labs) (T : labs) (ax : list axes) : option (list axes) :=
  s <- foldM (fun (jk : nat * nat) (s : nat * list axes) =>
    let (j, k) := jk in let (count, ax) := s in
    t <- at_ T j k ;;
    match t with
    | None => Some s
    | Some t => ax <- modify (set_title (Some t)) ax count ;; Some (S count, ax)
    end) (cells (l_r X) (l_c X)) (0, ax) ;;
  Some (snd s).

Record figure := Figure { f_r : nat; f_c : nat; f_ax : list axes; f_twin : option (list (nat * option text)) }.
(** __init__, 20-187; the labels are normalised in the order x, y, z, titles, twin *)
Definition MakePlot (xlabs ylabs : larg) (titles twinYlabs zlabs : option larg) : option figure :=
  X <- norm xlabs ;;
  Y <- norm ylabs ;;
  Z <- norm_opt zlabs ;;
  T <- norm_opt titles ;;
  W <- norm_opt twinYlabs ;;
  ax <- make_axes X Y Z ;;
  tw <- match W with None => Some None | Some W => tw <- make_twins X ax W ;; Some (Some tw) end ;;
  ax <- match T with None => Some ax | Some T => add_titles X T ax end ;;
  Some (Figure (l_r X) (l_c X) ax tw).
