(** Reading printed code back: words, tokens, expressions and what they compute. *)
From Coq Require Import List Bool Arith Ascii String Reals.
From Coquelicot Require Import Coquelicot.
From Verif Require Import Base ModelPrinter ModelEgrad SpecEgrad.
Import ListNotations.

(** ** Characters *)
Definition code (c : ascii) : nat := nat_of_ascii c.
Definition between (a c b : nat) : bool := (a <=? c) && (c <=? b).
Definition digit (c : ascii) : bool := between 48 (code c) 57.
Definition letter (c : ascii) : bool :=
  between 65 (code c) 90 || between 97 (code c) 122 || Ascii.eqb c "_"%char.
Definition wordc (c : ascii) : bool := letter c || digit c.
(** an identifier *)
Definition ident (t : text) : bool :=
  match t with [] => false | c :: r => letter c && forallb wordc r end.
Definition numeral (t : text) : bool :=
  match t with [] => false | _ => forallb digit t end.

(** ** Words: the maximal runs of letters and digits, and the single characters between them *)
Fixpoint words (t : text) : list text :=
  match t with
  | [] => []
  | c :: r => if wordc c then
                match words r with
                | (d :: w) :: ws => if wordc d then (c :: d :: w) :: ws else [c] :: (d :: w) :: ws
                | ws => [c] :: ws
                end
              else [c] :: words r
  end.
(** [s] occurs somewhere in [t] *)
Definition occurs (s t : text) : Prop := exists a b, t = a ++ s ++ b.
(** substitution of whole words, all at once *)
Fixpoint lookup (w : text) (subs : list (text * text)) : option text :=
  match subs with
  | [] => None
  | (x, v) :: r => if teqb w x then Some v else lookup w r
  end.
Definition subst_words (subs : list (text * text)) (t : text) : text :=
  List.concat (map (fun w => match lookup w subs with Some v => v | None => w end) (words t)).

(** ** Tokens *)
Inductive token := TName (t : text) | TNum (t : text) | TOpen | TClose | TComma.
(** a run of letters and digits is an identifier or a number, or it is not code *)
Definition word_token (w : text) : option (list token) :=
  match w with
  | [] => Some []
  | _ => if ident w then Some [TName w] else if numeral w then Some [TNum w] else None
  end.
Definition punct (c : ascii) : option (list token) :=
  if Ascii.eqb c "("%char then Some [TOpen] else if Ascii.eqb c ")"%char then Some [TClose]
  else if Ascii.eqb c ","%char then Some [TComma] else if Ascii.eqb c " "%char then Some [] else None.
(** [acc] is the run read so far *)
Fixpoint lex (acc t : text) : option (list token) :=
  match t with
  | [] => word_token acc
  | c :: r => if wordc c then lex (acc ++ [c]) r else
                w <- word_token acc ;; p <- punct c ;; ts <- lex [] r ;; Some (w ++ p ++ ts)
  end.

(** ** Expressions: names, numbers and calls *)
Inductive pyexp := PName (t : text) | PNum (t : text) | PCall (f : pyexp) (args : list pyexp).
(** [fuel] bounds the number of steps; every step reads a token, so the number of tokens is enough *)
Fixpoint parse_e (fuel : nat) (ts : list token) : option (pyexp * list token) :=
  match fuel with
  | 0 => None
  | S n => match ts with
           | TName x :: r => parse_calls n (PName x) r
           | TNum x :: r => parse_calls n (PNum x) r
           | _ => None
           end
  end
with parse_calls (fuel : nat) (f : pyexp) (ts : list token) : option (pyexp * list token) :=
  match fuel with
  | 0 => Some (f, ts)
  | S n => match ts with
           | TOpen :: TClose :: r => parse_calls n (PCall f []) r
           | TOpen :: r => p <- parse_args n r ;; parse_calls n (PCall f (fst p)) (snd p)
           | _ => Some (f, ts)
           end
  end
with parse_args (fuel : nat) (ts : list token) : option (list pyexp * list token) :=
  match fuel with
  | 0 => None
  | S n => p <- parse_e n ts ;;
           match snd p with
           | TComma :: r => q <- parse_args n r ;; Some (fst p :: fst q, snd q)
           | TClose :: r => Some ([fst p], r)
           | _ => None
           end
  end.
Definition parse (t : text) : option pyexp :=
  ts <- lex [] t ;; p <- parse_e (List.length ts) ts ;; match snd p with [] => Some (fst p) | _ => None end.

(** ** The code for a derivative: egrad once for every order, then all the arguments *)
Definition egrad_of (e : pyexp) (i : nat) : pyexp := PCall (PName (txt "egrad")) [e; PNum (dec i)].
Definition position (x : text) (args : list text) (i : nat) : Prop :=
  nth_error args i = Some x /\ forall j, (j < i)%nat -> nth_error args j <> Some x.
Inductive derivative_code (args : list text) : pyexp -> list (text * nat) -> pyexp -> Prop :=
| dc_nil e : derivative_code args e [] (PCall e (map PName args))
| dc_zero e x vs e' : derivative_code args e vs e' -> derivative_code args e ((x, 0%nat) :: vs) e'
| dc_order e x i n vs e' : position x args i -> derivative_code args (egrad_of e i) ((x, n : nat) :: vs) e' ->
    derivative_code args e ((x, S n) :: vs) e'.
(** what sympy hands over: identifiers, symbols that are arguments, positive orders *)
Definition proper (d : deriv) : Prop :=
  ident (d_name d) = true /\ (forall a, In a (d_args d) -> ident a = true) /\ NoDup (d_args d) /\ d_vars d <> [] /\
  (forall x n, In (x, n) (d_vars d) -> In x (d_args d) /\ (0 < n)%nat).

(** ** What code computes: [F] and [V] give the functions and the variables *)
Inductive function_of (F : text -> list arg -> arr) : pyexp -> (list arg -> option arr -> Prop) -> Prop :=
| fo_name g : function_of F (PName g) (fun args r => r = Some (F g args))
| fo_egrad g j : function_of F (egrad_of (PName g) j) (is_egrad (F g) j).
Definition computes (F : text -> list arg -> arr) (V : text -> arg) (t : text) (r : option arr) : Prop :=
  exists f xs G, parse t = Some (PCall f (map PName xs)) /\ function_of F f G /\ G (map V xs) r.
