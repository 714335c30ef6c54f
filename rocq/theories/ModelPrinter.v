(** TfcPrinter (utils/CeSolver.py 372-498): the code text printed for derivatives, substitutions
    and known functions.

    A Python string is a list of characters.  Only what TfcPrinter itself adds to sympy's
    PythonCodePrinter is modelled: [_print_Symbol] and [_print_Function] (407-435) print
    [str(expr)], so symbols and functions enter as their texts, and two symbols are the same
    when their names are.  [self._print] of a string gives the string back. *)
From Coq Require Import List Bool Arith Ascii String DecimalString DecimalNat.
From Verif Require Import Base.
Import ListNotations.

Notation text := (list ascii).
Definition txt (s : string) : text := list_ascii_of_string s.
(** [s == t] *)
Fixpoint teqb (s t : text) : bool :=
  match s, t with
  | [], [] => true
  | a :: s', b :: t' => Ascii.eqb a b && teqb s' t'
  | _, _ => false
  end.
(** [str(n)] *)
Definition dec (n : nat) : text := txt (NilEmpty.string_of_uint (Nat.to_uint n)).
(** [s.startswith(p)] *)
Fixpoint prefixb (p s : text) : bool :=
  match p, s with
  | [], _ => true
  | a :: p', b :: s' => Ascii.eqb a b && prefixb p' s'
  | _ :: _, [] => false
  end.
(** [s.replace(old, new)] for a non-empty [old]: occurrences are found from left to right and do
    not overlap; [skip] characters of the last one found are still to be dropped *)
Fixpoint rep (old new : text) (skip : nat) (s : text) : text :=
  match s with
  | [] => []
  | c :: r => match skip with
              | S k => rep old new k r
              | 0 => if prefixb old s then new ++ rep old new (List.length old - 1) r else c :: rep old new 0 r
              end
  end.
Definition py_replace (old new s : text) : text := rep old new 0 s.
(** [list.index(x)]; [None] is ValueError *)
Fixpoint index_of (x : text) (l : list text) : option nat :=
  match l with
  | [] => None
  | y :: r => if teqb x y then Some 0 else i <- index_of x r ;; Some (S i)
  end.

(** A derivative of an applied function: its name, its arguments, and the symbols with respect
    to which it is taken, each with its order (472). *)
Record deriv := Deriv { d_name : text; d_args : list text; d_vars : list (text * nat) }.
(** _print_Derivative, 457-498 *)
Definition print_Derivative (d : deriv) : option text :=
  pos <- mapM (fun v : text * nat => i <- index_of (fst v) (d_args d) ;; Some (i, snd v)) (d_vars d) ;;
  let opens := List.concat (map (fun pv : nat * nat =>
                 List.concat (repeat (txt "egrad(" ++ d_name d ++ txt "," ++ dec (fst pv)) (snd pv))) pos) in
  let counter := fold_left (fun n (pv : nat * nat) => n + snd pv) pos 0 in
  Some (opens ++ List.concat (repeat (txt ")") counter)
        ++ txt "(" ++ List.concat (map fst (d_vars d)) ++ txt ")").

(** _print_Subs, 437-455: the printed expression, the printed symbols and the printed values *)
Definition print_Subs (expr : text) (subs : list (text * text)) : text :=
  fold_left (fun e (s : text * text) => py_replace (fst s) (snd s) e) subs expr.

(** __init__, 373-382: the tables [_kf] and [_kc] belong to sympy's class, not to the object, so
    the edit is seen by every printer from then on.  [isin s t] is [s in t]. *)
Fixpoint isin (s t : text) : bool :=
  prefixb s t || match t with [] => false | _ :: r => isin s r end.
Definition printer_init (kf : list (text * text)) : list (text * text) :=
  map (fun kv : text * text => if isin (txt "math") (snd kv)
                 then (fst kv, py_replace (txt "math") (txt "np") (snd kv)) else kv) kf.
