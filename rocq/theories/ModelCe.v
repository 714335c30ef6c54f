(** CeSolver (utils/CeSolver.py 14-370): the constrained expression and its cached parts.

    Expressions are elements of a commutative ring with units [E]; sympy's simplification is
    modelled by equality in [E].  Constraint operators are total functions.  Matrices carry their
    dimensions; sympy's ShapeError, NonSquareMatrixError, NonInvertibleMatrixError and IndexError are [None].
    The branch for matrix-valued operators (nc_simplify, 190) and print_type (76-99) are left out. *)
From mathcomp Require Import all_ssreflect all_algebra.
Set Implicit Arguments.
Unset Strict Implicit.
Unset Printing Implicit Defensive.
Import GRing.Theory.
Local Open Scope ring_scope.

Section Ce.
Variable E : comUnitRingType.

(** ** sympy matrices *)
Record smx := Smx { sm : nat; sn : nat; sv : 'M[E]_(sm, sn) }.
(** [sp.Matrix(list)]: a column, or 0 by 0 for the empty list *)
Definition s_col (l : seq E) : smx :=
  if l is [::] then Smx (0 : 'M[E]_(0, 0)) else Smx (\col_(i < size l) nth 0 l i).
Definition s_tr (A : smx) : smx := Smx (sv A)^T.
Definition s_mul (A B : smx) : option smx :=
  if eqP : reflect (sm B = sn A) _ is ReflectT e then Some (Smx (sv A *m castmx (e, erefl) (sv B))) else None.
Definition s_inv (A : smx) : option smx :=
  if eqP : reflect (sn A = sm A) _ is ReflectT e then
    let A' := castmx (erefl, e) (sv A) in
    if A' \in unitmx then Some (Smx (invmx A')) else None
  else None.
(** [A[0]] *)
Definition s_first (A : smx) : option E :=
  match sm A as m, sn A as n return 'M[E]_(m, n) -> option E with
  | m.+1, n.+1 => fun v => Some (v 0 0)
  | _, _ => fun=> None
  end (sv A).

(** ** The object, 65-74; an attribute not yet set is [None] *)
Record ce_state := CeState {
  c_C : seq (E -> E); c_K : seq E; c_s : seq E; c_g : E;
  c_ce : option E; c_S : option smx; c_alpha : option smx; c_phi : option smx;
  ce_stale : bool; S_stale : bool; alpha_stale : bool; phi_stale : bool; rho_stale : bool }.
Definition ce_init C K s g : ce_state :=
  CeState C K s g None None None None true true true true true.

(** [sp.Matrix([[c(s) for s in self._s] for c in self._C])], 207; no rows at all is 0 by 0 *)
Definition S_value (C : seq (E -> E)) (s : seq E) : smx :=
  if C is [::] then Smx (0 : 'M[E]_(0, 0)) else Smx (\matrix_(i < size C, j < size s) (nth id C i) (nth 0 s j)).
Definition get_S (st : ce_state) : ce_state * option smx :=
  if S_stale st then
    let v := S_value (c_C st) (c_s st) in
    (CeState (c_C st) (c_K st) (c_s st) (c_g st) (c_ce st) (Some v) (c_alpha st) (c_phi st)
       (ce_stale st) false (alpha_stale st) (phi_stale st) (rho_stale st), Some v)
  else (st, c_S st).
(** alpha, 159-171 *)
Definition get_alpha (st : ce_state) : ce_state * option smx :=
  if alpha_stale st then
    let (st1, oS) := get_S st in
    match obind s_inv oS with
    | Some a => (CeState (c_C st1) (c_K st1) (c_s st1) (c_g st1) (c_ce st1) (c_S st1) (Some a) (c_phi st1)
                   (ce_stale st1) (S_stale st1) false (phi_stale st1) (rho_stale st1), Some a)
    | None => (st1, None)
    end
  else (st, c_alpha st).
(** phi, 130-143 *)
Definition get_phi (st : ce_state) : ce_state * option smx :=
  if phi_stale st then
    let s_vec := s_col (c_s st) in
    let (st1, oa) := get_alpha st in
    match obind (s_mul (s_tr s_vec)) oa with
    | Some p => (CeState (c_C st1) (c_K st1) (c_s st1) (c_g st1) (c_ce st1) (c_S st1) (c_alpha st1) (Some p)
                   (ce_stale st1) (S_stale st1) (alpha_stale st1) false (rho_stale st1), Some p)
    | None => (st1, None)
    end
  else (st, c_phi st).
(** rho, 213-226: computed on every read, because its flag is never cleared;
    more kappas than operators is an IndexError *)
Definition rho_value (C : seq (E -> E)) (K : seq E) (g : E) : option smx :=
  if (size K <= size C)%N then Some (s_col [seq p.1 - p.2 g | p <- zip K C]) else None.
Definition get_rho (st : ce_state) : ce_state * option smx := (st, rho_value (c_C st) (c_K st) (c_g st)).
(** ce, 102-114 and _solveCe, 346-350 *)
Definition get_ce (st : ce_state) : ce_state * option E :=
  if ce_stale st then
    let (st1, op) := get_phi st in
    match op with
    | None => (st1, None)
    | Some p =>
        let (st2, orho) := get_rho st1 in
        match obind s_first (obind (s_mul p) orho) with
        | Some x =>
            let v := c_g st2 + x in
            (CeState (c_C st2) (c_K st2) (c_s st2) (c_g st2) (Some v) (c_S st2) (c_alpha st2) (c_phi st2)
               false (S_stale st2) (alpha_stale st2) (phi_stale st2) (rho_stale st2), Some v)
        | None => (st2, None)
        end
    end
  else (st, c_ce st).

(** setters: ce 117-127, phi 146-156, s 241-257, kappa 272-285, C 300-317, g 332-344 *)
Definition set_ce (v : E) (st : ce_state) : ce_state :=
  CeState (c_C st) (c_K st) (c_s st) (c_g st) (Some v) (c_S st) (c_alpha st) (c_phi st)
    false (S_stale st) (alpha_stale st) (phi_stale st) (rho_stale st).
Definition set_phi (v : smx) (st : ce_state) : ce_state :=
  CeState (c_C st) (c_K st) (c_s st) (c_g st) (c_ce st) (c_S st) (c_alpha st) (Some v)
    (ce_stale st) (S_stale st) (alpha_stale st) false (rho_stale st).
Definition set_s (v : seq E) (st : ce_state) : ce_state :=
  CeState (c_C st) (c_K st) v (c_g st) (c_ce st) (c_S st) (c_alpha st) (c_phi st) true true true true (rho_stale st).
Definition set_kappa (v : seq E) (st : ce_state) : ce_state :=
  CeState (c_C st) v (c_s st) (c_g st) (c_ce st) (c_S st) (c_alpha st) (c_phi st)
    true (S_stale st) (alpha_stale st) (phi_stale st) true.
Definition set_C (v : seq (E -> E)) (st : ce_state) : ce_state :=
  CeState v (c_K st) (c_s st) (c_g st) (c_ce st) (c_S st) (c_alpha st) (c_phi st) true true true true true.
Definition set_g (v : E) (st : ce_state) : ce_state :=
  CeState (c_C st) (c_K st) (c_s st) v (c_ce st) (c_S st) (c_alpha st) (c_phi st)
    true (S_stale st) (alpha_stale st) (phi_stale st) true.

(** checkCe, 352-369: the result and the numbers of the constraints warned about;
    ce is read once for each pair, so not at all when there is none *)
Definition checkCe (st : ce_state) : ce_state * option (bool * seq nat) :=
  if zip (c_C st) (c_K st) is [::] then (st, Some (true, [::]))
  else
    let (st1, oce) := get_ce st in
    match oce with
    | None => (st1, None)
    | Some ce =>
        let checks := [seq p.1 ce == p.2 | p <- zip (c_C st1) (c_K st1)] in
        (st1, Some (foldl (fun ret p => if ~~ p.2 then (false, rcons ret.2 p.1.+1) else ret) (true, [::])
                      (zip (iota 0 (size checks)) checks)))
    end.

(** ** Sequences of reads and assignments *)
Inductive ce_op :=
| GetCe | GetPhi | GetAlpha | GetS | GetRho | GetInputs | Check
| SetCe of E | SetPhi of smx | SetSup of seq E | SetKappa of seq E | SetC of seq (E -> E) | SetG of E.
Inductive ce_out :=
| ONone | OExpr of option E | OMat of option smx | OCheck of option (bool * seq nat)
| OInputs of seq (E -> E) & seq E & seq E & E.
Definition ce_step (st : ce_state) (o : ce_op) : ce_state * ce_out :=
  match o with
  | GetCe => let (st', v) := get_ce st in (st', OExpr v)
  | GetPhi => let (st', v) := get_phi st in (st', OMat v)
  | GetAlpha => let (st', v) := get_alpha st in (st', OMat v)
  | GetS => let (st', v) := get_S st in (st', OMat v)
  | GetRho => let (st', v) := get_rho st in (st', OMat v)
  | GetInputs => (st, OInputs (c_C st) (c_K st) (c_s st) (c_g st))
  | Check => let (st', v) := checkCe st in (st', OCheck v)
  | SetCe v => (set_ce v st, ONone)
  | SetPhi v => (set_phi v st, ONone)
  | SetSup v => (set_s v st, ONone)
  | SetKappa v => (set_kappa v st, ONone)
  | SetC v => (set_C v st, ONone)
  | SetG v => (set_g v st, ONone)
  end.
Fixpoint ce_run (st : ce_state) (os : seq ce_op) : seq ce_out :=
  if os is o :: os' then let (st', r) := ce_step st o in r :: ce_run st' os' else [::].
End Ce.
