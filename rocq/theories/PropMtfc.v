(** Properties C14, C15, C19, C25, C26, C28, C59 for the multivariate class. *)
From Coq Require Import Reals Arith List Bool ZArith Lra Lia QArith Permutation.
From Coquelicot Require Import Coquelicot.
From Verif Require Import Base Numbers ModelBFPy ModelBFCpp SpecBasis ModelELM SpecELM ModelND SpecND ModelNELM SpecNELM
  ModelUtfc SpecUtfc ModelMtfc SpecMtfc ProofMtfc ProofMtfc2 ProofMtfc3.
Import ListNotations.
Open Scope R_scope.

Definition mkmQ be bs n nC deg dim x0 xf w b := mtfc_init QOps QFun be bs n nC deg dim (Some x0) (Some xf) w b.
Definition nojvpn : (list Q -> Q) -> list Q -> list Q -> Q := fun _ _ _ => 0%Q.
(** a Fourier basis of degree 2 in two dimensions without the constant in x and without 0, 1 in y;
    over the rationals pi is 3 and sine, cosine are the identity *)
Definition exFS be := mkmQ be (MB FS) [2; 3]%nat (MList [EInt 1; EList [0; 1]%Z]) 2 2 [0; 0]%Q [1; 2]%Q [] [].
(** three ReLU neurons in two dimensions, the first removed *)
Definition exReLU be := mkmQ be (ME ReLU) [2; 3]%nat (MInt 1) 2 2 [0; 0]%Q [1; 2]%Q [1; 2; (-1); 0; 1; 3]%Q [1; (-1); 0]%Q.

(** ** C14 *)
Theorem C14_mtfc_shape_partial : forall jvpn, jvpn_ok jvpn -> forall be bs n nC deg dim x0 xf w b u,
  mkm be bs n nC deg dim x0 xf w b = Some u -> argsm bs nC deg dim x0 xf w b ->
  forall d full N x, canm be bs dim d -> shaped x dim N ->
  exists M, mtfc_H ROps RFun jvpn u (md x) d full = Some M /\ has_shape M (mtfc_abstract u [N] full).
Proof. exact c14m. Qed.
Print Assumptions C14_mtfc_shape_partial.
(** C++: whatever the constraints, orders and points *)
Theorem C14_mtfc_cpp_shape : forall jvpn bs n nC deg dim x0 xf w b u x xs d full M,
  mkm Cpp bs n nC deg dim x0 xf w b = Some u ->
  mtfc_H ROps RFun jvpn u (x :: xs) d full = Some M -> has_shape M (mtfc_abstract u [length x] full).
Proof. exact c14m_cpp. Qed.
Print Assumptions C14_mtfc_cpp_shape.
(** Python ELM bases advertise too few columns when [nC] repeats an entry *)
Theorem C14_mtfc_python_refuted : forall jvpn w0 w1 w2 b0 b1 b2, exists u M,
  mkm Py (ME Sin) [2%nat] (MJax1 [0; 0]%Z) 2 1 [0] [1] [w0; w1; w2] [b0; b1; b2] = Some u /\
  mtfc_H ROps RFun jvpn u [[0]] [0%nat] false = Some M /\ mtfc_abstract u [1%nat] false = [1; 1]%nat /\ shaped M 1 2.
Proof. exact c14m_refuted. Qed.
Print Assumptions C14_mtfc_python_refuted.
Example C14_mtfc_case : forall be, exists u M, exFS be = Some u /\ mtfc_abstract u [1%nat] false = [1; 4]%nat /\
  mtfc_abstract u [] true = [6]%nat /\ mtfc_H QOps QFun nojvpn u [[1]; [2]]%Q [0; 1]%nat false = Some M /\ shaped M 1 4.
Proof.
  intros []; (eexists; eexists; split; [vm_compute; reflexivity|]; split; [reflexivity|]; split; [reflexivity|];
  split; [vm_compute; reflexivity|]; repeat split; intros r [<-|[]]; reflexivity).
Qed.

(** ** C15: the compiled call returns the eager matrix *)
Theorem C15_mtfc_compiled_equals_eager : forall jvpn, jvpn_ok jvpn -> forall be bs n nC deg dim x0 xf w b u,
  mkm be bs n nC deg dim x0 xf w b = Some u -> argsm bs nC deg dim x0 xf w b ->
  forall d full N x, be = Cpp -> canm be bs dim d -> shaped x dim N ->
  exists M, mtfc_H ROps RFun jvpn u (md x) d full = Some M /\ mtfc_compiled ROps RFun u (md x) d full = Some M.
Proof. exact c15m. Qed.
Print Assumptions C15_mtfc_compiled_equals_eager.
Example C15_mtfc_case : exists u M, exFS Cpp = Some u /\
  mtfc_H QOps QFun nojvpn u [[1; 0]; [2; 1]]%Q [0; 1]%nat false = Some M /\
  mtfc_compiled QOps QFun u [[1; 0]; [2; 1]]%Q [0; 1]%nat false = Some M /\ mc M = 4%nat.
Proof. eexists; eexists. split; [vm_compute; reflexivity|]. split; [vm_compute; reflexivity|]. split; vm_compute; reflexivity. Qed.

(** ** C19 *)
Theorem C19_grid_points : forall be bs n nC deg dim x0 xf w b u, mkm be bs n nC deg dim x0 xf w b = Some u ->
  (forall k, (k < dim)%nat -> nth k x0 0 <> nth k xf 0) ->
  m_N u = product n /\ length (m_x u) = dim /\
  forall k, (k < dim)%nat -> exists row, nth_error (m_x u) k = Some row /\ length row = product n /\
    forall i, (i < product n)%nat -> nth_error row i =
      Some (point_rulem bs (nth k x0 0) (nth k xf 0) (nth k n 0%nat - 1) ((i / stride n k) mod nth k n 0%nat)).
Proof. exact c19. Qed.
Print Assumptions C19_grid_points.
Theorem C19_grid_every_combination_once : forall be bs n nC deg dim x0 xf w b u (a : nat -> nat),
  mkm be bs n nC deg dim x0 xf w b = Some u ->
  (forall k, (k < dim)%nat -> nth k x0 0 < nth k xf 0) ->
  (forall k, (k < dim)%nat -> (a k < nth k n 0%nat)%nat) ->
  let here i := (i < m_N u)%nat /\ forall k, (k < dim)%nat ->
    ment (Mat dim (m_N u) (m_x u)) k i = Some (point_rulem bs (nth k x0 0) (nth k xf 0) (nth k n 0%nat - 1) (a k)) in
  exists i, here i /\ forall j, here j -> j = i.
Proof. exact c19_exactly. Qed.
Print Assumptions C19_grid_every_combination_once.
Example C19_case : forall be, exists u, exReLU be = Some u /\ m_N u = 6%nat /\
  map (map Qred) (m_x u) = [[0; 0; 0; 1; 1; 1]; [0; 1; 2; 0; 1; 2]]%Q.
Proof. intros []; eexists; (split; [vm_compute; reflexivity|split; vm_compute; reflexivity]). Qed.

(** ** C25 *)
Theorem C25_named_partials_partial : forall jvpn, jvpn_ok jvpn -> forall be bs n nC deg dim x0 xf w b u,
  mkm be bs n nC deg dim x0 xf w b = Some u -> argsm bs nC deg dim x0 xf w b ->
  forall m full i, smoothm bs -> (needs m <= dim)%nat -> (i < mtfc_num u full)%nat -> exists y g : pt -> R,
  (forall X, exists M0, mtfc_call ROps RFun jvpn u mmH (md (one_point dim X)) full = Some M0 /\ ment M0 0 i = Some (y X)) /\
  (forall ks, Permutation ks (seq 0 dim) -> mixed (map (times m) (seq 0 dim)) ks y g) /\
  forall N x j X, shaped x dim N -> (j < N)%nat -> at_col x j dim X ->
    exists M, mtfc_call ROps RFun jvpn u m (md x) full = Some M /\ shaped M N (mtfc_num u full) /\ ment M j i = Some (g X).
Proof. exact c25. Qed.
Print Assumptions C25_named_partials_partial.
(** with too few variables, Hxy and Hx2y fail; Hy, Hy2 and Hz silently return H *)
Theorem C25_mixed_need_two_dimensions : forall jvpn (u : mtfc (T:=R)) m xs full,
  m_dim u = 1%nat -> m = mmHxy \/ m = mmHx2y -> mtfc_call ROps RFun jvpn u m xs full = None.
Proof. exact c25_fail. Qed.
Print Assumptions C25_mixed_need_two_dimensions.
Theorem C25_low_dimension_refuted : forall jvpn (u : mtfc (T:=R)) m xs full,
  (m_dim u < needs m)%nat -> m = mmHy \/ m = mmHy2 \/ m = mmHz ->
  mtfc_call ROps RFun jvpn u m xs full = mtfc_call ROps RFun jvpn u mmH xs full.
Proof. exact c25_silent. Qed.
Print Assumptions C25_low_dimension_refuted.
(** the neurons 2x + y/2 - 1 and -x + 3y/2 at (3, 10) *)
Example C25_case : exists u, exReLU Cpp = Some u /\
  mtfc_call QOps QFun nojvpn u mmH [[3]; [10]]%Q false = Some (Mat 1 2 [[10; 12]])%Q /\
  mtfc_call QOps QFun nojvpn u mmHx [[3]; [10]]%Q false = Some (Mat 1 2 [[2; -1]])%Q /\
  mtfc_call QOps QFun nojvpn u mmHy [[3]; [10]]%Q false = Some (Mat 1 2 [[1#2; 3#2]])%Q /\
  mtfc_call QOps QFun nojvpn u mmHxy [[3]; [10]]%Q false = Some (Mat 1 2 [[0; 0]])%Q /\
  mtfc_call QOps QFun nojvpn u mmHz [[3]; [10]]%Q false = Some (Mat 1 2 [[10; 12]])%Q.
Proof. eexists. split; [vm_compute; reflexivity|]. repeat split; vm_compute; reflexivity. Qed.

(** ** C26, multivariate *)
Theorem C26_mtfc_named_functions : forall jvpn, jvpn_ok jvpn -> forall be f n nC es deg dim x0 xf w b,
  offeredm (MB f) -> (1 <= dim)%nat -> length n = dim -> length x0 = dim -> length xf = dim ->
  (Z.of_nat (product n) < 2147483648)%Z -> (forall k, (k < dim)%nat -> (2 <= nth k n 0)%nat) ->
  entries nC es -> length es = dim -> (forall e, In e es -> ~ singleton e /\ (count e <= Z.of_nat deg)%Z) ->
  exists u, mkm be (MB f) n nC deg dim x0 xf w b = Some u /\
  forall full, exists idx, NoDup idx /\ (forall v, In v idx <-> remains deg es full v) /\
    mtfc_num u full = length idx /\
    columns_are (fun x d => mtfc_H ROps RFun jvpn u (md x) d full) be f x0 xf (S deg) dim idx.
Proof. exact c26_accept. Qed.
Print Assumptions C26_mtfc_named_functions.
Theorem C26_mtfc_elm_removed : forall jvpn be f n nC l deg dim x0 xf w b, jvpn_ok jvpn ->
  (1 <= dim)%nat -> length n = dim -> length x0 = dim -> length xf = dim -> length w = (dim * S deg)%nat -> length b = S deg ->
  (forall i, (i < dim)%nat -> nth i x0 0 <> nth i xf 0) ->
  (Z.of_nat (product n) < 2147483648)%Z -> (forall k, (k < dim)%nat -> (2 <= nth k n 0)%nat) ->
  elm_names nC l -> valid_nC l (S deg) -> (length l <= deg)%nat ->
  exists u, mkm be (ME f) n nC deg dim x0 xf w b = Some u /\
  forall N x d, shaped x dim N -> canm be (ME f) dim d -> exists M Mc,
    mtfc_H ROps RFun jvpn u (md x) d true = Some M /\ mtfc_H ROps RFun jvpn u (md x) d false = Some Mc /\
    columns_removed (S deg) l M Mc /\ mc Mc = (S deg - length l)%nat.
Proof. exact c26_accept_elm. Qed.
Print Assumptions C26_mtfc_elm_removed.
Theorem C26_mtfc_rejected : forall be f n nC deg dim x0 xf w b,
  (exists z, nC = MInt z) \/
  (exists es, entries nC es /\ (length es <> dim \/ exists e, In e es /\ ~ singleton e /\ (Z.of_nat deg < count e)%Z)) \/
  (exists M, nC = MJax2 M /\ mr M <> dim) ->
  mkm be (MB f) n nC deg dim x0 xf w b = None.
Proof. exact c26_reject_product. Qed.
Print Assumptions C26_mtfc_rejected.
Theorem C26_mtfc_elm_rejected : forall be f n nC l deg dim x0 xf w b, elm_names nC l ->
  (deg < length l)%nat \/ (exists i, In i l /\ (i < 0)%Z) -> mkm be (ME f) n nC deg dim x0 xf w b = None.
Proof. exact c26_reject_elm. Qed.
Print Assumptions C26_mtfc_elm_rejected.
(** a list with one entry is read as a count *)
Theorem C26_mtfc_singleton_is_a_count : forall be f n es k a deg dim x0 xf w b, nth_error es k = Some (EList [a]) ->
  mkm be (MB f) n (MList es) deg dim x0 xf w b =
  mkm be (MB f) n (MList (firstn k es ++ EInt a :: skipn (S k) es)) deg dim x0 xf w b.
Proof. exact c26_singleton. Qed.
Print Assumptions C26_mtfc_singleton_is_a_count.
Theorem C26_mtfc_singleton_refuted : forall jvpn be, jvpn_ok jvpn ->
  exists u, mkm be (MB CP) [2%nat] (MList [EList [2%Z]]) 3 1 [0] [1] [] [] = Some u /\
  ~ exists idx, (forall v, In v idx <-> remains 3 [EList [2%Z]] false v) /\
     columns_are (fun x d => mtfc_H ROps RFun jvpn u (md x) d false) be CP [0] [1] 4 1 idx.
Proof. exact c26_singleton_wrong. Qed.
Print Assumptions C26_mtfc_singleton_refuted.
(** a list naming functions that do not exist is accepted *)
Theorem C26_mtfc_range_refuted : forall jvpn be f deg, jvpn_ok jvpn -> offeredm (MB f) -> (2 <= deg)%nat ->
  exists u, mkm be (MB f) [2%nat] (MList [EList [Z.of_nat deg + 1; -5]%Z]) deg 1 [0] [1] [] [] = Some u.
Proof. exact c26_range. Qed.
Print Assumptions C26_mtfc_range_refuted.
(** of the six functions of degree at most 2, (0,0) and (0,1) are named in both dimensions *)
Example C26_mtfc_case : remains 2 [EInt 1; EList [0; 1]%Z] false [0; 2]%nat /\ ~ remains 2 [EInt 1; EList [0; 1]%Z] false [0; 1]%nat /\
  exists u, exFS Cpp = Some u /\ mtfc_num u false = 4%nat /\ mtfc_num u true = 6%nat.
Proof.
  split; [|split].
  - repeat split; [cbn; lia|]. right. exists 1%nat, (EList [0; 1]%Z), 2%nat. repeat split. cbn. intros [H|[H|[]]]; lia.
  - intros (_ & _ & [H|(k & e & a & He & Ha & Hn)]); [discriminate|]. destruct k as [|[|k]]; cbn in *.
    + injection He as <-. injection Ha as <-. apply Hn. cbn. lia.
    + injection He as <-. injection Ha as <-. apply Hn. cbn. auto.
    + destruct k; discriminate.
  - eexists. split; [vm_compute; reflexivity|]. split; reflexivity.
Qed.

(** ** C28 *)
Theorem C28_jvp_sum_of_partials : forall jvpn, jvpn_ok jvpn -> forall be bs n nC deg dim x0 xf w b u,
  mkm be bs n nC deg dim x0 xf w b = Some u -> argsm bs nC deg dim x0 xf w b ->
  forall d full N x tans,
  canm be bs dim d -> (forall k, (k < dim)%nat -> canm be bs dim (plus_one d k)) -> shaped x dim N -> tangents dim N tans ->
  exists M out, mtfc_jvp ROps RFun jvpn u (md x) tans d full = Some (M, out) /\
    mtfc_H ROps RFun jvpn u (md x) d full = Some M /\ shaped out N (mtfc_num u full) /\
    forall j i, (j < N)%nat -> (i < mtfc_num u full)%nat -> exists v : nat -> R,
      (forall k, (k < dim)%nat -> exists Mk, mtfc_H ROps RFun jvpn u (md x) (plus_one d k) full = Some Mk /\ ment Mk j i = Some (v k)) /\
      ment out j i = Some (sumn dim (fun k => v k * tan_at tans k j)).
Proof. exact c28. Qed.
Print Assumptions C28_jvp_sum_of_partials.
Theorem C28_jvp_is_directional_derivative : forall jvpn, jvpn_ok jvpn -> forall be bs n nC deg dim x0 xf w b u,
  mkm be bs n nC deg dim x0 xf w b = Some u -> argsm bs nC deg dim x0 xf w b ->
  forall d full N x tans, smoothm bs ->
  canm be bs dim d -> (forall k, (k < dim)%nat -> canm be bs dim (plus_one d k)) -> shaped x dim N -> tangents dim N tans ->
  exists M out, mtfc_jvp ROps RFun jvpn u (md x) tans d full = Some (M, out) /\
  forall j i, (j < N)%nat -> (i < mtfc_num u full)%nat -> exists (phi : R -> R) l,
    (forall t, exists Mt, mtfc_H ROps RFun jvpn u (md (movedm dim N x tans t)) d full = Some Mt /\ ment Mt j i = Some (phi t)) /\
    is_derive phi 0 l /\ ment out j i = Some l.
Proof. exact c28_direction. Qed.
Print Assumptions C28_jvp_is_directional_derivative.
Example C28_case : exists u, exReLU Cpp = Some u /\
  mtfc_jvp QOps QFun nojvpn u [[3; 3]; [10; 10]]%Q [Some [1; 2]; Some [4; 0]]%Q [0; 0]%nat false
    = Some (Mat 2 2 [[10; 12]; [10; 12]], Mat 2 2 [[4; 5]; [4; -2]])%Q /\
  mtfc_jvp QOps QFun nojvpn u [[3]; [10]]%Q [None; Some [4]]%Q [0; 0]%nat false
    = Some (Mat 1 2 [[10; 12]], Mat 1 2 [[2; 6]])%Q /\
  mtfc_jvp QOps QFun nojvpn u [[3]; [10]]%Q [None; None] [0; 0]%nat false = Some (Mat 1 2 [[10; 12]], Mat 1 2 [[0; 0]])%Q.
Proof. eexists. split; [vm_compute; reflexivity|]. repeat split; vm_compute; reflexivity. Qed.

(** ** C59, multivariate *)
Theorem C59_mtfc_vmap_rows : forall jvpn, jvpn_ok jvpn -> forall be bs n nC deg dim x0 xf w b u,
  mkm be bs n nC deg dim x0 xf w b = Some u -> argsm bs nC deg dim x0 xf w b ->
  forall d full N x, canm be bs dim d -> shaped x dim N ->
  exists rows, mvmap_H ROps RFun jvpn u (md x) d full = Some rows /\ length rows = N /\
  forall j X, (j < N)%nat -> at_col x j dim X -> exists M1 r, mtfc_H ROps RFun jvpn u (md (one_point dim X)) d full = Some M1 /\
    shaped M1 1 (mtfc_num u full) /\ md M1 = [r] /\ nth_error rows j = Some r /\ mtfc_abstract u [] full = [length r].
Proof. exact c59m. Qed.
Print Assumptions C59_mtfc_vmap_rows.
Example C59_mtfc_case : exists u, exReLU Cpp = Some u /\
  mvmap_H QOps QFun nojvpn u [[3; 4]; [10; 10]]%Q [0; 0]%nat false = Some [[10; 12]; [12; 11]]%Q /\
  mtfc_H QOps QFun nojvpn u [[4]; [10]]%Q [0; 0]%nat false = Some (Mat 1 2 [[12; 11]])%Q.
Proof. eexists. split; [vm_compute; reflexivity|]. split; vm_compute; reflexivity. Qed.
