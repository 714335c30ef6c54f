(** The two carriers the model is used at: the reals (theorems) and the
    rationals (computed examples). *)
From Coq Require Import Reals QArith Arith Bool.
From Verif Require Import Base.

Definition ROps : Ops R := mkOps 0%R 1%R Rplus Rminus Rmult Rdiv Ropp INR.
Definition RFun : Fun R :=
  mkFun sin cos exp tanh PI (fun x => if Rlt_dec 0 x then true else false).

Definition QOps : Ops Q :=
  mkOps 0%Q 1%Q (fun a b => Qred (a + b)) (fun a b => Qred (a - b)) (fun a b => Qred (a * b))
        (fun a b => Qred (a / b)) (fun a => Qred (- a)) (fun n => inject_Z (Z.of_nat n)).
(** Only the ordering is meaningful over Q; the elementary functions are not used there. *)
Definition QFun : Fun Q :=
  mkFun (fun x => x) (fun x => x) (fun x => x) (fun x => x) 3%Q
        (fun x => negb (Qle_bool x 0)).

Lemma opow_R x d : opow ROps x d = (x ^ d)%R.
Proof. induction d as [|d IH]; cbn; [reflexivity|]. rewrite IH. reflexivity. Qed.
