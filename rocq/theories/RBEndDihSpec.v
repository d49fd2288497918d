(** The complex matrices of the gates of GateMat: w = exp(i pi/4) is (1 + i)/sqrt 2.
    For property C79. *)
From Coq Require Import QArith Qcanon Qreals Reals.
From Coquelicot Require Import Coquelicot.
From Verif Require Import LinAlg Base PyStr QSem Cyc GateMat DihedralModel RBSeqModel RBSeqSpec EntSpec RBEstSpec.
Local Open Scope list_scope.
Local Open Scope nat_scope.

Definition real (q : Qc) : R := Q2R (this q).
(** a + b w + c w^2 + d w^3. *)
Definition w8 : C := (/ sqrt 2, / sqrt 2)%R.
Definition embed (x : cyc) : C :=
  (RtoC (real (ca x)) + RtoC (real (cb x)) * w8 + RtoC (real (cc x)) * (w8 * w8) + RtoC (real (cd x)) * (w8 * w8 * w8))%C.
Definition cgate (name : pystr) (params : list Q) (a b : bits) : C := embed (gate_mat name params a b).
