(** Specifications for the rescaling to a positive matrix (C47). *)
From Coq Require Import Reals Lra.
From Coquelicot Require Import Coquelicot.
From Verif Require Import LinAlg Base CtmpSpec EntSpec.
Local Open Scope list_scope.
Local Open Scope nat_scope.

(** The quadratic form of the matrix is a non-negative real for every vector. *)
Definition psd (dim : nat) (m : nat -> nat -> C) : Prop :=
  forall u : nat -> C, exists r : R, (0 <= r)%R /\ fsum (map (fun a => fsum (map (fun b => fmul (fmul (Cconj (u a)) (m a b)) (u b)) (seq 0 dim))) (seq 0 dim)) = RtoC r.
(** Sum of the first [dim] numbers. *)
Definition total (dim : nat) (v : nat -> R) : R := fsum (HF:=Fld_R) (map v (seq 0 dim)).
(** Squared Euclidean distance of two lists of [dim] numbers. *)
Definition dist2 (dim : nat) (u v : nat -> R) : R := total dim (fun k => (u k - v k) * (u k - v k))%R.
(** Squared Frobenius distance of two matrices. *)
Definition frob2 (dim : nat) (A B : nat -> nat -> C) : R := total dim (fun a => total dim (fun b => sqmod (fsub (A a b) (B a b)))).
Definition ctrace (dim : nat) (A : nat -> nat -> C) : C := fsum (map (fun i => A i i) (seq 0 dim)).
(** Ascending order. *)
Definition ascending (dim : nat) (v : nat -> R) : Prop := forall i j, i <= j -> j < dim -> (v i <= v j)%R.
