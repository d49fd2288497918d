(** Specification of the partial trace (C48). *)
From Coq Require Import Reals.
From Coquelicot Require Import Coquelicot.
From Verif Require Import LinAlg Base EntSpec.
Local Open Scope list_scope.
Local Open Scope nat_scope.

(** The trace over the second factor of an operator on a product of spaces of
    dimensions [d1] and [d2]: row and column [x * d2 + j] are the pair (x, j). *)
Definition trace_second (d2 : nat) (M : nat -> nat -> C) (r c : nat) : C := fsum (map (fun j => M (r * d2 + j) (c * d2 + j)) (seq 0 d2)).
