(** Matrices of [2 ^ n] rows and columns over the eighth roots of unity. *)
From Coq Require Import ZArith.
From Verif Require Import Base LinAlg Cyc.
Open Scope nat_scope.

Definition matrix := nat -> nat -> cyc.
Definition mmul (n : nat) (A B : matrix) : matrix := fun i j => fsum (map (fun k => cymul (A i k) (B k j)) (seq 0 (2 ^ n))).
Definition mid : matrix := fun i j => if i =? j then cy1 else cy0.
Definition mtr (A : matrix) : matrix := fun i j => A j i.
Definition mconj (A : matrix) : matrix := fun i j => cconj (A i j).
(** The Kronecker product, the second factor having [2 ^ m] rows: [np.kron]. *)
Definition kron (m : nat) (A B : matrix) : matrix :=
  fun i j => cymul (A (i / 2 ^ m) (j / 2 ^ m)) (B (i mod 2 ^ m) (j mod 2 ^ m)).
Definition meq (n : nat) (A B : matrix) : Prop := forall i j, i < 2 ^ n -> j < 2 ^ n -> A i j = B i j.
(** Equal up to a power of [exp(i pi / 4)]. *)
Definition up_to_phase (n : nat) (A B : matrix) : Prop := exists k, meq n A (fun i j => cymul (omega k) (B i j)).
