(** Model of [CNOTDihedral.to_operator] and [to_matrix], dihedral.py:597-603: the
    matrix of the circuit of the element.

    Terra's [Operator] is the product of the matrices of the gates; the numbers are
    exact, in the field of the eighth roots of unity (module Cyc).  In an index the
    bit of qubit [q] has the weight [2 ^ q]. *)
From Coq Require Import QArith.
From Verif Require Import Base LinAlg QSem Cyc GateMat DihedralModel RBSeqSpec.
Open Scope nat_scope.

(** The bits of an index. *)
Definition index_bits (n i : nat) : bits := map (Nat.testbit i) (seq 0 n).
(** [Operator(circuit).data] (Terra): column [j] is the state that the circuit makes of
    the basis state [j]. *)
Definition operator (n : nat) (c : list ginstr) : nat -> nat -> cyc :=
  fun i j => run (map (op_of gate_mat) c) (fun b => if eqb b (index_bits n j) then cy1 else cy0) (index_bits n i).
(** [to_instruction], [to_operator] and [to_matrix], dihedral.py:569-603.  The number
    of the entries is [2 ^ n] by [2 ^ n]. *)
Definition to_matrix (det_odd : list (list bool) -> bool) (e : cdi) : result (nat -> nat -> cyc) :=
  do c <- decompose det_odd e; Ok (operator (dn e) c).
