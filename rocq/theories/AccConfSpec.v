(** The confidence of accreditation (C84): independent runs, each accepted with the same
    probability. *)
From Coq Require Import QArith QArith.Qcanon.
From Verif Require Import LinAlg Base ShotsSpec.
Open Scope nat_scope.

(** A run is accepted, outcome 1, with probability [p]; otherwise its outcome is 0. *)
Definition coin (p : Qc) (y : nat) : Qc := if y =? 1 then p else (1 - p)%Qc.
(** How many of the runs are accepted. *)
Definition acceptances (ys : list nat) : nat := count_occ Nat.eq_dec ys 1.
(** The part of the [N] runs that is accepted, less [theta], does not exceed the probability. *)
Definition covers (theta : Q) (p : Qc) (N : nat) (ys : list nat) : bool :=
  Qle_bool (inject_Z (Z.of_nat (acceptances ys)) / inject_Z (Z.of_nat N) - theta) p.
