(** Specification vocabulary for repeated measurements: the probability of an event
    over all sequences of outcomes, independent of the model. *)
From Coq Require Import QArith QArith.Qcanon.
From Verif Require Import LinAlg Base CountsSpec ExpvalSpec.
Open Scope nat_scope.

(** Probabilities of the outcomes [0 .. d-1]. *)
Definition distribution (d : nat) (p : nat -> Qc) : Prop := (forall x, x < d -> (0 <= p x)%Qc) /\ sum_lt d p = 1%Qc.
(** All sequences of [N] outcomes. *)
Fixpoint sequences (d N : nat) : list (list nat) :=
  match N with 0 => [[]] | S N' => flat_map (fun y => map (cons y) (sequences d N')) (seq 0 d) end.
(** The probability of a sequence of independent outcomes. *)
Definition weight (q : nat -> Qc) (ys : list nat) : Qc := fprod (map q ys).
(** The expectation of a function of [N] independent outcomes. *)
Definition expect (q : nat -> Qc) (d N : nat) (f : list nat -> Qc) : Qc := fsum (map (fun ys => (weight q ys * f ys)%Qc) (sequences d N)).
(** The probability of an event. *)
Definition probability (q : nat -> Qc) (d N : nat) (e : list nat -> bool) : Qc := expect q d N (fun ys => if e ys then 1%Qc else 0%Qc).
(** Less than [delta] apart. *)
Definition within (delta a b : Qc) : bool := if Qclt_le_dec (abs_of (a - b)) delta then true else false.
(** [ys] are [N] outcomes of [n] bits. *)
Definition outcomes (n N : nat) (ys : list nat) : Prop := length ys = N /\ Forall (fun y => y < 2 ^ n) ys.
(** [c] counts the outcomes [ys]. *)
Definition counts_shots (n : nat) (clbits sel : option (list nat)) (c : outcome_counts) (ys : list nat) : Prop :=
  well_formed n c clbits sel /\ nonneg c /\ forall y, y < 2 ^ n -> hits c sel y = Z.of_nat (count_occ Nat.eq_dec ys y).
(** What a noisy readout makes of the probabilities [p]. *)
Definition noisy (d : nat) (a : nat -> nat -> Qc) (p : nat -> Qc) (y : nat) : Qc := sum_lt d (fun x => a y x * p x)%Qc.
(** The columns are distributions. *)
Definition stochastic (d : nat) (a : nat -> nat -> Qc) : Prop := forall x, x < d -> distribution d (fun y => a y x).
