(** Independent meaning of the error conversions, for property C27. *)
From Coq Require Import Reals.
From Verif Require Import Base RBErrModel.
Open Scope R_scope.

(** Powers of nonnegative numbers, [0^0 = 1]. *)
Definition rpow (b n : R) : R := if Req_EM_T b 0 then (if Req_EM_T n 0 then 1 else 0) else Rpower b n.

(** Probability that none of the errors [(epg, n)] occurs, every gate used [n]
    times on average and losing [c * epg] each time. *)
Fixpoint survive (c : R) (l : list (R * R)) : R :=
  match l with [] => 1 | (e, n) :: l' => rpow (1 - c * e) n * survive c l' end.
(** Depolarizing parameter of a two-qubit Clifford in terms of those of the
    single-qubit gates and of the two-qubit gate (arXiv:1712.06550): the average
    over the 15 nontrivial Paulis, 3 on the first qubit, 3 on the second and 9 on both. *)
Definition clifford_alpha (a b a2 : R) : R := (3 * a + 3 * b + 9 * (a * b)) / 15 * a2.
Definition error_of_alpha (d alpha : R) : R := (d - 1) / d * (1 - alpha).

(** Relaxation of a qubit for a time [t] in the Pauli basis I, X, Y, Z: its diagonal. *)
Definition relax (t T1 T2 : R) : list R := [1; exp (- t / T2); exp (- t / T2); exp (- t / T1)].
Definition rsum (l : list R) : R := fold_right Rplus 0 l.
(** Diagonal of the Pauli transfer matrix of several qubits. *)
Fixpoint relaxes (t : R) (Ts : list (R * R)) : list R :=
  match Ts with
  | [] => [1]
  | (T1, T2) :: Ts' => flat_map (fun x => map (fun y => x * y) (relaxes t Ts')) (relax t T1 T2)
  end.
(** One minus the average gate fidelity [(d F + 1) / (d + 1)], where the process
    fidelity F is the trace of the Pauli transfer matrix divided by d². *)
Definition avg_infidelity (d : R) (ptm_diagonal : list R) : R := 1 - (d * (rsum ptm_diagonal / (d * d)) + 1) / (d + 1).

(** Errors with the number of gates per Clifford. *)
Definition counts_of (row epgs : gates) : list (R * R) := map (fun p => (snd p, get0 row (fst p))) epgs.
(** Nonnegative depolarizing parameters and gate counts. *)
Definition physical (c : R) (l : list (R * R)) : Prop := Forall (fun p => 0 <= 1 - c * fst p /\ 0 <= snd p) l.
(** Survival on qubit [i] of the pair; 1 if there are no errors given for it. *)
Definition qubit_alpha (gpc : dict nat gates) (pair : list nat) (epgs : list gates) (i : nat) : R :=
  match nth_error pair i, nth_error epgs i with
  | Some q, Some e => match dget gpc q with Some row => survive 2 (counts_of row e) | None => 1 end
  | _, _ => 1
  end.
(** The qubits for which errors are given are in the dictionary of gate counts. *)
Definition known (gpc : dict nat gates) (pair : list nat) (epgs : list gates) : Prop :=
  forall i q e, nth_error pair i = Some q -> nth_error epgs i = Some e -> exists row, dget gpc q = Some row /\ physical 2 (counts_of row e).
(** No gate is fully depolarizing. *)
Definition positive (gpc : dict nat gates) (pair : list nat) (epgs : list gates) : Prop :=
  forall i q e row, nth_error pair i = Some q -> nth_error epgs i = Some e -> dget gpc q = Some row -> Forall (fun p => 0 < 1 - 2 * fst p) (counts_of row e).
(** Gate errors between 0 and [m]. *)
Definition errors_within (m : R) (epgs : gates) : Prop := Forall (fun p => 0 <= snd p <= m) epgs.
Definition counts_ok (row : gates) : Prop := forall g, 0 <= get0 row g.

(** What becomes of a two-qubit gate error [e] after conversion to an error per
    Clifford with [n] gates and back, and of an error per Clifford [x] after
    conversion to single-qubit gate errors and back. *)
Definition shrink (n e : R) : R := 3 / 4 * (1 - rpow (1 - 4 / 3 * e) n) / n.
Definition back_1q (n2 n3 x : R) : R := 1 - rpow (1 - x / (n2 + 2 * n3)) n2 * rpow (1 - 2 * x / (n2 + 2 * n3)) n3.

(** Times T2, by default twice T1. *)
Definition T2_of (T1 : list R) (T2 : option (list R)) : list R := match T2 with Some l => l | None => map (fun x => 2 * x) T1 end.
Definition times_ok (Ts : list (R * R)) : Prop := Forall (fun p => 0 < fst p /\ 0 < snd p) Ts.
Definition slower (p p' : (R * R)) : Prop := fst p <= fst p' /\ snd p <= snd p'.
Definition u_epgs (e1 e2 e3 : R) : gates := [(str "u1", e1); (str "u2", e2); (str "u3", e3)].
