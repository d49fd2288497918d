(** Meaning of GHZ fidelities and of the two experiments that estimate them (C73). *)
From Coq Require Import Reals.
From Coquelicot Require Import Coquelicot.
From Verif Require Import LinAlg Base CountsModel QSem CtmpSpec StdGates AccSpec EntSpec.
Local Open Scope list_scope.
Local Open Scope nat_scope.

Section Form.
Context {I : Type} {HI : Eqb I}.
Variable idx : list I.
(** <u| rho |u> *)
Definition form (rho : I -> I -> C) (u : I -> C) : C :=
  fsum (map (fun x => fsum (map (fun y => fmul (fmul (Cconj (u x)) (rho x y)) (u y)) idx)) idx).
(** States: Hermitian and positive. *)
Record state (rho : I -> I -> C) : Prop := {
  st_herm : forall x y, In x idx -> In y idx -> rho x y = Cconj (rho y x);
  st_pos : forall u, (0 <= Re (form rho u))%R }.
(** (|x0> + e^(i theta) |x1>) / sqrt 2 *)
Definition cat (x0 x1 : I) (theta : R) : I -> C :=
  fun x => if eqb x x0 then RtoC (/ sqrt 2) else if eqb x x1 then fmul (RtoC (/ sqrt 2)) (expi theta) else f0.
(** [f] is the largest fidelity of [rho] with such a superposition. *)
Definition best_fidelity (x0 x1 : I) (rho : I -> I -> C) (f : R) : Prop :=
  (exists theta, Re (form rho (cat x0 x1 theta)) = f) /\ forall theta, (Re (form rho (cat x0 x1 theta)) <= f)%R.
End Form.

(** The state on [n] qubits; GHZ fidelity. *)
Definition qstate (n : nat) (rho : bits -> bits -> C) : Prop := state (cube n) rho.
Definition ghz_fidelity (n : nat) (rho : bits -> bits -> C) (f : R) : Prop := best_fidelity (cube n) (zeros n) (ones n) rho f.
Definition population (rho : bits -> bits -> C) (x : bits) : R := Re (rho x x).

(** Parity oscillation: every qubit is rotated by u2(phi, -phi), then all are
    measured; the signal is the mean parity. *)
Definition u2_entry (phi : R) (a b : bool) : C :=
  fmul (RtoC (/ sqrt 2)) (match a, b with false, false => f1 | false, true => fopp (expi (- phi)) | true, false => expi phi | true, true => f1 end).
Fixpoint u2_all (phi : R) (x a : bits) : C :=
  match x, a with v :: x', w :: a' => fmul (u2_entry phi v w) (u2_all phi x' a') | _, _ => f1 end.
Definition outcome_prob (n : nat) (rho : bits -> bits -> C) (phi : R) (x : bits) : R := Re (form (cube n) rho (fun a => Cconj (u2_all phi x a))).
Definition parity_signal (n : nat) (rho : bits -> bits -> C) (phi : R) : R :=
  fsum (HF:=Fld_R) (map (fun x => ((-1) ^ weight x * outcome_prob n rho phi x)%R) (cube n)).

(** Multiple quantum coherence: the state [rho] has the phase rotation u1(phi) and
    a not gate on every qubit; then the preparation is undone, and the probability of
    the ground state is that of finding [rho] again. *)
Definition flip (x : bits) : bits := map negb x.
Definition rotated (phi : R) (rho : bits -> bits -> C) : bits -> bits -> C :=
  fun x y => fmul (fmul (expi (INR (weight (flip x)) * phi)) (rho (flip x) (flip y))) (expi (- (INR (weight (flip y)) * phi))).
Definition mqc_signal (n : nat) (rho : bits -> bits -> C) (phi : R) : R :=
  Re (fsum (map (fun x => fsum (map (fun y => fmul (rotated phi rho x y) (rho y x)) (cube n))) (cube n))).

(** The signal at [N] equally spaced phases. *)
Definition sampled (N : nat) (signal : R -> R) : list R := map (fun j => signal (2 * PI * INR j / INR N)%R) (seq 0 N).

(** Pure states, trace one, and states that flipping every qubit leaves alone. *)
Definition pure {I} (v : I -> C) : I -> I -> C := fun x y => fmul (v x) (Cconj (v y)).
Definition ket (b x : bits) : C := if eqb x b then f1 else f0.
Definition normalised (n : nat) (rho : bits -> bits -> C) : Prop := fsum (map (fun x => rho x x) (cube n)) = RtoC 1.
Definition flip_invariant (n : nat) (rho : bits -> bits -> C) : Prop := forall x y, length x = n -> length y = n -> rho (flip x) (flip y) = rho x y.
(** Enough phases: no multiple of [N] among 2, 4, .., 2n. *)
Definition enough_phases (N n : nat) : Prop := n < N /\ forall w, 1 <= w <= n -> ~ Nat.divide N (2 * w).
(** The populations handed over. *)
Record populations (p : list (pystr * R)) (n : nat) (rho rho_m : bits -> bits -> C) : Prop := {
  pp_0 : dget p (str "P0") = Some (population rho (zeros n));
  pp_1 : dget p (str "P1") = Some (population rho (ones n));
  pp_0m : dget p (str "P0_m") = Some (population rho_m (zeros n));
  pp_1m : dget p (str "P1_m") = Some (population rho_m (ones n)) }.
