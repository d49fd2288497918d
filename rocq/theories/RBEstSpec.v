(** Independent meaning of decays, least-squares fits and error propagation, and of
    sequences of depolarising gates, for property C71. *)
From Coq Require Import QArith Qreals Reals Lra.
From Coquelicot Require Import Coquelicot.
From Verif Require Import LinAlg Base PyStr RBFitModel CtmpSpec EntSpec GstOptSpec IQSpec.
Local Open Scope list_scope.
Local Open Scope nat_scope.

(** ** Data and fits *)
(** The averaged data of pattern [i] are [a alpha^m + b] at the lengths [ms]. *)
Definition decay (f : rbfitter) (i : nat) (ms : list nat) (a alpha b : R) : Prop :=
  exists rows ys, nth_error (f_raw f) i = Some rows /\ length (hd [] rows) = length ms /\ nth_error (f_mean f) i = Some ys /\
  nth_error (f_lengths f) i = Some (map (fun m => inject_Z (Z.of_nat m)) ms) /\ map Q2R ys = map (fun m => a * alpha ^ m + b)%R ms.
(** Three different lengths, the first two of them not the same. *)
Definition enough (ms : list nat) : Prop :=
  nth 0 ms 0 <> nth 1 ms 0 /\ exists m1 m2 m3, m1 < m2 < m3 /\ In m1 ms /\ In m2 ms /\ In m3 ms.
Definition size (qubits : list nat) : R := INR (2 ^ length qubits).

(** A least-squares fit within bounds; without error bars all points count the same. *)
Definition fitter := (R -> list R -> R) -> list R -> list R -> option (list R) -> list R -> list R * list R -> result (list R * list R).
Definition unit_cube : list R * list R := ([0; 0; 0], [1; 1; 1])%R.
Definition least (cf : fitter) (g : R -> list R -> R) (xs ys : list R) (sigma : option (list R)) (p0 : list R) : Prop :=
  let es := match sigma with Some s => s | None => map (fun _ => 1%R) xs end in
  exists ps var, cf g xs ys sigma p0 unit_cube = Ok (ps, var) /\ length var = 3 /\ in_bounds unit_cube ps /\
  forall ps', in_bounds unit_cube ps' -> (misfit g xs ys es ps <= misfit g xs ys es ps')%R.
(** The exponential curve, at whole lengths. *)
Definition is_curve (g : R -> list R -> R) : Prop := forall (m : nat) a alpha b, (0 <= alpha)%R -> g (INR m) [a; alpha; b] = (a * alpha ^ m + b)%R.
(** [cf] is a least-squares fit of the data of pattern [i] to the curve, for error bars
    that are not zero. *)
Definition fits (cf : fitter) (f : rbfitter) (i : nat) : Prop :=
  forall g sigma p0 lens ys, is_curve g -> nth_error (f_lengths f) i = Some lens -> nth_error (f_mean f) i = Some ys ->
  match sigma with Some s => length s = length lens /\ Forall (fun x => x <> 0%R) s | None => True end ->
  in_bounds unit_cube p0 -> least cf g (map Q2R lens) (map Q2R ys) sigma p0.

(** Every pattern has exact data that decay to [1/2^n], and [cf] fits them. *)
Definition pattern (f : rbfitter) (i : nat) : list nat := nth i (f_pattern f) [].
Definition exact_fits (cf : fitter) (f : rbfitter) (ms : nat -> list nat) (a x : nat -> R) : Prop :=
  forall i, i < length (f_pattern f) -> decay f i (ms i) (a i) (x i) (/ size (pattern f i)) /\ enough (ms i) /\ (0 < a i <= 1)%R /\ (0 < x i < 1)%R /\ fits cf f i.

(** ** Error propagation *)
(** [e] is the error of [h x y] when [x] and [y] have independent errors [ex], [ey]. *)
Definition propagated (h : R -> R -> R) (x y ex ey e : R) : Prop :=
  exists hx hy, is_derive (fun t => h t y) x hx /\ is_derive (fun t => h x t) y hy /\ e = sqrt ((hx * ex) ^ 2 + (hy * ey) ^ 2).
Definition propagated1 (h : R -> R) (x ex e : R) : Prop := exists hx, is_derive h x hx /\ e = Rabs (hx * ex).

(** ** Depolarising gates *)
Definition op := nat -> nat -> C.
Definition trace (d : nat) (A : op) : C := csumn d (fun i => A i i).
Definition identity : op := fun i j => if i =? j then f1 else f0.
Definition product (d : nat) (A B : op) : op := fun i j => csumn d (fun a => fmul (A i a) (B a j)).
Definition dagger (A : op) : op := fun i j => Cconj (A j i).
Definition same (d : nat) (A B : op) : Prop := forall i j, i < d -> j < d -> A i j = B i j.
Definition unitary (d : nat) (U : op) : Prop := same d (product d (dagger U) U) identity /\ same d (product d U (dagger U)) identity.
Definition conjugate (d : nat) (U rho : op) : op := product d (product d U rho) (dagger U).
(** With probability [1 - p] the state is replaced by the maximally mixed one. *)
Definition depolarise (d : nat) (p : R) (rho : op) : op :=
  fun i j => fadd (fmul (RtoC p) (rho i j)) (fmul (fmul (RtoC ((1 - p) / INR d)) (trace d rho)) (identity i j)).
(** Gates one after another, each followed by its noise, and without noise. *)
Definition noisy (d : nat) (ops : list (op * R)) (rho : op) : op :=
  fold_left (fun r up => depolarise d (snd up) (conjugate d (fst up) r)) ops rho.
Definition ideal (d : nat) (ops : list (op * R)) : op := fold_left (fun V up => product d (fst up) V) ops identity.
Definition is_phase (d : nat) (V : op) : Prop := exists w, fmul w (Cconj w) = f1 /\ same d V (fun i j => fmul w (identity i j)).
(** A sequence that does nothing when there is no noise. *)
Definition closes (d : nat) (ops : list (op * R)) : Prop := (forall up, In up ops -> unitary d (fst up)) /\ is_phase d (ideal d ops).
Definition ground : op := fun i j => if (i =? 0) && (j =? 0) then f1 else f0.
Definition purity (d : nat) (rho : op) : C := tr2 d rho rho.
Definition pure (psi : nat -> C) : op := fun i j => fmul (psi i) (Cconj (psi j)).
Definition normalised (d : nat) (psi : nat -> C) : Prop := csumn d (fun i => fmul (Cconj (psi i)) (psi i)) = f1.
(** How much a channel changes a pure state. *)
Definition infidelity (d : nat) (channel : op -> op) (psi : nat -> C) : C :=
  Cminus f1 (csumn d (fun i => csumn d (fun j => fmul (fmul (Cconj (psi i)) (channel (pure psi) i j)) (psi j)))).
(** [m] steps and an inverting gate: a step is a gate with noise [p], or such a gate
    followed by one with noise [pg]. *)
Definition strengths (ops : list (op * R)) : list R := map snd ops.
Definition standard (m : nat) (p : R) : list R := repeat p (S m).
Definition interleaving (m : nat) (p pg : R) : list R := concat (repeat [p; pg] m) ++ [p].
(** The data of pattern [i] are averages over seeds of what is measured at the end of
    the sequences: the probability of 0, or the purity. *)
Definition prob0 (d : nat) (ops : list (op * R)) : C := noisy d ops ground 0 0.
Definition final_purity (d : nat) (ops : list (op * R)) : C := purity d (noisy d ops ground).
Definition benchmarked (f : rbfitter) (i : nat) (ms : list nat) (d : nat) (measured : list (op * R) -> C) (noise : nat -> list R) : Prop :=
  exists rows ys, nth_error (f_raw f) i = Some rows /\ length (hd [] rows) = length ms /\ nth_error (f_mean f) i = Some ys /\
  nth_error (f_lengths f) i = Some (map (fun m => inject_Z (Z.of_nat m)) ms) /\ length ys = length ms /\
  forall k, k < length ms -> exists seqs, seqs <> [] /\
    (forall ops, In ops seqs -> closes d ops /\ strengths ops = noise (nth k ms 0)) /\
    RtoC (Q2R (nth k ys 0%Q) * INR (length seqs)) = fsum (map measured seqs).

(** ** Pauli channels *)
(** Strings of I, X, Y, Z (0, 1, 2, 3). *)
Fixpoint strings (n : nat) : list (list nat) :=
  match n with 0 => [[]] | S n' => flat_map (fun s => map (fun p => p :: s) [0; 1; 2; 3]) (strings n') end.
(** The factors by which Pauli operators shrink: [z] for products of I and Z, [r] for
    all others. *)
Definition shrink (z r : R) (s : list nat) : R :=
  if forallb (fun p => p =? 0) s then 1%R else if forallb (fun p => (p =? 0) || (p =? 3)) s then z else r.
(** The average infidelity of a Pauli channel on [n] qubits with these factors. *)
Definition pauli_infidelity (n : nat) (factor : list nat -> R) : R :=
  (1 - (fold_right Rplus 0 (map factor (strings n)) / INR (2 ^ n) + 1) / (INR (2 ^ n) + 1))%R.
