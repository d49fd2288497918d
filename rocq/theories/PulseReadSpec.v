(** What it means to read the pulse of a gate, for property C76. *)
From Coq Require Import Reals.
From Coquelicot Require Import Coquelicot.
From Verif Require Import LinAlg Base PyStr EntSpec PulseModel PulseReadModel.
Local Open Scope string_scope. Local Open Scope list_scope. Local Open Scope nat_scope.

(** [p] is the only pulse, or the first one, of the gate u2 of the qubit [q]:
    nothing is played before it. *)
Definition plays_first (m : instmap) (q : nat) (p : pulse) : Prop :=
  exists e t ch, dget m (str "u2", q) = Some e /\ let l := e_sched e (fun _ => 1%R) in In (t, Play p ch) l /\
  forall t' p' ch', In (t', Play p' ch') l -> t' < t \/ (t' = t /\ p_duration p' <= p_duration p) -> p' = p.
Definition plays_nothing (m : instmap) (q : nat) : Prop :=
  exists e, dget m (str "u2", q) = Some e /\ forall t p ch, ~ In (t, Play p ch) (e_sched e (fun _ => 1%R)).
(** Samples turned by a phase. *)
Definition rotated (t : R) (l : list C) : list C := map (Cmult (expi t)) l.
(** The squared distance of two lists of samples. *)
Definition sq (z : C) : R := (fst z * fst z + snd z * snd z)%R.
Fixpoint dist2 (l l' : list C) : R :=
  match l, l' with a :: l, b :: l' => (sq (Cminus a b) + dist2 l l')%R | _, _ => 0%R end.
(** The squared length of a list of numbers; [x] minimises it. *)
Definition norm2 (l : list R) : R := fold_right (fun a s => a * a + s)%R 0%R l.
Definition minimal {X} (f : X -> list R) (x : X) : Prop := forall x', (norm2 (f x) <= norm2 (f x'))%R.
(** DRAG pulses: an even envelope times the amplitude, and in quadrature an odd one
    times beta. *)
Definition drag_shaped (drag : nat -> R -> R -> R -> list C) (g h : nat -> R -> nat -> R) : Prop :=
  forall d s, (forall a b, drag d a s b = map (fun k => (a * g d s k, a * b * h d s k)%R) (seq 0 d)) /\
    forall k, k < d -> g d s (d - 1 - k) = g d s k /\ h d s (d - 1 - k) = (- h d s k)%R.
(** What leaves the generator: the samples, turned by the phase of the channel when
    they are played, and the phase of the channel at the end. *)
Definition emit (samples : pulse -> list C) (ch : chan) (st : R * list (list C)) (i : pinstr) : R * list (list C) :=
  match i with
  | ShiftPhase t c => if eqb c ch then ((fst st + t)%R, snd st) else st
  | Play p c => if eqb c ch then (fst st, snd st ++ [rotated (fst st) (samples p)]) else st
  | Acquire _ _ => st
  end.
Definition emitted (samples : pulse -> list C) (ch : chan) (l : timed) : R * list (list C) := fold_left (emit samples ch) (map snd l) (0%R, []).
(** The gate u2 as -P1, a pulse, -P0. *)
Definition native_u2 (p : pulse) (ch : chan) : pentry :=
  {| e_params := [str "P0"; str "P1"]; e_sched := fun v => [(0, ShiftPhase (- v (str "P1")) ch); (0, Play p ch); (p_duration p, ShiftPhase (- v (str "P0")) ch)] |}.
(** What is given to the optimizer for the pulse [p]: the misfit, and a starting
    point made of the greatest modulus [mx] of the samples. *)
Definition problem (samples : pulse -> list C) (drag : nat -> R -> R -> R -> list C) (p : pulse) : params -> list R := fun x => fit_drag_func drag (length (samples p)) x (flat (samples p)).
Definition start (samples : pulse -> list C) (p : pulse) (mx : R) : params := (mx, (INR (length (samples p)) / 4)%R, (mx / 5)%R).
Definition peak_of (samples : pulse -> list C) (p : pulse) (mx : R) : Prop := exists z, In z (samples p) /\ mx = Cmod z /\ forall z', In z' (samples p) -> (Cmod z' <= mx)%R.
(** The optimizer finds a minimum of the problem of [p]. *)
Definition solves samples drag (lsq : (params -> list R) -> params -> params) (p : pulse) : Prop :=
  forall mx, peak_of samples p mx -> minimal (problem samples drag p) (lsq (problem samples drag p) (start samples p mx)).
(** The optimizer does not end worse than it began. *)
Definition improves samples drag (lsq : (params -> list R) -> params -> params) (p : pulse) : Prop :=
  forall mx, peak_of samples p mx -> (norm2 (problem samples drag p (lsq (problem samples drag p) (start samples p mx))) <= norm2 (problem samples drag p (start samples p mx)))%R.
(** The drag pulse with the parameters read, and the distance of a drag pulse, turned
    to Y, from the samples of [p]. *)
Definition pulse_of (drag : nat -> R -> R -> R -> list C) (r : pulse) : list C := drag (p_duration r) (p_amp r) (p_sigma r) (match p_beta r with Some b => b | None => 0%R end).
Definition off_by (samples : pulse -> list C) (p : pulse) (l : list C) : R := dist2 (rotated (- (PI / 2)) l) (samples p).
