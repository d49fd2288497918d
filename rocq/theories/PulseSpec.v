(** Independent meaning of pulse schedules, for property C70. *)
From Coq Require Import QArith Reals Lra Permutation Sorted.
From Coquelicot Require Import Coquelicot.
From Verif Require Import Base LinAlg PyStr EntSpec PulseModel.
Local Open Scope list_scope.
Local Open Scope nat_scope.

(** Matrices of one qubit. *)
Definition mat2 : Type := bool -> bool -> C.
Definition mul2 (a b : mat2) : mat2 := fun i j => Cplus (Cmult (a i false) (b false j)) (Cmult (a i true) (b true j)).
Definition id2 : mat2 := fun i j => if Bool.eqb i j then RtoC 1 else RtoC 0.
(** The rotation about Z. *)
Definition rz2 (t : R) : mat2 := fun i j => if Bool.eqb i j then (if i then expi (t / 2) else expi (- (t / 2))) else RtoC 0.
(** A quarter turn about X. *)
Definition x90 : mat2 := fun i j => if Bool.eqb i j then RtoC (/ sqrt 2) else Cmult (RtoC (/ sqrt 2)) (Copp Ci).
(** Qiskit's U3 and U2. *)
Definition u3_mat (theta phi lam : R) : mat2 := fun i j =>
  match i, j with
  | false, false => RtoC (cos (theta / 2))
  | false, true => Copp (Cmult (expi lam) (RtoC (sin (theta / 2))))
  | true, false => Cmult (expi phi) (RtoC (sin (theta / 2)))
  | true, true => Cmult (expi (phi + lam)) (RtoC (cos (theta / 2)))
  end.
Definition u2_mat (phi lam : R) : mat2 := u3_mat (PI / 2) phi lam.
Definition same_up_to_phase (a b : mat2) : Prop := exists g, forall i j, a i j = Cmult (expi g) (b i j).

(** What happens to the qubit driven on the channel [ch].  A pulse played when the
    frame of the channel has the phase [t] turns about an axis turned by [t]; at the
    end the qubit is described in the frame of the channel. *)
Section Drive.
Context (turn : pulse -> mat2) (ch : chan).
Definition drive_step (fu : R * mat2) (i : pinstr) : R * mat2 :=
  match i with
  | Play p c => if eqb c ch then (fst fu, mul2 (mul2 (rz2 (fst fu)) (mul2 (turn p) (rz2 (- fst fu)))) (snd fu)) else fu
  | ShiftPhase t c => if eqb c ch then ((fst fu + t)%R, snd fu) else fu
  | Acquire _ _ => fu
  end.
Definition drive_gate (l : timed) : mat2 :=
  let fu := fold_left drive_step (map snd l) (0%R, id2) in mul2 (rz2 (- fst fu)) (snd fu).
End Drive.
(** The instructions of a schedule in the order in which they happen: in the order
    of time, shifts of the phase before pulses that begin at the same time. *)
Definition is_shift (i : pinstr) : bool := match i with ShiftPhase _ _ => true | _ => false end.
Definition rank (ti : nat * pinstr) : nat := 2 * fst ti + (if is_shift (snd ti) then 0 else 1).
Definition happens (l l' : timed) : Prop := Permutation l l' /\ StronglySorted (fun a b => rank a <= rank b) l'.
(** The shifts of the phase of a channel. *)
Definition shifts_of (l : timed) (ch : chan) : list (nat * R) :=
  flat_map (fun ti => match snd ti with ShiftPhase t c => if eqb c ch then [(fst ti, t)] else [] | _ => [] end) l.
(** The pulses of a channel and their times. *)
Definition pulses_of (l : timed) (ch : chan) : list (nat * pulse) :=
  flat_map (fun ti => match snd ti with Play p c => if eqb c ch then [(fst ti, p)] else [] | _ => [] end) l.
(** The channels on which the phase is shifted by [phase] at time [t]. *)
Definition shifted (l : timed) (t : nat) (phase : R) (ch : chan) : Prop := In (t, ShiftPhase phase ch) l.
(** The channels in the frame of the channel [drive], as the schedule [l] shows it:
    those shifted together with it at some time, or only itself if it is not shifted. *)
Definition in_frame (l : timed) (drive : chan) (g : list chan) : Prop :=
  (exists t phase, shifted l t phase drive /\ forall ch, In ch g <-> shifted l t phase ch) \/ ((forall t phase, ~ shifted l t phase drive) /\ g = [drive]).
(** No channel is shifted twice at the same time by the same phase. *)
Definition shifts_once (l : timed) : Prop := forall ch, NoDup (shifts_of l ch).
(** The angle by which pulses turn the qubit: proportional to their amplitudes,
    with [rate] full turns at amplitude 1. *)
Definition turned (rate : R) (l : list (nat * pulse)) : R := fold_right (fun tp a => (2 * PI * rate * p_amp (snd tp) + a)%R) 0%R l.
(** The instructions on other channels than those of [chs]. *)
Definition others (chs : list chan) (l : timed) : timed := filter (fun ti => negb (existsb (fun ch => mem ch chs) (instr_channels (snd ti)))) l.
