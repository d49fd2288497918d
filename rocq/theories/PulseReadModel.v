(** Model of [get_single_q_pulse] and [_fit_drag_func],
    qiskit/ignis/characterization/calibrations/ibmq_utils.py:27-94.

    Simplifications.  The samples of a pulse, [pulse_lib.drag] (its samples) and
    scipy's [least_squares] are parameters.  The checks of [pulse_lib.drag] on its
    arguments are left out, and so is the check of the names of the parameters by
    [inst_map.get].  The dictionary of a qubit is a [pulse] without a label, which
    is what [update_u_gates] makes of it.  Numbers are exact. *)
From Coq Require Import Reals.
From Coquelicot Require Import Coquelicot.
From Verif Require Import LinAlg Base PyStr EntSpec PulseModel GuessModel.
Local Open Scope string_scope. Local Open Scope list_scope. Local Open Scope nat_scope.

Section Read.
Context (samples : pulse -> list C) (drag : nat -> R -> R -> R -> list C).
(** amplitude, sigma and beta *)
Definition params : Type := R * R * R.
Context (least_squares : (params -> list R) -> params -> params).

(** 74-75, 46: real parts, then imaginary parts. *)
Definition flat (l : list C) : list R := map Re l ++ map Im l.
(** 27-46 [_fit_drag_func]; a drag pulse has [duration] samples, so the arrays have
    the same length. *)
Definition fit_drag_func (duration : nat) (x : params) (exp_samples : list R) : list R :=
  let '(amp, sigma, beta) := x in
  let fit_pulse := map (fun z => Cmult z (expi (- (PI / 2)))) (drag duration amp sigma beta) in
  map (fun ab => (fst ab - snd ab)%R) (combine (flat fit_pulse) exp_samples).

(** 68-77: the first [Play] of the schedule, in the order of [Schedule.instructions]. *)
Fixpoint first_play (l : timed) : option pulse :=
  match l with [] => None | (_, Play p _) :: _ => Some p | _ :: l' => first_play l' end.
(** The variables [pulse_dur], [pulse_max] and [pulse_samples], which outlive the
    turn of the loop in which they were set. *)
Definition found : Type := nat * R * list R.
Definition found_of (p : pulse) : result found :=
  do mx <- np_max (map Cmod (samples p));
  Ok (length (samples p), mx, flat (samples p)).
(** 63-92: one turn of the loop over the qubits.  The UnboundLocalError of line 83,
    when no pulse was found yet, is [RuntimeError] here; the map without 'u2' raises
    a PulseError, which is a [QiskitError]. *)
Definition read_qubit (m : instmap) (st : option found * list pulse) (q : nat) : result (option found * list pulse) :=
  match dget m (str "u2", q) with
  | None => Err QiskitError
  | Some e =>
      do cur <- match first_play (instructions (e_sched e (fun _ => 1%R))) with
                | Some p => do f <- found_of p; Ok (Some f)
                | None => Ok (fst st)
                end;
      match cur with
      | None => Err RuntimeError
      | Some (dur, mx, ss) =>
          let '(amp, sigma, beta) := least_squares (fun x => fit_drag_func dur x ss) (mx, (INR dur / 4)%R, (mx / 5)%R) in
          Ok (cur, snd st ++ [{| p_duration := dur; p_amp := amp; p_sigma := sigma; p_beta := Some beta; p_label := [] |}])
      end
  end.
Definition get_single_q_pulse (m : instmap) (qs : list nat) : result (list pulse) :=
  do st <- foldM (read_qubit m) qs (None, []);
  Ok (snd st).
End Read.
