(** Model of the pulse schedules of
    qiskit/ignis/characterization/calibrations/pulse_schedules.py and of
    [update_u_gates] and [_find_channel_groups] of calibrations/ibmq_utils.py.

    Simplifications.  A pulse is the list of its parameters; the samples, and the
    checks of qiskit.pulse on them, are not modelled.  Numbers are exact and
    durations are natural numbers.  A schedule is a list of timed instructions in
    the order of insertion; that insertions do not overlap (PulseError) is not
    checked.  The measurement schedule is a parameter.  The deep copy of the
    instruction map does nothing here.  The order of a Python set of channel groups
    is a parameter.  [get_single_q_pulse] is in PulseReadModel.v. *)
From Coq Require Import Reals.
From Verif Require Import Base PyStr.
Local Open Scope string_scope.
Local Open Scope list_scope.
Local Open Scope nat_scope.

Definition chan : Type := pystr * nat.
(** A drag pulse, or a gaussian one, whose [beta] is [None]. *)
Record pulse := { p_duration : nat; p_amp : R; p_sigma : R; p_beta : option R; p_label : pystr }.
Inductive pinstr :=
| Play (p : pulse) (ch : chan)
| ShiftPhase (phase : R) (ch : chan)
| Acquire (duration : nat) (chs : list chan).
Definition instr_duration (i : pinstr) : nat := match i with Play p _ => p_duration p | ShiftPhase _ _ => 0 | Acquire d _ => d end.
Definition instr_channels (i : pinstr) : list chan := match i with Play _ ch => [ch] | ShiftPhase _ ch => [ch] | Acquire _ chs => chs end.
Definition timed : Type := list (nat * pinstr).
Record sched := { s_name : pystr; s_ins : timed }.

(** The end of the last instruction on some of the channels, [Schedule.ch_stop_time],
    and of all, [Schedule.duration]. *)
Definition stop_time (l : timed) (on : chan -> bool) : nat :=
  fold_right (fun ti m => if existsb on (instr_channels (snd ti)) then Nat.max (fst ti + instr_duration (snd ti)) m else m) 0 l.
Definition duration (l : timed) : nat := stop_time l (fun _ => true).
Definition shift (dt : nat) (l : timed) : timed := map (fun ti => (fst ti + dt, snd ti)) l.
(** [s += l]: after the instructions on the channels both have. *)
Definition append (s l : timed) : timed :=
  s ++ shift (stop_time s (fun ch => existsb (fun ti => mem ch (instr_channels (snd ti))) l)) l.

(** pulse_schedules.py:69-70 and 131-132. *)
Definition sigma_of (pulse_sigma : option R) (pulse_width : nat) (width_sigma_ratio : R) : result R :=
  match pulse_sigma with Some s => Ok s | None => if Req_EM_T width_sigma_ratio 0 then Err ZeroDivisionError else Ok (INR pulse_width / width_sigma_ratio)%R end.

Section Schedules.
(** [measure(qubits, inst_map, meas_map)].  Without the maps this is what fails:
    the QiskitErrors of 62-67 and 124-129 are built but not raised. *)
Context (measure : list nat -> result timed) (drives : list chan).

(** 27-85 [rabi_schedules]. *)
Definition rabi_sched (qs : list nat) (w : nat) (sigma : R) (index : nat) (amp : R) : result sched :=
  let p := {| p_duration := w; p_amp := amp; p_sigma := sigma; p_beta := None; p_label := str "rabi_pulse_" ++ dec index |} in
  do ins <- foldM (fun s q => do ch <- index_e drives q; Ok (append s [(0, Play p ch)])) qs [];
  do m <- measure qs;
  Ok {| s_name := str "rabisched_" ++ dec index ++ str "_0"; s_ins := append ins (shift w m) |}.
Definition rabi_schedules (amps : list R) (qs : list nat) (w : nat) (sigma : option R) (ratio : R) : result (list sched * list R) :=
  do sg <- sigma_of sigma w ratio;
  do ss <- mapM (fun ia => rabi_sched qs w sg (fst ia) (snd ia)) (combine (seq 0 (length amps)) amps);
  Ok (ss, amps).

(** 88-154 [drag_schedules]. *)
Definition drag_pulse (w : nat) (amp sigma beta : R) (index q : nat) : pulse :=
  {| p_duration := w; p_amp := amp; p_sigma := sigma; p_beta := Some beta; p_label := str "drag_pulse_" ++ dec index ++ str "_" ++ dec q |}.
Definition drag_sched (qs : list nat) (amps : list R) (w : nat) (sigma : R) (index : nat) (beta : R) : result sched :=
  do ins <- foldM (fun s iq =>
    do amp <- index_e amps (fst iq);
    do ch <- index_e drives (snd iq);
    Ok (append (append s [(0, Play (drag_pulse w amp sigma beta index (snd iq)) ch)]) [(0, Play (drag_pulse w (- amp) sigma beta index (snd iq)) ch)]))
    (combine (seq 0 (length qs)) qs) [];
  do m <- measure qs;
  Ok {| s_name := str "dragsched_" ++ dec index ++ str "_0"; s_ins := append ins (shift (2 * w) m) |}.
Definition drag_schedules (betas : list R) (qs : list nat) (amps : list R) (w : nat) (sigma : option R) (ratio : R) : result (list sched * list R) :=
  do sg <- sigma_of sigma w ratio;
  do ss <- mapM (fun ib => drag_sched qs amps w sg (fst ib) (snd ib)) (combine (seq 0 (length betas)) betas);
  Ok (ss, betas).
End Schedules.

(** ** ibmq_utils.py *)

(** An entry of the instruction map: the names of the parameters, and the schedule. *)
Record pentry := { e_params : list pystr; e_sched : (pystr -> R) -> timed }.
Definition instmap : Type := dict (pystr * nat) pentry.

(** The instructions of a schedule in the order of time, and of duration at the
    same time ([Schedule.instructions]); the sort is stable. *)
Definition earlier (a b : nat * pinstr) : bool := (fst a <? fst b) || ((fst a =? fst b) && (instr_duration (snd a) <=? instr_duration (snd b))).
Fixpoint insert_at (a : nat * pinstr) (l : timed) : timed :=
  match l with [] => [a] | b :: l' => if earlier a b then a :: l else b :: insert_at a l' end.
Definition instructions (l : timed) : timed := fold_right insert_at [] l.

Section Groups.
Context (set_order : list (list chan) -> list (list chan)).
(** 170-195 [_find_channel_groups]: [synced_fcs] is a dictionary in the order of
    insertion. *)
Fixpoint sync (fcs : list ((nat * R) * list chan)) (t : nat) (phase : R) (ch : chan) : list ((nat * R) * list chan) :=
  match fcs with
  | [] => [((t, phase), [ch])]
  | ((t', phase'), l) :: fcs' =>
      if (t =? t') && (if Req_EM_T phase phase' then true else false) then ((t', phase'), l ++ [ch]) :: fcs' else ((t', phase'), l) :: sync fcs' t phase ch
  end.
Definition synced (l : timed) : list ((nat * R) * list chan) :=
  fold_left (fun fcs ti => match snd ti with ShiftPhase phase ch => sync fcs (fst ti) phase ch | _ => fcs end) (instructions l) [].
Fixpoint distinct_groups (l : list (list chan)) : list (list chan) :=
  match l with [] => [] | g :: l' => if mem g l' then distinct_groups l' else g :: distinct_groups l' end.
Definition find_groups (m : instmap) (command : pystr) (q : nat) : result (list (list chan)) :=
  match dget m (command, q) with
  | None => Err QiskitError
  | Some e => Ok (set_order (distinct_groups (map snd (synced (e_sched e (fun _ => 0%R))))))
  end.
(** 134-139 and 144-149: the first group with the drive channel. *)
Definition group_of (groups : list (list chan)) (drive : chan) : list chan :=
  match find (fun g => mem drive g) groups with Some g => g | None => [drive] end.

(** 116-119 [parametrized_fc]. *)
Definition fc (name : string) (phi0 : R) (t : nat) (g : list chan) (v : pystr -> R) : timed := map (fun ch => (t, ShiftPhase (- v (str name) + phi0)%R ch)) g.
(** 141-142, 157-159: the fixed part of a parametrised schedule is inserted first. *)
Definition u2_entry (x90 : timed) (g : list chan) : pentry :=
  {| e_params := [str "P0"; str "P1"]; e_sched := fun v => x90 ++ fc "P1" (PI / 2) 0 g v ++ fc "P0" (- PI / 2) (duration x90) g v |}.
(** 151-153, 162-164. *)
Definition u3_entry (x90 : timed) (g : list chan) : pentry :=
  {| e_params := [str "P0"; str "P1"; str "P2"];
     e_sched := fun v => x90 ++ shift (duration x90) x90 ++ fc "P2" 0 0 g v ++ fc "P0" (- PI) (duration x90) g v ++ fc "P1" PI (2 * duration x90) g v |}.
(** 97-167 [update_u_gates]: [drag_params] are pulses here. *)
Definition update_qubit (drag_params : list pulse) (pi2 : option (list timed)) (drives : list chan) (m : instmap) (q : nat) : result instmap :=
  do drive <- index_e drives q;
  do x90 <- match pi2 with None => (do p <- index_e drag_params q; Ok [(0, Play p drive)]) | Some l => index_e l q end;
  do g2 <- find_groups m (str "u2") q;
  do g3 <- find_groups m (str "u3") q;
  Ok (dset (dset m (str "u2", q) (u2_entry x90 (group_of g2 drive))) (str "u3", q) (u3_entry x90 (group_of g3 drive))).
Definition update_u_gates (drag_params : list pulse) (pi2 : option (list timed)) (qs : list nat) (drives : list chan) (m : instmap) : result instmap :=
  foldM (update_qubit drag_params pi2 drives) qs m.
End Groups.
