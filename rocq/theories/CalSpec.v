(** Independent meaning of calibration experiments, for property C70. *)
From Coq Require Import QArith Reals Lra.
From Coquelicot Require Import Coquelicot.
From Verif Require Import Base LinAlg PyStr IQModel IQSpec PulseModel PulseSpec.
Local Open Scope list_scope.
Local Open Scope nat_scope.

(** The hardware: every qubit of [qs] has a drive channel of its own, and measuring
    does not use the drive channels. *)
Definition channels_apart (drives : list chan) (d : nat -> chan) (qs : list nat) (m : timed) : Prop :=
  (forall q, In q qs -> nth_error drives q = Some (d q)) /\ NoDup (map d qs) /\ forall t i ch, In (t, i) m -> In ch (instr_channels i) -> ~ In ch (map d qs).
(** The averaged results of running the schedules [ss]: the pulses on the channel
    number [i] of [chs] leave its qubit, which begins in 0, in 1 with the probability
    [prob i], and what is measured at slot [i] is the point between [z0 i] and [z1 i]
    that belongs to it. *)
Definition runs_of (ss : list sched) (chs : list chan) (rs : list iqresult) (z0 z1 : nat -> C) (prob : nat -> list (nat * pulse) -> R) : Prop :=
  forall s, In s ss -> (exists e, In e (concat rs) /\ q_name e = s_name s) /\
    forall e, In e (concat rs) -> q_name e = s_name s -> forall i ch, nth_error chs i = Some ch ->
    let p := prob i (pulses_of (s_ins s) ch) in point e i = Cplus (Cmult (RtoC (1 - p)) (z0 i)) (Cmult (RtoC p) (z1 i)).
(** Pulses that turn about X. *)
Definition turns (rate : R) (l : list (nat * pulse)) : R := ((1 - cos (turned rate l)) / 2)%R.
(** The curves on which exact data lie. *)
Definition rabi_curve (d : C) (rate : R) (xs : list R) : list R := [- gain d / 2; rate; 0; gain d * (1 / 2 - rmean (map (rabi_prob rate) xs))]%R.
(** The probability of 1 after a pulse and its reverse, near the right [beta]: a parabola. *)
Definition drag_prob (a beta0 c beta : R) : R := (a * (beta - beta0) ^ 2 + c)%R.
Definition drag_law (w : nat) (amp sigma a beta0 c : R) (prob : list (nat * pulse) -> R) : Prop :=
  forall p p' beta, p_duration p = w -> p_duration p' = w -> p_amp p = amp -> p_amp p' = (- amp)%R -> p_sigma p = sigma -> p_sigma p' = sigma -> p_beta p = Some beta -> p_beta p' = Some beta ->
  prob [(0, p); (w, p')] = drag_prob a beta0 c beta.
Definition drag_curve (d : C) (a beta0 c : R) (xs : list R) : list R := [gain d * a; beta0; gain d * (c - rmean (map (drag_prob a beta0 c) xs))]%R.
