(** C75: the initial guesses of the fits. *)
From Coq Require Import QArith Reals Lra Lia ZArith.
From Coquelicot Require Import Coquelicot.
From Verif Require Import LinAlg Base ResultFacts EntSpec IQModel IQSpec GuessModel GuessSpec GuessProofs Guess2Proofs.
Local Open Scope list_scope.
Local Open Scope nat_scope.

Definition quarter : list R := grid 0 1 4.
Lemma quarter_harmonic : harmonic 4 1 1 (1 / 4).
Proof. split; [lia|]. split; [lia|]. split; [lra|]. cbn. field. Qed.
Lemma near_self g xs : near 0 g xs (map g xs).
Proof. unfold near. induction xs as [|x xs IH]; cbn [map]; [apply Forall2_nil|apply Forall2_cons; [rewrite Rminus_diag_eq, Rabs_R0 by reflexivity; lra|exact IH]]. Qed.

(** T2* data that stay within a quarter of the amplitude of an oscillation, with a
    whole number of turns in the window, give its frequency, offset and phase; the
    decay time is ten times the last delay. *)
Theorem C75_t2star : forall x0 dx N m A f phi c e ys, harmonic N m dx f -> near e (wave A f phi c) (grid x0 dx N) ys -> (4 * e < Rabs A)%R ->
  exists a fg ph cg, t2star_guess (grid x0 dx N) ys = Ok [a; ((x0 + INR (N - 1) * dx) * 10)%R; fg; ph; cg] /\ greatest a ys /\ good_guess x0 A f phi c e fg ph cg.
Proof. exact t2star_wave. Qed.
Print Assumptions C75_t2star.
Example C75_t2star_example : harmonic 4 1 1 (1 / 4) /\ near (/ 10) (wave (/ 2) (1 / 4) 0 (/ 2)) (grid 0 1 4) (map (fun x => wave (/ 2) (1 / 4) 0 (/ 2) x + / 10)%R (grid 0 1 4)) /\ (4 * / 10 < Rabs (/ 2))%R.
Proof.
  split; [exact quarter_harmonic|]. split; [|rewrite Rabs_pos_eq; lra]. unfold near. generalize (grid 0 1 4). intros xs. induction xs as [|x xs IH]; cbn [map]; [apply Forall2_nil|apply Forall2_cons; [|exact IH]].
  replace (wave (/ 2) (1 / 4) 0 (/ 2) x + / 10 - wave (/ 2) (1 / 4) 0 (/ 2) x)%R with (/ 10)%R by ring. rewrite Rabs_pos_eq; lra.
Qed.

(** In particular when the decay time is more than four times the last delay. *)
Theorem C75_t2star_decay : forall x0 dx N m A tau f phi c, harmonic N m dx f -> (A <> 0)%R -> (0 <= x0)%R -> (4 * (x0 + INR (N - 1) * dx) < tau)%R ->
  exists a tg fg ph cg, t2star_guess (grid x0 dx N) (map (damped A tau f phi c) (grid x0 dx N)) = Ok [a; tg; fg; ph; cg] /\ Rabs fg = f.
Proof.
  intros x0 dx N m A tau f phi c Hh HA H0 Ht. pose proof Hh as (H1 & H2 & H3 & H4). pose proof (pos_INR (N - 1)) as P. assert (Pt : (0 < tau)%R) by nra.
  destruct (t2star_wave x0 dx N m A f phi c _ _ Hh (damped_near A tau f phi c x0 dx N H0 H3 Pt ltac:(lia))) as (a & fg & ph & cg & E & _ & [Hf _]).
  - pose proof (Rabs_pos_lt A HA) as PA. assert (4 * ((x0 + INR (N - 1) * dx) / tau) < 1)%R.
    { apply Rmult_lt_reg_r with tau; [exact Pt|]. replace (4 * ((x0 + INR (N - 1) * dx) / tau) * tau)%R with (4 * (x0 + INR (N - 1) * dx))%R by (field; lra). lra. }
    nra.
  - exists a, ((x0 + INR (N - 1) * dx) * 10)%R, fg, ph, cg. split; [exact E|]. assert (Pf : (0 <= f)%R).
    { rewrite H4. apply Rmult_le_pos; [apply pos_INR|]. left. apply Rinv_0_lt_compat. apply Rmult_lt_0_compat; [apply lt_0_INR; lia|exact H3]. }
    destruct Hf as [-> | ->]; [|rewrite Rabs_Ropp]; apply Rabs_pos_eq; exact Pf.
Qed.
Print Assumptions C75_t2star_decay.
Example C75_t2star_decay_example : harmonic 4 1 1 (1 / 4) /\ (1 <> 0)%R /\ (0 <= 0)%R /\ (4 * (0 + INR (4 - 1) * 1) < 13)%R.
Proof. split; [exact quarter_harmonic|]. cbn. lra. Qed.

(** The amplitude is guessed as the greatest value: amplitude plus offset.  A signal
    between 0 and 1, whose amplitude is 1/2, is guessed to have amplitude 1. *)
Theorem C75_amplitude_refuted : exists xs ys, ys = map (wave (/ 2) (1 / 4) 0 (/ 2)) xs /\
  (exists tg fg ph cg, t2star_guess xs ys = Ok [1%R; tg; fg; ph; cg]) /\
  forall x0 dx N m A f phi c, harmonic N m dx f -> (0 < A)%R -> (exists x, In x (grid x0 dx N) /\ cos (2 * PI * f * x + phi) = 1%R) ->
  exists tg fg ph cg, t2star_guess (grid x0 dx N) (map (wave A f phi c) (grid x0 dx N)) = Ok [(A + c)%R; tg; fg; ph; cg].
Proof.
  assert (G : forall x0 dx N m A f phi c, harmonic N m dx f -> (0 < A)%R -> (exists x, In x (grid x0 dx N) /\ cos (2 * PI * f * x + phi) = 1%R) ->
    exists tg fg ph cg, t2star_guess (grid x0 dx N) (map (wave A f phi c) (grid x0 dx N)) = Ok [(A + c)%R; tg; fg; ph; cg]).
  { intros x0 dx N m A f phi c Hh HA (x & Hx & Ex). destruct (t2star_wave x0 dx N m A f phi c 0 _ Hh (near_self _ _)) as (a & fg & ph & cg & E & [Ha1 Ha2] & _); [rewrite Rabs_pos_eq; lra|].
    exists ((x0 + INR (N - 1) * dx) * 10)%R, fg, ph, cg. rewrite E. do 2 f_equal. apply in_map_iff in Ha1. destruct Ha1 as (x' & Ex' & Hx'). apply Rle_antisym.
    - rewrite <- Ex'. unfold wave. pose proof (COS_bound (2 * PI * f * x' + phi)). nra.
    - replace (A + c)%R with (wave A f phi c x) by (unfold wave; rewrite Ex; ring). apply Ha2. apply in_map. exact Hx. }
  exists quarter, (map (wave (/ 2) (1 / 4) 0 (/ 2)) quarter). split; [reflexivity|]. split; [|exact G].
  destruct (G 0%R 1%R 4 1 (/ 2)%R (1 / 4)%R 0%R (/ 2)%R quarter_harmonic) as (tg & fg & ph & cg & E); [lra| |].
  - exists 0%R. split; [left; cbn; ring|]. rewrite Rmult_0_r, Rplus_0_l. exact cos_0.
  - exists tg, fg, ph, cg. unfold quarter. rewrite E. do 2 f_equal. field.
Qed.
Print Assumptions C75_amplitude_refuted.

(** The phase is that at the first delay, while the fit counts it from time zero: the
    guessed curve is the right one moved by the first delay.  When that is half a turn,
    the guess is upside down. *)
Theorem C75_phase_refuted : (forall x0 dx N m A f phi c, harmonic N m dx f -> (0 < A)%R ->
  exists a tg fg ph cg, t2star_guess (grid x0 dx N) (map (wave A f phi c) (grid x0 dx N)) = Ok [a; tg; fg; ph; cg] /\ forall x, wave A fg ph cg x = wave A f phi c (x + x0)) /\
  exists x0 dx N f a tg fg ph cg, t2star_guess (grid x0 dx N) (map (wave 1 f 0 0) (grid x0 dx N)) = Ok [a; tg; fg; ph; cg] /\ forall x, wave 1 fg ph cg x = (- wave 1 f 0 0 x)%R.
Proof.
  assert (G : forall x0 dx N m A f phi c, harmonic N m dx f -> (0 < A)%R ->
    exists a tg fg ph cg, t2star_guess (grid x0 dx N) (map (wave A f phi c) (grid x0 dx N)) = Ok [a; tg; fg; ph; cg] /\ forall x, wave A fg ph cg x = wave A f phi c (x + x0)).
  { intros x0 dx N m A f phi c Hh HA. destruct (t2star_wave x0 dx N m A f phi c 0 _ Hh (near_self _ _)) as (a & fg & ph & cg & E & _ & (_ & _ & _ & H4 & H5)); [rewrite Rabs_pos_eq; lra|].
    exists a, ((x0 + INR (N - 1) * dx) * 10)%R, fg, ph, cg. split; [exact E|]. intros x. specialize (H5 (x + x0)%R). rewrite Rmult_0_r in H5. replace (x + x0 - x0)%R with x in H5 by ring. rewrite (Rabs_pos_eq A) in H5 by lra.
    assert (Z : forall r, (Rabs r <= 0)%R -> r = 0%R) by (intros r Hr; destruct (Req_dec r 0) as [F|F]; [exact F|pose proof (Rabs_pos_lt _ F); lra]). apply Z in H4, H5. unfold wave. lra. }
  split; [exact G|]. destruct (G 2%R 1%R 4 1 1%R (1 / 4)%R 0%R 0%R quarter_harmonic) as (a & tg & fg & ph & cg & E & H); [lra|].
  exists 2%R, 1%R, 4, (1 / 4)%R, a, tg, fg, ph, cg. split; [exact E|]. intros x. rewrite H. unfold wave.
  replace (2 * PI * (1 / 4) * (x + 2) + 0)%R with (2 * PI * (1 / 4) * x + 0 + PI)%R by field. rewrite neg_cos. ring.
Qed.
Print Assumptions C75_phase_refuted.

(** The Rabi guess is as good when the offset is small ... *)
Theorem C75_rabi : forall x0 dx N m A f phi c e ys, harmonic N m dx f -> near e (wave A f phi c) (grid x0 dx N) ys -> (2 * Rabs c + 4 * e < Rabs A)%R ->
  exists a fg ph cg, rabi_guess (grid x0 dx N) ys = Ok [a; fg; ph; cg] /\ greatest a ys /\ good_guess x0 A f phi c e fg ph cg.
Proof. exact rabi_wave. Qed.
Print Assumptions C75_rabi.
Example C75_rabi_example : harmonic 4 1 1 (1 / 4) /\ near 0 (wave 1 (1 / 4) 0 (/ 4)) (grid 0 1 4) (map (wave 1 (1 / 4) 0 (/ 4)) (grid 0 1 4)) /\ (2 * Rabs (/ 4) + 4 * 0 < Rabs 1)%R.
Proof. split; [exact quarter_harmonic|]. split; [apply near_self|]. rewrite !Rabs_pos_eq; lra. Qed.
(** ... as on the projected IQ points of a qubit that oscillates, whatever the offset
    of the oscillation, since the projection subtracts the mean ... *)
Theorem C75_rabi_projected : forall x0 dx N m A f phi c z d, harmonic N m dx f -> (gain d * A <> 0)%R ->
  exists ys a fg ph cg, project (map (fun x => Cplus z (Cmult (RtoC (wave A f phi c x)) d)) (grid x0 dx N)) = Some ys /\
    rabi_guess (grid x0 dx N) ys = Ok [a; fg; ph; cg] /\ greatest a ys /\ good_guess x0 (gain d * A) f phi 0 0 fg ph cg.
Proof. exact rabi_projected. Qed.
Print Assumptions C75_rabi_projected.
Example C75_rabi_projected_example : harmonic 4 1 1 (1 / 4) /\ (gain (RtoC 1) * (- / 2) <> 0)%R.
Proof.
  split; [exact quarter_harmonic|]. assert (E : gain (RtoC 1) = 1%R). { unfold gain. rewrite Cmod_R. cbn. rewrite Rabs_R1, Rabs_R0. field. } rewrite E. lra.
Qed.
(** ... but on other data the constant part wins when it is more than half the
    amplitude, and the guessed frequency is 0: on probabilities between 0 and 1 it
    always is, up to noise. *)
Theorem C75_rabi_offset_refuted : forall x0 dx N m A f phi c e ys, harmonic N m dx f -> near e (wave A f phi c) (grid x0 dx N) ys -> (Rabs A / 2 + 2 * e < Rabs c)%R ->
  exists a ph cg, rabi_guess (grid x0 dx N) ys = Ok [a; 0%R; ph; cg].
Proof. exact rabi_offset. Qed.
Print Assumptions C75_rabi_offset_refuted.
Example C75_rabi_offset_example : harmonic 4 1 1 (1 / 4) /\ near 0 (wave (- / 2) (1 / 4) 0 (/ 2)) (grid 0 1 4) (map (wave (- / 2) (1 / 4) 0 (/ 2)) (grid 0 1 4)) /\ (Rabs (- / 2) / 2 + 2 * 0 < Rabs (/ 2))%R.
Proof. split; [exact quarter_harmonic|]. split; [apply near_self|]. rewrite Rabs_Ropp, !Rabs_pos_eq; lra. Qed.

(** The DRAG guess on a parabola, swept from [-w] to [w], that has its vertex among
    the points: place and value of the vertex are right, the curvature is too great
    by the square of [(w + |v|) / w], at most 4, and right when the vertex is at 0. *)
Theorem C75_drag : forall a v c w xs, symmetric w xs -> In v xs -> (Rabs v < w)%R -> (a <> 0)%R ->
  drag_guess xs (map (parabola a v c) xs) = Ok [(a * ((w + Rabs v) / w) ^ 2)%R; v; c] /\ (1 <= ((w + Rabs v) / w) ^ 2 < 4)%R.
Proof.
  intros a v c w xs Hs Hv Hw Ha. split; [exact (drag_parabola a v c w xs Hs Hv Hw Ha)|]. destruct Hs as (P & _). pose proof (Rabs_pos v) as Pv.
  assert (Q : (1 <= (w + Rabs v) / w < 2)%R).
  { split; [apply Rmult_le_reg_r with w|apply Rmult_lt_reg_r with w]; try exact P; unfold Rdiv; rewrite Rmult_assoc, Rinv_l by lra; lra. }
  cbn [pow]. rewrite Rmult_1_r. nra.
Qed.
Print Assumptions C75_drag.
Example C75_drag_example : symmetric 2 [-2; -1; 0; 1; 2]%R /\ In 1%R [-2; -1; 0; 1; 2]%R /\ (Rabs 1 < 2)%R.
Proof.
  split; [|split; [do 3 right; left; reflexivity|rewrite Rabs_R1; lra]]. split; [lra|]. split; [do 4 right; left; reflexivity|]. split; [left; reflexivity|].
  intros x Hx. apply Rabs_le. repeat (destruct Hx as [<-|Hx]; [lra|]). destruct Hx.
Qed.
(** On a sweep to one side the wrong end may be taken for the vertex. *)
Theorem C75_drag_refuted : drag_guess [1; 2; 3]%R (map (parabola 1 3 0) [1; 2; 3]%R) = Ok [(- (4) / 9)%R; 1%R; 4%R].
Proof.
  unfold drag_guess, np_max, np_min, np_argmax, np_argmin. cbn [map max_from]. unfold parabola.
  repeat match goal with
  | |- context [Rlt_dec ?a ?b] => destruct (Rlt_dec a b) as [?|?]; cbn [max_from fst snd bind np_max np_argmax] in *; try (exfalso; lra)
  end.
  cbn [index_e nth_error bind]. destruct (Rlt_dec (Rabs 1) (Rabs 3)) as [_|K]; [|exfalso; apply K; rewrite !Rabs_pos_eq; lra]. cbn [bind]. destruct (Req_EM_T 3 0) as [K|_]; [lra|]. do 2 f_equal; [field|]. do 2 f_equal. ring.
Qed.
Print Assumptions C75_drag_refuted.

(** The amplitude calibration: the angle error is guessed to third order, and with
    its sign; the offset is off by half the sine of the error. *)
Theorem C75_ampcal : forall e rest, exists t, ampcal_guess (turned e 1 :: turned e 3 :: rest) = Ok [t; (/ 2 + sin e / 2)%R] /\
  ((Rabs e <= 1)%R -> (Rabs (t - e) <= 7 / 6 * Rabs e ^ 3)%R) /\ ((0 < e < PI / 2)%R -> (0 < t)%R) /\ ((- (PI / 2) < e < 0)%R -> (t < 0)%R).
Proof.
  intros e rest. exists ((sin e + sin (3 * e)) / 4)%R. split.
  - unfold ampcal_guess, index_e. cbn [nth_error bind]. unfold turned. replace (INR 1) with 1%R by reflexivity. replace (INR 3) with 3%R by (cbn; ring). rewrite ampcal_closed. do 2 f_equal; [field|]. f_equal.
    replace (1 * (PI / 2 + e))%R with (e + PI / 2)%R by ring. rewrite cos_plus, cos_PI2, sin_PI2. field.
  - split; [exact (ampcal_bound e)|].
    assert (F : ((sin e + sin (3 * e)) / 4 = sin e * (cos e * cos e))%R).
    { replace (3 * e)%R with (2 * e + e)%R by ring. rewrite sin_plus, sin_2a, cos_2a. pose proof (sin2_cos2 e) as S. unfold Rsqr in S. replace (sin e * sin e)%R with (1 - cos e * cos e)%R by lra. field. }
    rewrite F. split; intros [L1 L2].
    + pose proof (cos_gt_0 e ltac:(lra) L2). apply Rmult_lt_0_compat; [apply sin_gt_0; pose proof PI_RGT_0; lra|nra].
    + pose proof (cos_gt_0 e L1 ltac:(pose proof PI_RGT_0; lra)). assert (S : (0 < sin (- e))%R) by (apply sin_gt_0; pose proof PI_RGT_0; lra). rewrite sin_neg in S. assert (0 < cos e * cos e)%R by nra. nra.
Qed.
Print Assumptions C75_ampcal.

(** Times become the nearest numbers of gates, the even one of two, and multiples of
    the gate time the right ones. *)
Theorem C75_ngates : forall times g, (g <> 0)%R -> exists ns, time_to_ngates times g = Ok ns /\ Forall2 (fun t n => nearest (t / g) n) times ns /\
  (forall ms, times = map (fun n => IZR n * g)%R ms -> ns = ms) /\ (forall ms, Forall2 (fun t n => nearest (t / g) n) times ms -> ms = ns).
Proof.
  intros times g Hg. unfold time_to_ngates. destruct (Req_EM_T g 0) as [E|_]; [congruence|]. eexists. split; [reflexivity|]. split.
  - induction times as [|t ts IH]; cbn [map]; [apply Forall2_nil|apply Forall2_cons; [apply np_round_nearest|exact IH]].
  - split.
    + intros ms ->. rewrite map_map. rewrite <- (map_id ms) at 2. apply map_ext. intros n. replace (IZR n * g / g)%R with (IZR n) by (field; exact Hg). exact (nearest_unique _ _ _ (np_round_nearest _) (nearest_exact n)).
    + intros ms H. induction H as [|t n ts ms Hn H IH]; cbn [map]; [reflexivity|]. rewrite <- IH. f_equal. exact (nearest_unique _ _ _ Hn (np_round_nearest _)).
Qed.
Print Assumptions C75_ngates.
Example C75_ngates_example : (/ 2 <> 0)%R /\ [(3 * / 2)%R] = map (fun n => IZR n * / 2)%R [3%Z].
Proof. split; [lra|reflexivity]. Qed.
