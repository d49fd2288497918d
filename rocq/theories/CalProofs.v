(** The calibrations from schedules to amplitudes (C70). *)
From Coq Require Import QArith Reals Lra.
From Coquelicot Require Import Coquelicot.
From Verif Require Import Base LinAlg PyStr ResultFacts EntSpec CountsModel MeasCalModel CharModel CharEstModel IQModel IQSpec IQDataProofs IQFitProofs PulseModel PulseSpec PulseGateProofs PulseSchedProofs CalSpec.
Local Open Scope list_scope.
Local Open Scope nat_scope.

Lemma rabi_schedules_ok measure drives d qs m : channels_apart drives d qs m -> measure qs = Ok m -> forall amps w sigma ratio sg, sigma_of sigma w ratio = Ok sg ->
  exists ss, rabi_schedules measure drives amps qs w sigma ratio = Ok (ss, amps) /\ length ss = length amps /\ forall k a, nth_error amps k = Some a -> exists s, nth_error ss k = Some s /\ s_name s = sched_name "rabisched_" k /\
  (forall q, In q qs -> pulses_of (s_ins s) (d q) = [(0, {| p_duration := w; p_amp := a; p_sigma := sg; p_beta := None; p_label := str "rabi_pulse_" ++ dec k |})]) /\ others (map d qs) (s_ins s) = shift w m.
Proof.
  intros (H1 & H2 & H3) Hm amps w sigma ratio sg Hs. unfold rabi_schedules. rewrite Hs. cbn [bind].
  destruct (mapM_scheds (fun ia => rabi_sched measure drives qs w sg (fst ia) (snd ia)) (fun k a s => s_name s = sched_name "rabisched_" k /\
    (forall q, In q qs -> pulses_of (s_ins s) (d q) = [(0, {| p_duration := w; p_amp := a; p_sigma := sg; p_beta := None; p_label := str "rabi_pulse_" ++ dec k |})]) /\ others (map d qs) (s_ins s) = shift w m) amps) as (ss & E & L & K).
  - intros k a _. cbn [fst snd]. destruct (rabi_sched_ok measure drives d qs m H1 H2 Hm H3 w sg k a) as (s & E & K). exists s. auto.
  - rewrite E. cbn [bind]. exists ss. auto.
Qed.
Lemma drag_schedules_ok measure drives d qs m : channels_apart drives d qs m -> measure qs = Ok m -> forall betas amps w sigma ratio sg, sigma_of sigma w ratio = Ok sg -> length amps = length qs ->
  exists ss, drag_schedules measure drives betas qs amps w sigma ratio = Ok (ss, betas) /\ length ss = length betas /\ forall k b, nth_error betas k = Some b -> exists s, nth_error ss k = Some s /\ s_name s = sched_name "dragsched_" k /\
  (forall i q, nth_error qs i = Some q -> pulses_of (s_ins s) (d q) = [(0, drag_pulse w (nth i amps 0%R) sg b k q); (w, drag_pulse w (- nth i amps 0)%R sg b k q)]) /\ others (map d qs) (s_ins s) = shift (2 * w) m.
Proof.
  intros (H1 & H2 & H3) Hm betas amps w sigma ratio sg Hs Hl. unfold drag_schedules. rewrite Hs. cbn [bind].
  destruct (mapM_scheds (fun ib => drag_sched measure drives qs amps w sg (fst ib) (snd ib)) (fun k b s => s_name s = sched_name "dragsched_" k /\
    (forall i q, nth_error qs i = Some q -> pulses_of (s_ins s) (d q) = [(0, drag_pulse w (nth i amps 0%R) sg b k q); (w, drag_pulse w (- nth i amps 0)%R sg b k q)]) /\ others (map d qs) (s_ins s) = shift (2 * w) m) betas) as (ss & E & L & K).
  - intros k b _. cbn [fst snd]. destruct (drag_sched_ok measure drives d qs m H1 H2 Hm H3 w sg k amps b Hl) as (s & E & K). exists s. auto.
  - rewrite E. cbn [bind]. exists ss. auto.
Qed.
Lemma schedules_sigma measure drives amps qs w sigma ratio r : rabi_schedules measure drives amps qs w sigma ratio = Ok r -> exists sg, sigma_of sigma w ratio = Ok sg.
Proof. unfold rabi_schedules. intros E. apply bind_inv in E. destruct E as (sg & E & _). eauto. Qed.

Lemma runs_measured measure drives d qs m : channels_apart drives d qs m -> measure qs = Ok m -> forall amps w sigma ratio ss xs rs z0 z1 rate, rabi_schedules measure drives amps qs w sigma ratio = Ok (ss, xs) -> runs_of ss (map d qs) rs z0 z1 (fun i => turns (rate i)) ->
  xs = amps /\ iq_measured "rabisched_" rs xs (length qs) z0 z1 (fun i => rabi_prob (rate i)).
Proof.
  intros Hc Hm amps w sigma ratio ss xs rs z0 z1 rate E Hr. destruct (schedules_sigma _ _ _ _ _ _ _ _ E) as (sg & Hs). destruct (rabi_schedules_ok measure drives d qs m Hc Hm amps w sigma ratio sg Hs) as (ss' & E' & L & K). rewrite E in E'. injection E' as <- ->. split; [reflexivity|].
  intros k Hk. destruct (K k (nth k amps 0%R) (nth_error_nth' amps 0%R Hk)) as (s & Hn & Hname & Hp & _). destruct (Hr s (nth_error_In _ _ Hn)) as [H1 H2]. rewrite Hname in H1, H2. split; [exact H1|]. intros e He En i Hi.
  destruct (nth_error qs i) as [q|] eqn:Eq; [|apply nth_error_None in Eq; lia]. pose proof (H2 e He En i (d q)) as H. cbv zeta in H. rewrite H by (rewrite nth_error_map, Eq; reflexivity). clear H.
  rewrite (Hp q (nth_error_In _ _ Eq)). unfold turns, turned. cbn [fold_right snd p_amp]. unfold rabi_prob. rewrite Rplus_0_r. reflexivity.
Qed.
Lemma rabi_exact dd f xs x : osc_nodecay_fun x (rabi_curve dd f xs) = (gain dd * (rabi_prob f x - rmean (map (rabi_prob f) xs)))%R.
Proof. unfold osc_nodecay_fun, rabi_curve, osc_nodecay_fit. generalize (rmean (map (rabi_prob f) xs)). intros r. unfold rabi_prob. rewrite Rplus_0_r. field. Qed.
Lemma mapM_get st nq (v : nat -> R) : (forall q, q < nq -> get_param st 1 q (str "0") false = Ok (v q)) -> get_params st nq 1 (str "0") false = Ok (map v (seq 0 nq)).
Proof. intros H. unfold get_params. apply mapM_map. intros q Hq. apply in_seq in Hq. apply H. lia. Qed.
Lemma rabi_amplitudes cf m rs xs nq p0 bounds z0 z1 rate : averaged_results m rs -> nq <= m -> iq_measured "rabisched_" rs xs nq z0 z1 (fun i => rabi_prob (rate i)) ->
  determined osc_nodecay_fun xs bounds ->
  (forall q, q < nq -> z1 q <> z0 q /\ (exists x x', In x xs /\ In x' xs /\ rabi_prob (rate q) x <> rabi_prob (rate q) x') /\ in_bounds bounds (rabi_curve (Cminus (z1 q) (z0 q)) (rate q) xs) /\
     least_squares cf osc_nodecay_fun xs (iq_signal (Cminus (z1 q) (z0 q)) (rabi_prob (rate q)) xs) (error_bars xs) p0 bounds) ->
  exists st, rabi_fit cf rs xs nq p0 bounds = Ok st /\ forall q, q < nq -> exists a a2, pi_amplitude st nq q = Ok a /\ pi2_amplitude st nq q = Ok a2 /\ (2 * PI * rate q * a = PI)%R /\ (2 * PI * rate q * a2 = PI / 2)%R.
Proof.
  intros H Hq Hm Hd Hall. destruct (iq_fit_exact cf "rabisched_" osc_nodecay_fun m rs xs nq p0 bounds z0 z1 (fun i => rabi_prob (rate i)) (fun q => rabi_curve (Cminus (z1 q) (z0 q)) (rate q) xs) H Hq Hm) as (st & E & K).
  - intros q Hlt. destruct (Hall q Hlt) as (A1 & A2 & A3 & A4). split; [exact A1|]. split; [exact A2|]. split; [exact A3|]. split; [|exact A4]. intros x _. apply rabi_exact.
  - exists st. split; [exact E|]. intros q Hlt. assert (G : forall q', q' < nq -> get_param st 1 q' (str "0") false = Ok (rate q')).
    { intros q' Hlt'. destruct (K q' Hlt') as (ps & E1 & E2 & E3). destruct (Hall q' Hlt') as (_ & _ & A3 & _). rewrite (Hd ps _ E2 A3 E3) in E1. unfold get_param. rewrite E1. reflexivity. }
    assert (Hr : rate q <> 0%R). { destruct (Hall q Hlt) as (_ & (x & x' & _ & _ & N) & _). intros Z. apply N. unfold rabi_prob. rewrite Z. rewrite !Rmult_0_r, !Rmult_0_l. reflexivity. }
    exists (1 / rate q / 2)%R, (1 / rate q / 2 / 2)%R. unfold pi2_amplitude, pi_amplitude. rewrite (mapM_get st nq rate G). cbn [bind]. unfold index_e. rewrite (nth_error_seq_map rate nq q Hlt). cbn [bind]. repeat split; field; exact Hr.
Qed.
Lemma F2_len {A B} (P : A -> B -> Prop) l l' : Forall2 P l l' -> length l = length l'.
Proof. induction 1; cbn; congruence. Qed.
Lemma drag_exact dd a b c xs x : quadratic_fun x (drag_curve dd a b c xs) = (gain dd * (drag_prob a b c x - rmean (map (drag_prob a b c) xs)))%R.
Proof. unfold quadratic_fun, drag_curve, quadratic. generalize (rmean (map (drag_prob a b c) xs)). intros r. unfold drag_prob. ring. Qed.
Lemma drag_amplitudes cf m rs xs nq p0 bounds z0 z1 (a b c : nat -> R) : averaged_results m rs -> nq <= m -> iq_measured "dragsched_" rs xs nq z0 z1 (fun i => drag_prob (a i) (b i) (c i)) ->
  (exists x1 x2 x3, In x1 xs /\ In x2 xs /\ In x3 xs /\ x1 <> x2 /\ x1 <> x3 /\ x2 <> x3) ->
  (forall q, q < nq -> a q <> 0%R /\ gain (Cminus (z1 q) (z0 q)) <> 0%R /\ in_bounds bounds (drag_curve (Cminus (z1 q) (z0 q)) (a q) (b q) (c q) xs) /\
     least_squares cf quadratic_fun xs (iq_signal (Cminus (z1 q) (z0 q)) (drag_prob (a q) (b q) (c q)) xs) (error_bars xs) p0 bounds) ->
  exists st, drag_fit cf rs xs nq p0 bounds = Ok st /\ forall q, q < nq -> drag_amplitude st q = Ok (b q).
Proof.
  intros H Hq Hm Hx Hall. destruct (iq_fit_exact cf "dragsched_" quadratic_fun m rs xs nq p0 bounds z0 z1 (fun i => drag_prob (a i) (b i) (c i)) (fun q => drag_curve (Cminus (z1 q) (z0 q)) (a q) (b q) (c q) xs) H Hq Hm) as (st & E & K).
  - intros q Hlt. destruct (Hall q Hlt) as (A1 & A2 & A3 & A4). split.
    { intros Z. apply A2. rewrite Z. replace (Cminus (z0 q) (z0 q)) with (RtoC 0) by ring. unfold gain. cbn [Re Im fst snd RtoC]. unfold Rdiv. ring. }
    split; [|split; [exact A3|split; [|exact A4]]].
    + destruct Hx as (x1 & x2 & x3 & I1 & I2 & I3 & N1 & N2 & N3). destruct (Req_dec (drag_prob (a q) (b q) (c q) x1) (drag_prob (a q) (b q) (c q) x2)) as [E1|E1]; [|exists x1, x2; auto]. exists x1, x3. split; [exact I1|]. split; [exact I3|]. intros E2. unfold drag_prob in E1, E2.
      assert (F1 : (x1 + x2 = 2 * b q)%R). { apply (Rmult_eq_reg_l (a q * (x1 - x2))); [nra|]. apply Rmult_integral_contrapositive_currified; [exact A1|lra]. }
      assert (F2 : (x1 + x3 = 2 * b q)%R). { apply (Rmult_eq_reg_l (a q * (x1 - x3))); [nra|]. apply Rmult_integral_contrapositive_currified; [exact A1|lra]. }
      apply N3. lra.
    + intros x _. apply drag_exact.
  - exists st. split; [exact E|]. intros q Hlt. destruct (K q Hlt) as (ps & E1 & E2 & E3). destruct (Hall q Hlt) as (A1 & A2 & A3 & A4). unfold drag_amplitude, get_param. rewrite E1. cbn [bind].
    assert (L : length ps = 3) by (destruct E2 as [F _], A3 as [F' _]; apply F2_len in F, F'; rewrite <- F, F'; reflexivity). destruct ps as [|pa [|pb [|pc [|? ?]]]]; try discriminate L.
    cbn [index_e]. destruct (quadratic_inj xs (gain (Cminus (z1 q) (z0 q)) * a q) (b q) (gain (Cminus (z1 q) (z0 q)) * (c q - rmean (map (drag_prob (a q) (b q) (c q)) xs))) pa pb pc) as (_ & <- & _).
    + apply Rmult_integral_contrapositive_currified; assumption.
    + exact Hx.
    + intros x Hi. symmetry. exact (E3 x Hi).
    + reflexivity.
Qed.
Lemma drag_measured measure drives d qs m : channels_apart drives d qs m -> measure qs = Ok m -> forall betas amps w sigma ratio sg ss xs rs z0 z1 (a b c : nat -> R) prob, length amps = length qs -> sigma_of sigma w ratio = Ok sg ->
  drag_schedules measure drives betas qs amps w sigma ratio = Ok (ss, xs) -> runs_of ss (map d qs) rs z0 z1 prob -> (forall i, i < length qs -> drag_law w (nth i amps 0%R) sg (a i) (b i) (c i) (prob i)) ->
  xs = betas /\ iq_measured "dragsched_" rs xs (length qs) z0 z1 (fun i => drag_prob (a i) (b i) (c i)).
Proof.
  intros Hc Hm betas amps w sigma ratio sg ss xs rs z0 z1 a b c prob Hl Hs E Hr Hp. destruct (drag_schedules_ok measure drives d qs m Hc Hm betas amps w sigma ratio sg Hs Hl) as (ss' & E' & L & K). rewrite E in E'. injection E' as <- ->. split; [reflexivity|].
  intros k Hk. destruct (K k (nth k betas 0%R) (nth_error_nth' betas 0%R Hk)) as (s & Hn & Hname & Hpl & _). destruct (Hr s (nth_error_In _ _ Hn)) as [H1 H2]. rewrite Hname in H1, H2. split; [exact H1|]. intros e He En i Hi.
  destruct (nth_error qs i) as [q|] eqn:Eq; [|apply nth_error_None in Eq; lia]. pose proof (H2 e He En i (d q)) as H. cbv zeta in H. rewrite H by (rewrite nth_error_map, Eq; reflexivity). clear H.
  rewrite (Hpl i q Eq). rewrite (Hp i Hi _ _ (nth k betas 0%R)) by reflexivity. reflexivity.
Qed.
