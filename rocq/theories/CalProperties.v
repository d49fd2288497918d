(** C70: calibration by pulse schedules. *)
From Coq Require Import QArith Reals Lra Permutation Sorted.
From Coquelicot Require Import Coquelicot.
From Verif Require Import Base LinAlg PyStr ResultFacts EntSpec CountsModel MeasCalModel CharModel CharEstModel IQModel IQSpec IQDataProofs IQFitProofs PulseModel PulseSpec PulseGateProofs PulseMapProofs PulseSchedProofs CalSpec CalProofs.
Local Open Scope string_scope.
Local Open Scope list_scope.
Local Open Scope nat_scope.

(** Schedule number [k] of a Rabi experiment plays, on every drive channel, just one
    pulse with amplitude number [k], at time 0, and measures when it is over. *)
Theorem C70_rabi_schedules : forall measure drives d qs m, channels_apart drives d qs m -> measure qs = Ok m -> forall amps w sigma ratio sg, sigma_of sigma w ratio = Ok sg ->
  exists ss, rabi_schedules measure drives amps qs w sigma ratio = Ok (ss, amps) /\ length ss = length amps /\ forall k a, nth_error amps k = Some a -> exists s, nth_error ss k = Some s /\ s_name s = sched_name "rabisched_" k /\
  (forall q, In q qs -> pulses_of (s_ins s) (d q) = [(0, {| p_duration := w; p_amp := a; p_sigma := sg; p_beta := None; p_label := str "rabi_pulse_" ++ dec k |})]) /\ others (map d qs) (s_ins s) = shift w m.
Proof. exact rabi_schedules_ok. Qed.
Print Assumptions C70_rabi_schedules.
(** Two qubits, which are measured together. *)
Definition ex_drives : list chan := [(str "d", 0); (str "d", 1); (str "d", 2)].
Definition ex_d (q : nat) : chan := (str "d", q).
Definition ex_measure (qs : list nat) : result timed := Ok [(0, Acquire 10 (map (fun q => (str "m", q)) qs))].
Lemma ex_apart qs : NoDup qs -> (forall q, In q qs -> q < 3) -> channels_apart ex_drives ex_d qs [(0, Acquire 10 (map (fun q => (str "m", q)) qs))].
Proof.
  intros N H. split; [|split].
  - intros q Hq. specialize (H q Hq). destruct q as [|[|[|q]]]; [reflexivity..|lia].
  - apply FinFun.Injective_map_NoDup; [|exact N]. intros a b E. injection E as ->. reflexivity.
  - intros t i ch [E|[]] Hch. injection E as <- <-. cbn [instr_channels] in Hch. apply in_map_iff in Hch. destruct Hch as (q & <- & _). intros Hi. apply in_map_iff in Hi. destruct Hi as (q' & E & _). unfold ex_d in E. discriminate.
Qed.
Example C70_rabi_schedules_example : channels_apart ex_drives ex_d [2; 0] [(0, Acquire 10 [(str "m", 2); (str "m", 0)])] /\
  rabi_schedules ex_measure ex_drives [1]%R [2; 0] 8 (Some 2%R) 4 = let p := {| p_duration := 8; p_amp := 1; p_sigma := 2; p_beta := None; p_label := str "rabi_pulse_0" |} in
  Ok ([{| s_name := str "rabisched_0_0"; s_ins := [(0, Play p (str "d", 2)); (0, Play p (str "d", 0)); (8, Acquire 10 [(str "m", 2); (str "m", 0)])] |}], [1]%R).
Proof. split; [apply (ex_apart [2; 0]); [repeat constructor; cbn; intuition lia|intros q [<-|[<-|[]]]; lia]|reflexivity]. Qed.

(** Schedule number [k] of a DRAG experiment plays, on the drive channel of every
    qubit, the pulse of this qubit with [beta] number [k] and then its reverse, and
    measures when they are over. *)
Theorem C70_drag_schedules : forall measure drives d qs m, channels_apart drives d qs m -> measure qs = Ok m -> forall betas amps w sigma ratio sg, sigma_of sigma w ratio = Ok sg -> length amps = length qs ->
  exists ss, drag_schedules measure drives betas qs amps w sigma ratio = Ok (ss, betas) /\ length ss = length betas /\ forall k b, nth_error betas k = Some b -> exists s, nth_error ss k = Some s /\ s_name s = sched_name "dragsched_" k /\
  (forall i q, nth_error qs i = Some q -> pulses_of (s_ins s) (d q) = [(0, drag_pulse w (nth i amps 0%R) sg b k q); (w, drag_pulse w (- nth i amps 0)%R sg b k q)]) /\ others (map d qs) (s_ins s) = shift (2 * w) m.
Proof. exact drag_schedules_ok. Qed.
Print Assumptions C70_drag_schedules.
Example C70_drag_schedules_example : exists s, drag_schedules ex_measure ex_drives [3]%R [2; 0] [5; 7]%R 8 (Some 2%R) 4 = Ok ([s], [3]%R) /\
  pulses_of (s_ins s) (str "d", 2) = [(0, drag_pulse 8 5 2 3 0 2); (8, drag_pulse 8 (- (5)) 2 3 0 2)] /\ pulses_of (s_ins s) (str "d", 0) = [(0, drag_pulse 8 7 2 3 0 0); (8, drag_pulse 8 (- (7)) 2 3 0 0)].
Proof. eexists. split; [reflexivity|]. split; reflexivity. Qed.

(** From the Rabi schedules to the amplitudes: when the angle by which a pulse turns
    is proportional to its amplitude, the fitted [pi_amplitude] turns by pi and the
    [pi2_amplitude] by pi/2, for any rate and any two different points in the plane. *)
Theorem C70_rabi : forall measure drives d qs mm, channels_apart drives d qs mm -> measure qs = Ok mm -> forall amps w sigma ratio ss xs, rabi_schedules measure drives amps qs w sigma ratio = Ok (ss, xs) ->
  forall cf m rs p0 bounds z0 z1 rate, runs_of ss (map d qs) rs z0 z1 (fun i => turns (rate i)) -> averaged_results m rs -> length qs <= m -> determined osc_nodecay_fun xs bounds ->
  (forall i, i < length qs -> z1 i <> z0 i /\ (exists x x', In x xs /\ In x' xs /\ rabi_prob (rate i) x <> rabi_prob (rate i) x') /\ in_bounds bounds (rabi_curve (Cminus (z1 i) (z0 i)) (rate i) xs) /\
     least_squares cf osc_nodecay_fun xs (iq_signal (Cminus (z1 i) (z0 i)) (rabi_prob (rate i)) xs) (error_bars xs) p0 bounds) ->
  exists st, rabi_fit cf rs xs (length qs) p0 bounds = Ok st /\ forall i, i < length qs -> exists a a2, pi_amplitude st (length qs) i = Ok a /\ pi2_amplitude st (length qs) i = Ok a2 /\
    forall t p, p_amp p = a -> turned (rate i) [(t, p)] = PI /\ forall p2, p_amp p2 = a2 -> turned (rate i) [(t, p2)] = (PI / 2)%R.
Proof.
  intros measure drives d qs mm Hc Hm amps w sigma ratio ss xs E cf m rs p0 bounds z0 z1 rate Hr Ha Hl Hd Hall. destruct (runs_measured measure drives d qs mm Hc Hm amps w sigma ratio ss xs rs z0 z1 rate E Hr) as [_ Hi].
  destruct (rabi_amplitudes cf m rs xs (length qs) p0 bounds z0 z1 rate Ha Hl Hi Hd Hall) as (st & E1 & K). exists st. split; [exact E1|]. intros i Hlt. destruct (K i Hlt) as (a & a2 & K1 & K2 & K3 & K4). exists a, a2. split; [exact K1|]. split; [exact K2|].
  intros t p Hp. split; [|intros p2 Hp2]; unfold turned; cbn [fold_right snd]; rewrite Rplus_0_r; [rewrite Hp; exact K3|rewrite Hp2; exact K4].
Qed.
Print Assumptions C70_rabi.
(** One qubit at half a turn for amplitude 1; the fit knows the amplitude and the
    phase of the curve, and looks for frequencies up to 1. *)
Definition ex_exp (k : nat) (x : R) : iqexp := {| q_name := sched_name "rabisched_" k; q_slots := 1; q_return := str "avg"; q_level := 1; q_shots := 100; q_memory := Averaged [RtoC x] |}.
Definition ex_rs : list iqresult := [[ex_exp 0 0; ex_exp 1 (1 / 2); ex_exp 2 1]]%R.
Definition ex_xs : list R := [0; 1 / 2; 1]%R.
Definition ex_bounds : list R * list R := ([- (1 / 2); 0; 0; - (1)], [- (1 / 2); 1; 0; 1])%R.
Lemma ex_averaged : averaged_results 1 ex_rs.
Proof. intros r [<-|[]]. split; [cbn; repeat constructor; cbn; intuition discriminate|]. intros e [<-|[<-|[<-|[]]]]; unfold averaged; cbn; (repeat split; try lia); eexists; split; reflexivity. Qed.
Lemma ex_prob_0 : rabi_prob (1 / 2) 0 = 0%R. Proof. unfold rabi_prob. rewrite Rmult_0_r, cos_0. field. Qed.
Lemma ex_prob_h : rabi_prob (1 / 2) (1 / 2) = (1 / 2)%R. Proof. unfold rabi_prob. replace (2 * PI * (1 / 2) * (1 / 2))%R with (PI / 2)%R by field. rewrite cos_PI2. field. Qed.
Lemma ex_prob_1 : rabi_prob (1 / 2) 1 = 1%R. Proof. unfold rabi_prob. replace (2 * PI * (1 / 2) * 1)%R with PI by field. rewrite cos_PI. field. Qed.
Lemma ex_determined : determined osc_nodecay_fun ex_xs ex_bounds.
Proof.
  intros ps ps' [H1 H2] [H1' H2'] E. unfold ex_bounds in *. cbn [fst snd] in *.
  repeat match goal with H : Forall2 _ (_ :: _) _ |- _ => inversion H; clear H; subst | H : Forall2 _ [] _ |- _ => inversion H; clear H; subst | H : Forall2 _ _ (_ :: _) |- _ => inversion H; clear H; subst | H : Forall2 _ _ [] |- _ => inversion H; clear H; subst end.
  pose proof (E 0%R (or_introl eq_refl)) as E0. pose proof (E (1 / 2)%R (or_intror (or_introl eq_refl))) as Eh. unfold osc_nodecay_fun, osc_nodecay_fit in E0, Eh.
  match goal with |- [?a; ?f; ?ph; ?c] = [?a'; ?f'; ?ph'; ?c'] => assert (a = - (1 / 2))%R by lra; assert (a' = - (1 / 2))%R by lra; assert (ph = 0%R) by lra; assert (ph' = 0%R) by lra; subst a a' ph ph'; rewrite !Rmult_0_r, !Rplus_0_r in E0; assert (c = c') by lra; subst c';
    assert (F : cos (2 * PI * f * (1 / 2)) = cos (2 * PI * f' * (1 / 2))) by (rewrite !Rplus_0_r in Eh; lra) end.
  pose proof PI_RGT_0. apply cos_inj in F; [|nra|nra]. assert (2 * PI * (1 / 2) <> 0)%R by lra. do 2 f_equal. nra.
Qed.
Lemma ex_gain : gain (Cminus (RtoC 1) (RtoC 0)) = 1%R.
Proof. replace (Cminus (RtoC 1) (RtoC 0)) with (RtoC 1) by ring. unfold gain. rewrite Cmod_R. unfold Re, Im, RtoC. cbn [fst snd]. rewrite Rabs_R1. field. Qed.
Lemma ex_mean : rmean (map (rabi_prob (1 / 2)) ex_xs) = (1 / 2)%R.
Proof. unfold ex_xs. cbn [map]. rewrite ex_prob_0, ex_prob_h, ex_prob_1. unfold rmean. cbn. field. Qed.
Definition ex_cf (f : R -> list R -> R) (xs ys es p0 : list R) (b : list R * list R) : result (list R * list R) := Ok (p0, []).
Lemma ex_curve : rabi_curve (Cminus (RtoC 1) (RtoC 0)) (1 / 2) ex_xs = [- 1 / 2; 1 / 2; 0; 0]%R.
Proof. unfold rabi_curve. rewrite ex_gain, ex_mean. repeat f_equal. ring. Qed.
Lemma ex_in : in_bounds ex_bounds [- 1 / 2; 1 / 2; 0; 0]%R.
Proof. split; unfold ex_bounds; cbn [fst snd]; repeat first [apply Forall2_nil|apply Forall2_cons; [lra|]]. Qed.
Example C70_rabi_example : exists ss, rabi_schedules ex_measure ex_drives ex_xs [0] 8 None 4 = Ok (ss, ex_xs) /\ runs_of ss (map ex_d [0]) ex_rs (fun _ => RtoC 0) (fun _ => RtoC 1) (fun _ => turns (1 / 2)) /\
  exists st, rabi_fit ex_cf ex_rs ex_xs 1 [- 1 / 2; 1 / 2; 0; 0]%R ex_bounds = Ok st /\ exists a a2, pi_amplitude st 1 0 = Ok a /\ pi2_amplitude st 1 0 = Ok a2 /\ forall t p, p_amp p = a -> turned (1 / 2) [(t, p)] = PI /\ forall p2, p_amp p2 = a2 -> turned (1 / 2) [(t, p2)] = (PI / 2)%R.
Proof.
  assert (A : channels_apart ex_drives ex_d [0] [(0, Acquire 10 [(str "m", 0)])]) by (apply (ex_apart [0]); [repeat constructor; intros []|intros q [<-|[]]; lia]).
  assert (S : exists sg, sigma_of None 8 4 = Ok sg). { unfold sigma_of. destruct (Req_EM_T 4 0); [lra|]. eauto. } destruct S as (sg & S).
  destruct (C70_rabi_schedules ex_measure ex_drives ex_d [0] _ A eq_refl ex_xs 8 None 4%R sg S) as (ss & E & L & K). exists ss. split; [exact E|].
  assert (Hr : runs_of ss (map ex_d [0]) ex_rs (fun _ => RtoC 0) (fun _ => RtoC 1) (fun _ => turns (1 / 2))).
  { intros s Hs. apply In_nth_error in Hs. destruct Hs as (k & Hk). assert (Hlt : k < length ss) by (apply nth_error_Some; congruence). rewrite L in Hlt. cbn in Hlt.
    assert (T : forall a p, p_amp p = a -> turns (1 / 2) [(0, p)] = rabi_prob (1 / 2) a) by (intros a p <-; unfold turns, turned, rabi_prob; cbn [fold_right snd]; rewrite Rplus_0_r; reflexivity).
    assert (P : forall x, nth_error ex_xs k = Some x -> forall e, In e (concat ex_rs) -> q_name e = s_name s -> point e 0 = RtoC (rabi_prob (1 / 2) x) -> forall i ch, nth_error (map ex_d [0]) i = Some ch -> let p := turns (1 / 2) (pulses_of (s_ins s) ch) in point e i = Cplus (Cmult (RtoC (1 - p)) (RtoC 0)) (Cmult (RtoC p) (RtoC 1))).
    { intros x Hx e He En Hp i ch Hi. destruct i as [|[|i]]; try discriminate. injection Hi as <-. destruct (K k x Hx) as (s' & Hs' & _ & Hpl & _). rewrite Hk in Hs'. injection Hs' as <-. cbv zeta. change (str "d", 0) with (ex_d 0). rewrite (Hpl 0 (or_introl eq_refl)). rewrite (T x) by reflexivity. rewrite Hp. ring. }
    destruct (nth_error ex_xs k) as [x|] eqn:Ex; [|apply nth_error_None in Ex; cbn in Ex; lia]. destruct (K k x Ex) as (s' & Hs' & Hname & _). rewrite Hk in Hs'. injection Hs' as <-. rewrite Hname in *.
    assert (k = 0 \/ k = 1 \/ k = 2) as [->|[->| ->]] by lia; injection Ex as <-.
    - split; [eexists; split; [left; reflexivity|reflexivity]|]. intros e He En. apply (P 0%R eq_refl e He En). destruct He as [<-|[<-|[<-|[]]]]; try discriminate En. rewrite ex_prob_0. reflexivity.
    - split; [eexists; split; [right; left; reflexivity|reflexivity]|]. intros e He En. apply (P (1 / 2)%R eq_refl e He En). destruct He as [<-|[<-|[<-|[]]]]; try discriminate En. rewrite ex_prob_h. reflexivity.
    - split; [eexists; split; [right; right; left; reflexivity|reflexivity]|]. intros e He En. apply (P 1%R eq_refl e He En). destruct He as [<-|[<-|[<-|[]]]]; try discriminate En. rewrite ex_prob_1. reflexivity. }
  split; [exact Hr|]. destruct (C70_rabi ex_measure ex_drives ex_d [0] _ A eq_refl ex_xs 8 None 4%R ss ex_xs E ex_cf 1 ex_rs [- 1 / 2; 1 / 2; 0; 0]%R ex_bounds _ _ _ Hr ex_averaged (le_n 1) ex_determined) as (st & E1 & K1).
  - intros i _. split; [intros Z; apply (f_equal fst) in Z; cbn [fst RtoC] in Z; lra|]. split; [exists 0%R, 1%R; split; [left; reflexivity|]; split; [right; right; left; reflexivity|]; rewrite ex_prob_0, ex_prob_1; lra|]. rewrite ex_curve. split; [exact ex_in|].
    exists [- 1 / 2; 1 / 2; 0; 0]%R, []. split; [reflexivity|]. split; [exact ex_in|]. intros ps' _. apply Rle_trans with 0%R; [|apply misfit_nonneg]. apply (misfit_zero _ _ _ (fun x => gain (Cminus (RtoC 1) (RtoC 0)) * (rabi_prob (1 / 2) x - rmean (map (rabi_prob (1 / 2)) ex_xs)))%R). intros x _. rewrite <- ex_curve. apply rabi_exact.
  - exists st. split; [exact E1|]. exact (K1 0 (le_n 1)).
Qed.

(** From the DRAG schedules to the [beta]: when the probability of 1 after a pulse and
    its reverse is a parabola in [beta], the fit finds its vertex, with a free choice
    of three or more values of [beta]. *)
Theorem C70_drag : forall measure drives d qs mm, channels_apart drives d qs mm -> measure qs = Ok mm -> forall betas amps w sigma ratio sg ss xs, length amps = length qs -> sigma_of sigma w ratio = Ok sg ->
  drag_schedules measure drives betas qs amps w sigma ratio = Ok (ss, xs) ->
  forall cf m rs p0 bounds z0 z1 prob a beta0 c, runs_of ss (map d qs) rs z0 z1 prob -> (forall i, i < length qs -> drag_law w (nth i amps 0%R) sg (a i) (beta0 i) (c i) (prob i)) ->
  averaged_results m rs -> length qs <= m -> (exists x1 x2 x3, In x1 xs /\ In x2 xs /\ In x3 xs /\ x1 <> x2 /\ x1 <> x3 /\ x2 <> x3) ->
  (forall i, i < length qs -> a i <> 0%R /\ gain (Cminus (z1 i) (z0 i)) <> 0%R /\ in_bounds bounds (drag_curve (Cminus (z1 i) (z0 i)) (a i) (beta0 i) (c i) xs) /\
     least_squares cf quadratic_fun xs (iq_signal (Cminus (z1 i) (z0 i)) (drag_prob (a i) (beta0 i) (c i)) xs) (error_bars xs) p0 bounds) ->
  exists st, drag_fit cf rs xs (length qs) p0 bounds = Ok st /\ forall i, i < length qs -> drag_amplitude st i = Ok (beta0 i).
Proof.
  intros measure drives d qs mm Hc Hm betas amps w sigma ratio sg ss xs Hl Hs E cf m rs p0 bounds z0 z1 prob a b c Hr Hp Ha Hle Hx Hall.
  destruct (drag_measured measure drives d qs mm Hc Hm betas amps w sigma ratio sg ss xs rs z0 z1 a b c prob Hl Hs E Hr Hp) as [_ Hi].
  exact (drag_amplitudes cf m rs xs (length qs) p0 bounds z0 z1 a b c Ha Hle Hi Hx Hall).
Qed.
Print Assumptions C70_drag.
(** A parabola with vertex 2 seen through the points 0 and 1. *)
Example C70_drag_example : let prob := fun l => match l with [(_, p); _] => match p_beta p with Some b => drag_prob (/ 10) 2 (1 / 5) b | None => 0%R end | _ => 0%R end in
  drag_law 8 1 2 (/ 10) 2 (1 / 5) prob /\ gain (Cminus (RtoC 1) (RtoC 0)) <> 0%R /\ in_bounds ([- (1); - (9); - (1)], [1; 9; 1])%R (drag_curve (Cminus (RtoC 1) (RtoC 0)) (/ 10) 2 (1 / 5) [1; 2; 3]%R) /\ (exists x1 x2 x3, In x1 [1; 2; 3]%R /\ In x2 [1; 2; 3]%R /\ In x3 [1; 2; 3]%R /\ x1 <> x2 /\ x1 <> x3 /\ x2 <> x3).
Proof.
  split; [|split; [|split]].
  - intros p p' b _ _ _ _ _ _ Hb _. rewrite Hb. reflexivity.
  - rewrite ex_gain. lra.
  - unfold drag_curve. rewrite ex_gain. assert (E : rmean (map (drag_prob (/ 10) 2 (1 / 5)) [1; 2; 3]%R) = (1 / 15 + 1 / 5)%R) by (unfold rmean, drag_prob; cbn [map fold_left length INR]; field). rewrite E. split; cbn [fst snd]; repeat first [apply Forall2_nil|apply Forall2_cons; [lra|]].
  - exists 1%R, 2%R, 3%R. repeat split; try lra; cbn; auto.
Qed.

(** ** The gates U2 and U3 *)

(** What [update_u_gates] writes: with a pulse that is a quarter turn about X, the
    schedules of the qubits are U2 and U3 for all angles, however the instructions of
    the same time are ordered; the shifts of the phase are made on the drive channel
    and on the channels that the old schedule shifted together with it, and on no
    others; everything else stays. *)
Theorem C70_update : forall so drag_params drives qs m m', (forall gs g, In g (so gs) <-> In g gs) -> NoDup qs -> update_u_gates so drag_params None qs drives m = Ok m' ->
  (forall k, (forall q, In q qs -> k <> (str "u2", q) /\ k <> (str "u3", q)) -> dget m' k = dget m k) /\
  forall q, In q qs -> exists drive p old2 old3 g2 g3 new2 new3, nth_error drives q = Some drive /\ nth_error drag_params q = Some p /\
    dget m (str "u2", q) = Some old2 /\ dget m (str "u3", q) = Some old3 /\ dget m' (str "u2", q) = Some new2 /\ dget m' (str "u3", q) = Some new3 /\
    e_params new2 = [str "P0"; str "P1"] /\ e_params new3 = [str "P0"; str "P1"; str "P2"] /\
    in_frame (e_sched old2 (fun _ => 0%R)) drive g2 /\ in_frame (e_sched old3 (fun _ => 0%R)) drive g3 /\
    (shifts_once (e_sched old2 (fun _ => 0%R)) ->
      (forall v ch, shifts_of (e_sched new2 v) ch = if mem ch g2 then shifts_of (e_sched new2 v) drive else []) /\
      forall turn, (forall i j, turn p i j = x90 i j) -> p_duration p > 0 -> forall v l, happens (e_sched new2 v) l -> same_up_to_phase (drive_gate turn drive l) (u2_mat (v (str "P0")) (v (str "P1")))) /\
    (shifts_once (e_sched old3 (fun _ => 0%R)) ->
      (forall v ch, shifts_of (e_sched new3 v) ch = if mem ch g3 then shifts_of (e_sched new3 v) drive else []) /\
      forall turn, (forall i j, turn p i j = x90 i j) -> p_duration p > 0 -> forall v l, happens (e_sched new3 v) l -> same_up_to_phase (drive_gate turn drive l) (u3_mat (v (str "P0")) (v (str "P1")) (v (str "P2")))).
Proof.
  intros so dp drives qs m m' Hso Hn E. destruct (update_inv so dp drives qs m m' Hn E) as [H1 H2]. split; [exact H1|]. intros q Hq. destruct (H2 q Hq) as (drive & p & e2 & e3 & K1 & K2 & K3 & K4 & K5 & K6).
  destruct (group_in_frame so (e_sched e2 (fun _ => 0%R)) drive Hso) as [F2 I2]. destruct (group_in_frame so (e_sched e3 (fun _ => 0%R)) drive Hso) as [F3 I3].
  exists drive, p, e2, e3. eexists _, _, _, _. split; [exact K1|]. split; [exact K2|]. split; [exact K3|]. split; [exact K4|]. split; [exact K5|]. split; [exact K6|]. split; [reflexivity|]. split; [reflexivity|]. split; [exact F2|]. split; [exact F3|]. split.
  - intros Ho. pose proof (group_nodup so _ drive Hso Ho) as N. split.
    + intros v ch. rewrite !shifts_u2 by exact N. rewrite (proj2 (mem_In drive _) I2). reflexivity.
    + intros turn Ht Hd v l Hl. exact (u2_schedule turn p drive Ht Hd _ v l N I2 Hl).
  - intros Ho. pose proof (group_nodup so _ drive Hso Ho) as N. split.
    + intros v ch. rewrite !shifts_u3 by exact N. rewrite (proj2 (mem_In drive _) I3). reflexivity.
    + intros turn Ht Hd v l Hl. exact (u3_schedule turn p drive Ht Hd _ v l N I3 Hl).
Qed.
Print Assumptions C70_update.
(** It does not fail when the gates are there. *)
Theorem C70_update_ok : forall so drag_params drives qs m, (forall q, In q qs -> q < length drives /\ q < length drag_params /\ (exists e, dget m (str "u2", q) = Some e) /\ exists e, dget m (str "u3", q) = Some e) ->
  exists m', update_u_gates so drag_params None qs drives m = Ok m'.
Proof. exact update_total. Qed.
Print Assumptions C70_update_ok.
(** A control channel "u1" in the frame of "d0". *)
Definition ex_old (k : nat) : pentry := {| e_params := [str "P0"; str "P1"]; e_sched := fun v => [(0, ShiftPhase (- v (str "P1")) (str "d", 0)); (0, ShiftPhase (- v (str "P1")) (str "u", 1)); (k, ShiftPhase (- v (str "P0")) (str "d", 0)); (k, ShiftPhase (- v (str "P0")) (str "u", 1))] |}.
Definition ex_map : instmap := [((str "u2", 0), ex_old 160); ((str "u3", 0), ex_old 320); ((str "u3", 1), ex_old 5)].
Definition ex_pulse : pulse := {| p_duration := 160; p_amp := 1 / 5; p_sigma := 40; p_beta := Some 1%R; p_label := str "x90" |}.
Lemma eqb_true (a b : chan) : eqb a b = true -> a = b.
Proof. destruct (eqb_spec a b); [auto|discriminate]. Qed.
Example C70_update_example : exists m', update_u_gates (fun l => l) [ex_pulse] None [0] ex_drives ex_map = Ok m' /\ shifts_once (e_sched (ex_old 160) (fun _ => 0%R)) /\ dget m' (str "u3", 1) = Some (ex_old 5) /\
  exists new2, dget m' (str "u2", 0) = Some new2 /\ (forall v, shifts_of (e_sched new2 v) (str "u", 1) = shifts_of (e_sched new2 v) (str "d", 0)) /\
  forall v l, happens (e_sched new2 v) l -> same_up_to_phase (drive_gate (fun _ => x90) (str "d", 0) l) (u2_mat (v (str "P0")) (v (str "P1"))).
Proof.
  destruct (C70_update_ok (fun l => l) [ex_pulse] ex_drives [0] ex_map) as (m' & E). { intros q [<-|[]]. cbn. repeat split; try lia; eexists; reflexivity. }
  exists m'. split; [exact E|]. assert (O : shifts_once (e_sched (ex_old 160) (fun _ => 0%R))).
  { intros ch. unfold shifts_of, ex_old. cbn [e_sched flat_map snd fst]. destruct (eqb ((str "d", 0) : chan) ch) eqn:E1; destruct (eqb ((str "u", 1) : chan) ch) eqn:E2; cbn [app].
    - pose proof (eqb_true _ _ E1) as Z1. pose proof (eqb_true _ _ E2) as Z2. rewrite <- Z1 in Z2. discriminate Z2.
    - constructor; [intros [Z|[]]; discriminate Z|constructor; [intros []|constructor]].
    - constructor; [intros [Z|[]]; discriminate Z|constructor; [intros []|constructor]].
    - constructor. }
  split; [exact O|]. destruct (C70_update (fun l => l) [ex_pulse] ex_drives [0] ex_map m' (fun gs g => iff_refl _)) as [H1 H2]; [repeat constructor; intros []|exact E|]. split.
  - rewrite H1; [reflexivity|]. intros q [<-|[]]. split; discriminate.
  - destruct (H2 0 (or_introl eq_refl)) as (drive & p & o2 & o3 & g2 & g3 & n2 & n3 & K1 & K2 & K3 & _ & K5 & _ & _ & _ & F2 & _ & G2 & _). injection K1 as <-. injection K2 as <-. injection K3 as <-. exists n2. split; [exact K5|]. destruct (G2 O) as [G3 G4]. split.
    + intros v. rewrite G3. assert (In (str "u", 1) g2) as I. { destruct F2 as [(t & ph & F & G)|[F _]]; [|exfalso; apply (F 0 (- 0)%R); left; reflexivity]. apply G. unfold shifted in *. cbn in F |- *. destruct F as [F|[F|[F|[F|[]]]]]; injection F as <- <-; auto. }
      rewrite (proj2 (mem_In _ _) I). reflexivity.
    + apply (G4 (fun _ => x90)); [reflexivity|cbn; lia].
Qed.
(** Updating again with other pulses moves the phases of the same channels. *)
Theorem C70_update_again : forall so dp dp' drives qs m m' m'', (forall gs g, In g (so gs) <-> In g gs) -> NoDup qs -> update_u_gates so dp None qs drives m = Ok m' -> update_u_gates so dp' None qs drives m' = Ok m'' ->
  forall q, In q qs -> (forall p, nth_error dp q = Some p -> p_duration p > 0) -> forall gate, (gate = str "u2" \/ gate = str "u3") -> forall old new new', dget m (gate, q) = Some old -> shifts_once (e_sched old (fun _ => 0%R)) -> dget m' (gate, q) = Some new -> dget m'' (gate, q) = Some new' ->
  forall v ch, shifts_of (e_sched new' v) ch <> [] <-> shifts_of (e_sched new v) ch <> [].
Proof.
  intros so dp dp' drives qs m m' m'' Hso Hn E E' q Hq Hd gate Hg old new new' D D1 D2 D3 v ch. destruct (update_inv so dp drives qs m m' Hn E) as [_ H]. destruct (update_inv so dp' drives qs m' m'' Hn E') as [_ H'].
  destruct (H q Hq) as (drive & p & e2 & e3 & K1 & K2 & K3 & K4 & K5 & K6). destruct (H' q Hq) as (drive' & p' & e2' & e3' & K1' & K2' & K3' & K4' & K5' & K6'). rewrite K1 in K1'. injection K1' as <-. specialize (Hd p K2).
  destruct Hg as [->| ->].
  - rewrite K3 in D. injection D as <-. rewrite K5 in D2, K3'. injection D2 as <-. injection K3' as <-. rewrite K5' in D3. injection D3 as <-. pose proof (group_nodup so _ drive Hso D1) as N. destruct (group_in_frame so (e_sched e2 (fun _ => 0%R)) drive Hso) as [_ I]. set (g := group_of (so (distinct_groups (map snd (synced (e_sched e2 (fun _ => 0%R)))))) drive) in *.
    assert (O : shifts_once (e_sched (u2_entry [(0, Play p drive)] g) (fun _ => 0%R))). { intros c. rewrite shifts_u2 by exact N. destruct (mem c g); [|constructor]. constructor; [intros [Z|[]]; injection Z as Z _; lia|constructor; [intros []|constructor]]. }
    pose proof (group_nodup so _ drive Hso O) as N'. destruct (group_in_frame so (e_sched (u2_entry [(0, Play p drive)] g) (fun _ => 0%R)) drive Hso) as [F _]. pose proof (new_frame2 p drive g _ N I F ch) as W. rewrite !shifts_u2 by assumption. rewrite <- !mem_In in W. destruct (mem ch g), (mem ch (group_of _ drive)); intuition discriminate.
  - rewrite K4 in D. injection D as <-. rewrite K6 in D2, K4'. injection D2 as <-. injection K4' as <-. rewrite K6' in D3. injection D3 as <-. pose proof (group_nodup so _ drive Hso D1) as N. destruct (group_in_frame so (e_sched e3 (fun _ => 0%R)) drive Hso) as [_ I]. set (g := group_of (so (distinct_groups (map snd (synced (e_sched e3 (fun _ => 0%R)))))) drive) in *.
    assert (O : shifts_once (e_sched (u3_entry [(0, Play p drive)] g) (fun _ => 0%R))). { intros c. rewrite shifts_u3 by exact N. destruct (mem c g); [|constructor]. constructor; [intros [Z|[Z|[]]]; injection Z as Z _; lia|constructor; [intros [Z|[]]; injection Z as Z _; lia|constructor; [intros []|constructor]]]. }
    pose proof (group_nodup so _ drive Hso O) as N'. destruct (group_in_frame so (e_sched (u3_entry [(0, Play p drive)] g) (fun _ => 0%R)) drive Hso) as [F _]. pose proof (new_frame3 p drive g _ N I F ch) as W. rewrite !shifts_u3 by assumption. rewrite <- !mem_In in W. destruct (mem ch g), (mem ch (group_of _ drive)); intuition discriminate.
Qed.
Print Assumptions C70_update_again.
Example C70_update_again_example : exists m' m'', update_u_gates (fun l => l) [ex_pulse] None [0] ex_drives ex_map = Ok m' /\ update_u_gates (fun l => l) [ex_pulse] None [0] ex_drives m' = Ok m''.
Proof.
  destruct (C70_update_ok (fun l => l) [ex_pulse] ex_drives [0] ex_map) as (m' & E). { intros q [<-|[]]. cbn. repeat split; try lia; eexists; reflexivity. }
  exists m'. destruct (C70_update_ok (fun l => l) [ex_pulse] ex_drives [0] m') as (m'' & E'); [|eauto]. destruct (C70_update (fun l => l) [ex_pulse] ex_drives [0] ex_map m' (fun gs g => iff_refl _)) as [_ H2]; [repeat constructor; intros []|exact E|].
  intros q [<-|[]]. destruct (H2 0 (or_introl eq_refl)) as (drive & p & o2 & o3 & g2 & g3 & n2 & n3 & _ & _ & _ & _ & K5 & K6 & _). cbn [length ex_drives]. repeat split; [lia|lia|eauto|eauto].
Qed.
