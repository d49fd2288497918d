(** Further theorems on claims C34, C43, C52, C64, C68 and C70. *)
From Coq Require Import QArith Reals Lra Lia.
From Coquelicot Require Import Coquelicot.
From Verif Require Import LinAlg Base PyStr ResultFacts QVModel CharModel CharEstModel PulseModel PulseSpec PulseSchedProofs CalSpec CalProofs GstOptModel CtmpModel LogModel LogSpec SuppProofs SuppLogProofs.
Local Open Scope string_scope.
Local Open Scope list_scope.
Local Open Scope nat_scope.

(** The volume reported for a depth is the number of outcomes of that many bits. *)
Theorem C43_volume (f : qv) : Forall2 (fun d v => exists l : list (list bool), NoDup l /\ (forall s, In s l <-> length s = d) /\ v = Z.of_nat (length l)) (v_depths f) (quantum_volume f).
Proof. exact (volumes f). Qed.
Print Assumptions C43_volume.
Example C43_volume_example : forall f, v_depths f = [3; 5] -> quantum_volume f = [8%Z; 32%Z].
Proof. intros f H. unfold quantum_volume. rewrite H. reflexivity. Qed.

(** A given width is used as it is; without one, the duration is the ratio times the
    width, and a ratio of 0 is an error. *)
Theorem C70_width s w r : sigma_of (Some s) w r = Ok s /\ (r <> 0%R -> exists s', sigma_of None w r = Ok s' /\ (s' * r = INR w)%R) /\ sigma_of None w 0 = Err ZeroDivisionError.
Proof. exact (conj (sigma_given s w r) (conj (sigma_ratio w r) (sigma_zero w))). Qed.
Print Assumptions C70_width.
(** For the schedules. *)
Theorem C70_rabi_width measure drives d qs m amps w sigma ratio : channels_apart drives d qs m -> measure qs = Ok m -> ratio <> 0%R ->
  exists ss, rabi_schedules measure drives amps qs w sigma ratio = Ok (ss, amps) /\ length ss = length amps /\
  forall s q t p, In s ss -> In q qs -> In (t, p) (pulses_of (s_ins s) (d q)) -> match sigma with Some sg => p_sigma p = sg | None => (p_sigma p * ratio = INR w)%R end.
Proof.
  intros Hd Hm Hr. destruct (sigma_ratio w ratio Hr) as (s0 & E0 & H0).
  assert (E : exists sg, sigma_of sigma w ratio = Ok sg /\ match sigma with Some s => sg = s | None => (sg * ratio = INR w)%R end) by (destruct sigma as [s|]; [exists s; auto|exists s0; auto]). destruct E as (sg & Es & Hs).
  destruct (rabi_schedules_ok measure drives d qs m Hd Hm amps w sigma ratio sg Es) as (ss & E & L & K). exists ss. split; [exact E|]. split; [exact L|]. intros s q t p Hi Hq Hp.
  apply In_nth_error in Hi. destruct Hi as (k & Hk). assert (Hl : k < length amps) by (rewrite <- L; apply nth_error_Some; congruence). destruct (nth_error amps k) as [a|] eqn:Ea; [|apply nth_error_None in Ea; lia].
  destruct (K k a Ea) as (s' & Hs' & _ & P & _). rewrite Hk in Hs'. injection Hs' as <-. rewrite (P q Hq) in Hp. destruct Hp as [Z|[]]. injection Z as _ <-. cbn [p_sigma]. exact Hs.
Qed.
Print Assumptions C70_rabi_width.
Example C70_width_example : exists s, sigma_of None 160 4 = Ok s /\ s = 40%R.
Proof. destruct (sigma_ratio 160 4 ltac:(lra)) as (s & E & H). exists s. split; [exact E|]. rewrite INR_IZR_INZ in H. cbn in H. lra. Qed.

(** Half-turn schedules that play one pulse each have the effect of passing the
    pulses ([C70_update] then tells what the gates do) ... *)
Theorem C70_given_pulses so dp l dp' drives qs m : (forall q, In q qs -> exists p ch, nth_error drives q = Some ch /\ nth_error dp' q = Some p /\ nth_error l q = Some [(0, Play p ch)]) ->
  update_u_gates so dp (Some l) qs drives m = update_u_gates so dp' None qs drives m.
Proof. exact (given_pulses so dp l dp' drives qs m). Qed.
Print Assumptions C70_given_pulses.
(** ... and whatever they play, u2 plays it once and u3 twice in a row. *)
Theorem C70_given_plays so dp l drives qs m m' : NoDup qs -> update_u_gates so dp (Some l) qs drives m = Ok m' -> forall q, In q qs ->
  exists s new2 new3, nth_error l q = Some s /\ dget m' (str "u2", q) = Some new2 /\ dget m' (str "u3", q) = Some new3 /\ forall v ch,
    pulses_of (e_sched new2 v) ch = pulses_of s ch /\
    pulses_of (e_sched new3 v) ch = pulses_of s ch ++ map (fun tp => (duration s + fst tp, snd tp)) (pulses_of s ch).
Proof. exact (given_plays so dp l drives qs m m'). Qed.
Print Assumptions C70_given_plays.
Definition given_sched : timed := [(0, Play {| p_duration := 16; p_amp := 1; p_sigma := 4; p_beta := None; p_label := [] |} (str "d", 0))].
Definition given_map : instmap := [((str "u2", 0), {| e_params := []; e_sched := fun _ => [] |}); ((str "u3", 0), {| e_params := []; e_sched := fun _ => [] |})].
Example C70_given_example : exists m' new3, update_u_gates (fun g => g) [] (Some [given_sched]) [0] [(str "d", 0)] given_map = Ok m' /\ dget m' (str "u3", 0) = Some new3 /\
  map fst (pulses_of (e_sched new3 (fun _ => 0%R)) (str "d", 0)) = [0; 16].
Proof. eexists _, _. split; [reflexivity|]. split; [reflexivity|]. reflexivity. Qed.

(** The root used for the factor of a Choi matrix is the principal root of every
    complex number. *)
Theorem C64_root (z : C) : Cmult (np_csqrt z) (np_csqrt z) = z /\ (0 <= fst (np_csqrt z))%R.
Proof. exact (csqrt_ok z). Qed.
Print Assumptions C64_root.

(** The time of a coherence fitter is parameter 1 of the fit, its error the square
    root of the variance of that parameter. *)
Theorem C68_time (X Y : Type) cf f (xs : list X) p0 b0 (ydata : dict pystr (list (list (Y * R)))) st nq s q l pts ps var T w :
  (exists ls, dget (g_params st) s = Some ls /\ length ls = nq) -> (exists ls, dget (g_errs st) s = Some ls /\ length ls = nq) -> q < nq ->
  dget ydata s = Some l -> nth_error l q = Some pts -> cf f xs (map fst pts) (map snd pts) p0 b0 = Ok (ps, var) -> nth_error ps 1 = Some T -> nth_error var 1 = Some w ->
  exists st', fit_data cf f xs p0 b0 [s] nq ydata st (Some q) None None None = Ok st' /\ fit_time st' q s = Ok T /\ fit_time_err st' q s = Ok (sqrt w).
Proof.
  intros (lp & Ep & Lp) (le & Ee & Le) Hq Ed En Ec H1 H2. unfold fit_data. cbn [flat_map map app foldM]. unfold fit_one, get_at at 1. rewrite Ed, (index_ok l q pts En). cbn [bind]. rewrite Ec. cbn [bind fst snd]. unfold set_at. rewrite Ep, Ee, Lp, Le, (proj2 (Nat.ltb_lt q nq) Hq). cbn [bind].
  eexists. split; [reflexivity|]. assert (N : forall A (ls : list A) v, q < length ls -> nth_error (list_set ls q v) q = Some v). { clear. intros A ls. revert q. induction ls as [|a ls IH]; intros [|q] v H; cbn in *; try lia; [reflexivity|]. apply IH. lia. }
  unfold fit_time, fit_time_err, get_param, get_at. cbn [g_params g_errs]. rewrite !dget_dset, !eqb_refl.
  rewrite (index_ok _ q ps (N _ lp ps ltac:(lia))), (index_ok _ q (map sqrt var) (N _ le (map sqrt var) ltac:(lia))). cbn [bind]. split; apply index_ok; [exact H1|]. rewrite nth_error_map, H2. reflexivity.
Qed.
Print Assumptions C68_time.
Example C68_time_example : exists st', fit_data (X := nat) (Y := nat) (fun _ _ _ _ _ _ => Ok ([1; 30; 0]%R, [1; 4; 9]%R)) (fun x _ => x) [] [] ([], []) [str "0"] 1 [(str "0", [[]])] (no_fit [str "0"] 1) (Some 0) None None None = Ok st' /\
  fit_time st' 0 (str "0") = Ok 30%R /\ fit_time_err st' 0 (str "0") = Ok (sqrt 4).
Proof. eexists. split; [reflexivity|]. split; reflexivity. Qed.

(** No standard generators of no qubits. *)
Theorem C34_no_qubits pairs : standard_generator_set 0 pairs = Err ValueError.
Proof. reflexivity. Qed.
Print Assumptions C34_no_qubits.

(** Without file logging, nothing is written or printed, and every logger that logs
    warns just once ... *)
Theorem C52_disabled cfg fs ops : c_enabled cfg = false -> (forall o, In o ops -> match o with OEnable _ => False | _ => True end) -> exists s names, run cfg (fresh fs) ops = Ok s /\ s_fs s = fs /\ s_console s = [] /\
  NoDup names /\ (forall n, In n names <-> exists t kvs, In (OLog n t kvs) ops) /\ length (s_warnings s) = length names.
Proof. intros Hc Ho. apply quiet_run; [exact Hc|]. intros o Hi He. specialize (Ho o Hi). destruct o; contradiction. Qed.
Print Assumptions C52_disabled.
(** ... and the warning mentions a missing configuration file. *)
Theorem C52_warning cfg fs n t kvs logs : c_enabled cfg = false ->
  exists s, run cfg (fresh fs) (OGet n :: OLog n t kvs :: map (fun tk => OLog n (fst tk) (snd tk)) logs) = Ok s /\
    s_warnings s = [str "File logging is disabled" ++ if c_exists cfg then [] else str ": no config file"].
Proof. exact (one_warning cfg fs n t kvs logs). Qed.
Print Assumptions C52_warning.
(** Without a configuration file, file logging is off. *)
Theorem C52_no_file : exists cfg, initialize None = Ok cfg /\ c_enabled cfg = false /\ c_exists cfg = false /\ c_file cfg = str "ignis.log" /\ c_max cfg = 0 /\ c_rot cfg = 0.
Proof. eexists. split; [vm_compute; reflexivity|]. repeat split. Qed.
Print Assumptions C52_no_file.
