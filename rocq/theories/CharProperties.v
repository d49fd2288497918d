(** Properties C53, C54 and C63: the experiments of
    qiskit/ignis/characterization. *)
From Coq Require Import QArith Qreals Reals Lra.
From Coquelicot Require Import Coquelicot.
From Verif Require Import LinAlg Base PyStr QSem DihedralModel RBSeqModel RBSeqSpec StdGates AccSpec EntSpec CtmpSpec CountsModel MeasCalModel
  CharModel CharSpec CharIdealProofs CharCalProofs CharDataProofs CharEndProofs CharFitProofs.
Local Open Scope string_scope.
Local Open Scope list_scope.
Local Open Scope nat_scope.

(** * C53: the coherence experiments without noise *)

(** T1: every circuit leaves every measured qubit in 1, whatever the detuning
    [omega] during the waiting time; exact data are fitted from ones. *)
Theorem C53_t1 : forall gmat omega, char_gates gmat omega -> forall N lens gate_time qs, qs <> [] -> qubits_ok N qs ->
  exists circs xs, t1_circuits lens gate_time qs = Ok (circs, xs) /\ length circs = length lens /\ xs = map (fun l => gate_time * inject_Z (Z.of_nat l))%Q lens /\
  (forall c, In c circs -> outcome_law gmat N qs (cbody c) (certain true)) /\
  forall rs, exact_runs gmat N (length qs) rs circs -> exists ys, calc_data (t1_fitter (length xs) (length qs) rs) = Ok ys /\
    forall j i, j < length qs -> i < length lens -> mean_is ys 0 j i 1.
Proof. exact t1_summary. Qed.
Print Assumptions C53_t1.

(** T2 echoes: the detuning [omega] is cancelled for every length and number of
    echoes.  The outcome is 0, the state the fitter counts, when the number of Y
    pulses is odd, and 1 otherwise. *)
Theorem C53_t2_partial : forall gmat omega, char_gates gmat omega -> forall N lens gate_time qs n_echos alt, qs <> [] -> qubits_ok N qs -> (1 <= n_echos)%Z ->
  exists circs xs, t2_circuits lens gate_time qs n_echos alt = Ok (circs, xs) /\ length circs = length lens /\ length xs = length lens /\
  (forall i len, nth_error lens i = Some len -> exists x, nth_error xs i = Some x /\ (x == 2 * gate_time * inject_Z (Z.of_nat len) * inject_Z n_echos)%Q) /\
  (forall c, In c circs -> outcome_law gmat N qs (cbody c) (certain (Nat.even (if alt then 1 + (Z.to_nat n_echos - 1) / 2 else Z.to_nat n_echos)))) /\
  forall rs, exact_runs gmat N (length qs) rs circs -> exists ys, calc_data (t2_fitter (length xs) (length qs) rs) = Ok ys /\
    forall j i, j < length qs -> i < length lens -> mean_is ys 0 j i (if Nat.even (if alt then 1 + (Z.to_nat n_echos - 1) / 2 else Z.to_nat n_echos) then 0 else 1).
Proof. exact t2_summary. Qed.
Print Assumptions C53_t2_partial.

(** With two echoes (two Y pulses) perfect gates give data 0:
    the fitter counts the wrong outcome. *)
Theorem C53_t2_refuted : exists gmat, char_gates gmat 0 /\ exists N lens gate_time qs circs xs, qubits_ok N qs /\
  t2_circuits lens gate_time qs 2 false = Ok (circs, xs) /\ circs <> [] /\
  forall rs, exact_runs gmat N (length qs) rs circs -> exists ys, calc_data (t2_fitter (length xs) (length qs) rs) = Ok ys /\ mean_is ys 0 0 0 0.
Proof.
  exists (chargate 0). split; [apply chargate_ok|]. exists 1, [1], 1%Q, [0].
  destruct (t2_summary (chargate 0) 0 (chargate_ok 0) 1 [1] 1%Q [0] 2 false) as (circs & xs & E & Lc & Lx & _ & _ & H); [discriminate| |lia|].
  - split; [constructor; [intros []|constructor]|repeat constructor].
  - exists circs, xs. split; [split; [constructor; [intros []|constructor]|repeat constructor]|]. split; [exact E|]. split; [destruct circs; discriminate|].
    intros rs Hr. destruct (H rs Hr) as (ys & Ey & Hy). exists ys. split; [exact Ey|]. exact (Hy 0 0 (le_n 1) (le_n 1)).
Qed.
Print Assumptions C53_t2_refuted.

(** No echo: refused. *)
Theorem C53_t2_refused : forall lens gate_time qs n_echos alt, (n_echos < 1)%Z -> t2_circuits lens gate_time qs n_echos alt = Err ValueError.
Proof. intros lens g qs n alt H. unfold t2_circuits. destruct (Z.ltb_spec n 1); [reflexivity|lia]. Qed.
Print Assumptions C53_t2_refused.

(** T2*: with a frequency offset [df] the exact data are the fitted curve at the
    frequency the function returns plus [df], with amplitude and offset 1/2 and
    phase 0; the last delay has [nosc] artificial oscillations. *)
Theorem C53_t2star : forall gmat df N lens gate_time qs nosc, char_gates gmat (2 * PI * df * Q2R gate_time) -> qs <> [] -> qubits_ok N qs -> lens <> [] -> ~ (gate_time == 0)%Q -> last lens 0 <> 0 ->
  exists circs xs f, t2star_circuits lens gate_time qs nosc = Ok (circs, xs, f) /\ length circs = length lens /\ xs = map (fun l => gate_time * inject_Z (Z.of_nat l))%Q lens /\
  (f * last xs 0 == nosc)%Q /\
  (forall i c x, nth_error circs i = Some c -> nth_error xs i = Some x -> outcome_law gmat N qs (cbody c) (bernoulli (1 - osc_nodecay_fit (Q2R x) (1/2) (Q2R f + df) 0 (1/2)))) /\
  forall rs, exact_runs gmat N (length qs) rs circs -> exists ys, calc_data (t2star_fitter (length xs) (length qs) rs) = Ok ys /\
    forall j i x, j < length qs -> nth_error xs i = Some x -> mean_is ys 0 j i (osc_nodecay_fit (Q2R x) (1/2) (Q2R f + df) 0 (1/2)).
Proof. exact t2star_summary. Qed.
Print Assumptions C53_t2star.

(** Without oscillation and offset every circuit gives 0. *)
Theorem C53_t2star_still : forall gmat N lens gate_time qs, char_gates gmat 0 -> qs <> [] -> qubits_ok N qs -> lens <> [] -> ~ (gate_time == 0)%Q -> last lens 0 <> 0 ->
  exists circs xs f, t2star_circuits lens gate_time qs 0 = Ok (circs, xs, f) /\ forall c, In c circs -> outcome_law gmat N qs (cbody c) (certain false).
Proof.
  intros gmat N lens g qs G Hq Hok Hne Hg Hl.
  assert (G' : char_gates gmat (2 * PI * 0 * Q2R g)) by (replace (2 * PI * 0 * Q2R g)%R with 0%R by ring; exact G).
  destruct (t2star_summary gmat 0 N lens g qs 0 G' Hq Hok Hne Hg Hl) as (circs & xs & f & E & Lc & Ex & Hf & H & _).
  exists circs, xs, f. split; [exact E|]. intros c Hc. apply In_nth_error in Hc. destruct Hc as [i Hi].
  assert (Hlt : i < length lens) by (rewrite <- Lc; apply nth_error_Some; congruence).
  destruct (nth_error xs i) as [x|] eqn:Hx; [|apply nth_error_None in Hx; rewrite Ex, map_length in Hx; lia].
  refine (law_ext gmat N qs _ _ _ _ (H i c x Hi Hx)).
  assert (Ef : Q2R f = 0%R).
  { replace 0%R with (Q2R 0) by (unfold Q2R; cbn; field). apply Qeq_eqR. apply Qmult_integral in Hf. destruct Hf as [Hf|Hf]; [exact Hf|].
    destruct (last_nonzero g lens Hne Hg Hl) as (xl & _ & E1 & E2). subst xs. unfold delays in E1. rewrite E1 in Hf. destruct (E2 Hf). }
  intros o. unfold osc_nodecay_fit. rewrite Ef. replace (2 * PI * (0 + 0) * Q2R x + 0)%R with 0%R by ring. rewrite cos_0. destruct o; unfold bernoulli, certain; cbn; field.
Qed.
Print Assumptions C53_t2star_still.

(** ZZ: with as many spectators, all qubits distinct, both series are the same
    Ramsey experiment when flipping the spectators changes nothing, so that no
    coupling is fitted. *)
Theorem C53_zz : forall gmat df N lens gate_time qs specs nosc, char_gates gmat (2 * PI * df * Q2R gate_time) -> qs <> [] -> length specs = length qs -> qubits_ok N (qs ++ specs) ->
  lens <> [] -> ~ (gate_time == 0)%Q -> last lens 0 <> 0 ->
  exists circs xs f, zz_circuits lens gate_time qs specs nosc = Ok (circs, xs, f) /\ length circs = 2 * length lens /\ xs = map (fun l => gate_time * inject_Z (Z.of_nat l))%Q lens /\
  (f * last xs 0 == nosc)%Q /\
  forall rs, exact_runs gmat N (length qs) rs circs -> exists ys, calc_data (zz_fitter (length xs) (length qs) rs) = Ok ys /\
    forall si j i x, si < 2 -> j < length qs -> nth_error xs i = Some x -> mean_is ys si j i (osc_nodecay_fit (Q2R x) (1/2) (Q2R f + df) 0 (1/2)).
Proof. exact zz_summary. Qed.
Print Assumptions C53_zz.

(** The gates used are what the hypotheses ask for, for every detuning. *)
Example C53_gates : forall omega, char_gates (chargate omega) omega.
Proof. exact chargate_ok. Qed.
Example C53_circuit : t1_circuits [1] (1 # 10) [2; 0] =
  Ok ([{| cname := str "t1circuit_0_0"; cbody := [gate1 "x" [] 2; CBarrier [2]; gate1 "id" [] 2; CBarrier [2]; gate1 "x" [] 0; CBarrier [0]; gate1 "id" [] 0; CBarrier [0];
        CBarrier [0; 1; 2]; CMeasure 2 0; CMeasure 0 1] |}], [(1 # 10)%Q]).
Proof. vm_compute. reflexivity. Qed.
Definition e53_rs : list qresult := [[{| e_name := str "t1circuit_0_0"; e_counts := [(str "1", 60%Z)] |}; {| e_name := str "t1circuit_1_0"; e_counts := [(str "1", 7%Z)] |}];
  [{| e_name := str "t1circuit_0_0"; e_counts := [(str "1", 40%Z)] |}]].
Lemma e53_valid : valid_run e53_rs (str "t1circuit_0_0") 1 /\ valid_run e53_rs (str "t1circuit_1_0") 1.
Proof.
  split; (split; [|reflexivity]); intros r c [<-|[<-|[]]] E; vm_compute in E; try discriminate; injection E as <-;
    (split; [constructor; [intros []|constructor]|]); repeat constructor; auto; discriminate.
Qed.
Example C53_exact : forall circs xs, t1_circuits [0; 3] (1 # 10) [1] = Ok (circs, xs) -> exact_runs (chargate 0) 2 1 e53_rs circs.
Proof.
  destruct (t1_summary (chargate 0) 0 (chargate_ok 0) 2 [0; 3] (1 # 10) [1]) as (circs & xs & E & _ & _ & H & _); [discriminate| |].
  { split; [constructor; [intros []|constructor]|repeat constructor]. }
  intros circs' xs' E'. rewrite E in E'. injection E' as <- <-. unfold t1_circuits in E. cbn [maxq fold_left bind series_circuits length seq combine map fst snd] in E. injection E as <- <-.
  intros c Hc. pose proof (H c Hc) as L.
  assert (K : valid_run e53_rs (cname c) 1 /\ forall os : list bool, length os = 1 -> IZR (pooled e53_rs (cname c) (fun k => eqb k (key_of os))) = (IZR (pooled e53_rs (cname c) (fun _ => true)) * (if nth 0 os false then 1 else 0))%R).
  { destruct e53_valid as [V1 V2]. destruct Hc as [<-|[<-|[]]]; (split; [assumption|]); intros os Hl; (destruct os as [|[|] [|]]); try discriminate Hl; cbv [nth];
      match goal with |- IZR ?x = _ => let v := eval vm_compute in x in change x with v end;
      match goal with |- _ = (IZR ?x * _)%R => let v := eval vm_compute in x in change x with v end; ring. }
  destruct K as [K1 K2]. split; [exact K1|]. split; [exact (proj2 K1)|]. intros os Hos. rewrite (K2 os Hos).
  f_equal. symmetry. etransitivity; [exact (L os Hos)|]. destruct os as [|[|] [|]]; try discriminate Hos; cbn; unfold certain; cbn; ring.
Qed.

(** * C54: the data of a fitter *)

(** After any additions of results: the point of a series, qubit and x value is
    the fraction of the shots of that circuit, over all results together, that
    ended in the expected state; it is between 0 and 1 and its error bar is
    positive. *)
Theorem C54_data : forall f0 calls m (o : bool), f_expected f0 = str (if o then "1" else "0") -> f_nq f0 <= m -> f_npts f0 <= length (f_names f0) ->
  let rs := f_results f0 ++ concat calls in
  (forall s i n, In s (f_series f0) -> i < f_npts f0 -> nth_error (f_names f0) i = Some n -> valid_run rs (n ++ s) m) ->
  exists ys, calc_data (fold_left add_results calls f0) = Ok ys /\ length ys = length (f_series f0) /\
  forall si s j i n, nth_error (f_series f0) si = Some s -> j < f_nq f0 -> i < f_npts f0 -> nth_error (f_names f0) i = Some n ->
  exists qs pts p e, nth_error ys si = Some (s, qs) /\ nth_error qs j = Some pts /\ nth_error pts i = Some (p, e) /\ length qs = f_nq f0 /\ length pts = f_npts f0 /\
    let total := pooled rs (n ++ s) (fun _ => true) in
    (p == inject_Z (pooled rs (n ++ s) (bit_is j o)) / inject_Z total)%Q /\ (0 <= p <= 1)%Q /\ error_bar p total e.
Proof.
  intros f0 calls m o He Hq Hn rs Hv. destruct (add_results_all calls f0) as (A1 & A2 & A3 & A4 & A5 & A6).
  assert (He' : f_expected (fold_left add_results calls f0) = [bitch o]) by (rewrite A4, He; destruct o; reflexivity).
  pose proof (calc_lemma (fold_left add_results calls f0) m o He') as H. rewrite A1, A2, A3, A5, A6 in H. exact (H Hq Hn Hv).
Qed.
Print Assumptions C54_data.

(** The order and the grouping of the results do not matter for the fractions. *)
Theorem C54_order : forall rs rs' name ok, Permutation.Permutation rs rs' -> pooled rs name ok = pooled rs' name ok.
Proof.
  intros rs rs' name ok H. unfold pooled. induction H; cbn [map fold_right]; lia.
Qed.
Print Assumptions C54_order.

(** A circuit no result has: no data at all (StopIteration in the code). *)
Theorem C54_missing : forall f s i n, In s (f_series f) -> i < f_npts f -> nth_error (f_names f) i = Some n -> 0 < f_nq f ->
  (forall r, In r (f_results f) -> exists e, get_counts r (n ++ s) = Err e) -> forall ys, calc_data f <> Ok ys.
Proof.
  intros f s i n Hs Hi Hn Hq Hr. apply (calc_missing f s i n Hs Hi Hn Hq). unfold found. clear -Hr. induction (f_results f) as [|r rs IH]; [reflexivity|].
  cbn [flat_map]. destruct (Hr r (or_introl eq_refl)) as [e E]. rewrite E. cbn [app]. apply IH. intros r' H. apply Hr. right. exact H.
Qed.
Print Assumptions C54_missing.

(** Pooling 60 + 40 shots of two results, on a two-bit experiment. *)
Definition e54_r1 : qresult := [{| e_name := str "t1circuit_0_0"; e_counts := [(str "01", 45%Z); (str "10", 15%Z)] |}].
Definition e54_r2 : qresult := [{| e_name := str "t1circuit_0_0"; e_counts := [(str "11", 40%Z)] |}].
Definition means (r : result (list (pystr * list (list (Q * R))))) : result (list (list (list Q))) :=
  match r with Ok ys => Ok (map (fun sq => map (map fst) (snd sq)) ys) | Err e => Err e end.
Example C54_case : calc_data (fold_left add_results [[e54_r2]] (t1_fitter 1 2 [e54_r1])) <> Err StopIteration /\
  means (calc_data (fold_left add_results [[e54_r2]] (t1_fitter 1 2 [e54_r1]))) = Ok [[[(85 # 100)%Q]; [(55 # 100)%Q]]].
Proof. split; [discriminate|]. reflexivity. Qed.
Example C54_case_valid : valid_run [e54_r1; e54_r2] (str "t1circuit_0_0") 2.
Proof.
  split; [|reflexivity]. intros r c [<-|[<-|[]]] E; vm_compute in E; injection E as <-; (split; [|repeat constructor; auto; discriminate]);
    repeat (constructor; [cbn; intros H; repeat destruct H as [H|H]; try discriminate; auto|]); constructor.
Qed.

(** * C63: calibration experiments produce the curve that is fitted *)

(** Amplitude calibration: pulses that turn too far by [e] give the fitted curve
    with parameter [e] and offset 1/2. *)
Theorem C63_ampcal : forall gmat e tx ax tc ac N max_reps qs, cal_gates gmat (PI / 2 + e) tx ax tc ac -> qs <> [] -> qubits_ok N qs ->
  exists circs xs, ampcal_1Q_circuits max_reps qs = Ok (circs, xs) /\ length circs = max_reps /\ xs = map (fun k => 2 * k) (seq 0 max_reps) /\
  (forall i c, nth_error circs i = Some c -> outcome_law gmat N qs (cbody c) (bernoulli (amp_cal_fit (INR (2 * i)) e (1 / 2)))) /\
  forall rs, exact_runs gmat N (length qs) rs circs -> exists ys, calc_data (ampcal_fitter (length xs) (length qs) rs) = Ok ys /\
    forall j i x, j < length qs -> nth_error xs i = Some x -> mean_is ys 0 j i (amp_cal_fit (INR x) e (1 / 2)).
Proof. exact ampcal_summary. Qed.
Print Assumptions C63_ampcal.

(** Angle calibration: an x pulse whose axis is off by [ax] gives the fitted curve
    with parameter [ax], when no artificial error is put in. *)
Theorem C63_anglecal : forall gmat ax tc ac N max_reps qs, cal_gates gmat (PI / 2) (PI / 2) ax tc ac -> qs <> [] -> qubits_ok N qs ->
  exists circs xs, anglecal_1Q_circuits max_reps qs 0 = Ok (circs, xs) /\ length circs = max_reps /\ xs = map (fun k => 2 * k) (seq 0 max_reps) /\
  (forall i c, nth_error circs i = Some c -> outcome_law gmat N qs (cbody c) (bernoulli (angle_cal_fit (INR (2 * i)) ax (1 / 2)))) /\
  forall rs, exact_runs gmat N (length qs) rs circs -> exists ys, calc_data (anglecal_fitter (length xs) (length qs) rs) = Ok ys /\
    forall j i, j < length qs -> i < max_reps -> mean_is ys 0 j i (angle_cal_fit (INR (2 * i)) ax (1 / 2)).
Proof.
  intros gmat ax tc ac N reps qs G Hq Hok. destruct (anglecal_summary gmat ax tc ac N reps qs 0%Q G Hq Hok) as (circs & xs & E & L & Ex & H & K).
  exists circs, xs. split; [exact E|]. split; [exact L|]. split; [exact Ex|]. split.
  - intros i c Hi. rewrite <- anglecal_fit_eq. exact (H i c Hi).
  - intros rs Hr. destruct (K rs Hr) as (ys & Ey & Hy). exists ys. split; [exact Ey|]. intros j i Hj Hi. rewrite <- anglecal_fit_eq. exact (Hy j i Hj Hi).
Qed.
Print Assumptions C63_anglecal.

(** With an artificial error [err] the data are another curve ... *)
Theorem C63_anglecal_artificial : forall gmat ax tc ac N max_reps qs err, cal_gates gmat (PI / 2) (PI / 2) ax tc ac -> qs <> [] -> qubits_ok N qs ->
  exists circs xs, anglecal_1Q_circuits max_reps qs err = Ok (circs, xs) /\ length circs = max_reps /\ xs = map (fun k => 2 * k) (seq 0 max_reps) /\
  (forall i c, nth_error circs i = Some c -> outcome_law gmat N qs (cbody c) (bernoulli ((1 + sin (INR i * PI + (2 * INR i + 1) * ax + (4 * INR i + 1) * (PI * Q2R err))) / 2))) /\
  forall rs, exact_runs gmat N (length qs) rs circs -> exists ys, calc_data (anglecal_fitter (length xs) (length qs) rs) = Ok ys /\
    forall j i, j < length qs -> i < max_reps -> mean_is ys 0 j i ((1 + sin (INR i * PI + (2 * INR i + 1) * ax + (4 * INR i + 1) * (PI * Q2R err))) / 2).
Proof. exact anglecal_summary. Qed.
Print Assumptions C63_anglecal_artificial.

(** ... which the fitted function cannot follow: perfect gates, an artificial
    error of pi/6 and three circuits have no parameters at all that fit. *)
Theorem C63_anglecal_refuted : exists gmat N qs circs xs, cal_gates gmat (PI / 2) (PI / 2) 0 PI 0 /\ qubits_ok N qs /\ anglecal_1Q_circuits 3 qs (1 # 6) = Ok (circs, xs) /\
  forall thetaerr c, ~ forall i circuit, nth_error circs i = Some circuit -> outcome_law gmat N qs (cbody circuit) (bernoulli (angle_cal_fit (INR (2 * i)) thetaerr c)).
Proof.
  exists (calgate (PI / 2) (PI / 2) 0 PI 0), 1, [0].
  assert (Hok : qubits_ok 1 [0]) by (split; [constructor; [intros []|constructor]|repeat constructor]).
  destruct (anglecal_summary _ 0 PI 0 1 3 [0] (1 # 6) (calgate_ok (PI / 2) (PI / 2) 0 PI 0) ltac:(discriminate) Hok) as (circs & xs & E & L & _ & H & _).
  exists circs, xs. split; [apply calgate_ok|]. split; [exact Hok|]. split; [exact E|]. intros th c K. apply (no_angle_fit th c). intros i Hi.
  destruct (nth_error circs i) as [ci|] eqn:Ei; [|apply nth_error_None in Ei; lia].
  pose proof (H i ci Ei [true] eq_refl) as H1. pose proof (K i ci Ei [true] eq_refl) as K1. rewrite K1 in H1. cbn [fold_right bernoulli] in H1. lra.
Qed.
Print Assumptions C63_anglecal_refuted.

(** The same for the two-qubit gate: [e] is the amplitude error of cx, ... *)
Theorem C63_ampcx : forall gmat ty e N max_reps qs cs, cal_gates gmat ty (PI / 2) 0 (PI + e) 0 -> qs <> [] -> length cs = length qs -> qubits_ok N (qs ++ cs) ->
  exists circs xs, ampcal_cx_circuits max_reps qs cs = Ok (circs, xs) /\ length circs = max_reps /\ xs = seq 0 max_reps /\
  (forall i c, nth_error circs i = Some c -> outcome_law gmat N qs (cbody c) (bernoulli (amp_calcx_fit (INR i) e (1 / 2)))) /\
  forall rs, exact_runs gmat N (length qs) rs circs -> exists ys, calc_data (ampcalcx_fitter (length xs) (length qs) rs) = Ok ys /\
    forall j i, j < length qs -> i < max_reps -> mean_is ys 0 j i (amp_calcx_fit (INR i) e (1 / 2)).
Proof. exact ampcx_summary. Qed.
Print Assumptions C63_ampcx.

(** ... and [ac] its angle error, with the artificial error [err] added; the
    reported angle error, half the fitted parameter, is their sum. *)
Theorem C63_anglecx : forall gmat ac N max_reps qs cs err, cal_gates gmat (PI / 2) (PI / 2) 0 PI ac -> qs <> [] -> length cs = length qs -> qubits_ok N (qs ++ cs) ->
  exists thetaerr, angle_err thetaerr = (ac + PI * Q2R err)%R /\
  exists circs xs, anglecal_cx_circuits max_reps qs cs err = Ok (circs, xs) /\ length circs = max_reps /\ xs = seq 0 max_reps /\
  (forall i c, nth_error circs i = Some c -> outcome_law gmat N qs (cbody c) (bernoulli (angle_calcx_fit (INR i) thetaerr (1 / 2)))) /\
  forall rs, exact_runs gmat N (length qs) rs circs -> exists ys, calc_data (anglecalcx_fitter (length xs) (length qs) rs) = Ok ys /\
    forall j i, j < length qs -> i < max_reps -> mean_is ys 0 j i (angle_calcx_fit (INR i) thetaerr (1 / 2)).
Proof.
  intros. exists (2 * (ac + PI * Q2R err))%R. split; [unfold angle_err; field|]. apply anglecx_summary; assumption.
Qed.
Print Assumptions C63_anglecx.

(** Which lists of controls are accepted: a list that is too short is noticed
    only if there is a circuit to build, and controls beyond the last qubit
    change nothing. *)
Theorem C63_controls : forall max_reps qs cs err,
  let accepted r := exists circs, r = Ok (circs, seq 0 max_reps) /\ length circs = max_reps in
  let outcome r := ((qs = [] \/ cs = []) -> r = Err ValueError) /\
    (qs <> [] -> cs <> [] -> length cs < length qs -> 0 < max_reps -> r = Err IndexError) /\
    (qs <> [] -> cs <> [] -> length qs <= length cs \/ max_reps = 0 -> accepted r) in
  outcome (ampcal_cx_circuits max_reps qs cs) /\ outcome (anglecal_cx_circuits max_reps qs cs err) /\
  forall more, length cs = length qs -> ampcal_cx_circuits max_reps qs (cs ++ more) = ampcal_cx_circuits max_reps qs cs /\
    anglecal_cx_circuits max_reps qs (cs ++ more) err = anglecal_cx_circuits max_reps qs cs err.
Proof.
  intros max_reps qs cs err accepted outcome. split; [|split].
  - exact (cx_outcome _ _ _ _ _).
  - exact (cx_outcome _ _ _ _ _).
  - intros more L. split; apply cx_more; exact L.
Qed.
Print Assumptions C63_controls.
Example C63_case_controls : ampcal_cx_circuits 2 [0; 2] [1] = Err IndexError /\ ampcal_cx_circuits 0 [0; 2] [1] = Ok ([], []) /\
  exists circs, ampcal_cx_circuits 2 [0; 2] [1; 3; 4] = Ok (circs, [0; 1]).
Proof. repeat split; try reflexivity. eexists. reflexivity. Qed.

(** Gates with any errors exist, and those without errors are the gates named. *)
Example C63_gates : forall ty tx ax tc ac, cal_gates (calgate ty tx ax tc ac) ty tx ax tc ac.
Proof. exact calgate_ok. Qed.
Example C63_ideal : forall a b, u2c 0 0 a b = rot (PI / 2) (PI / 2) a b /\ u2c (- / 2) (/ 2) a b = rot (PI / 2) 0 a b /\
  (if xorb a b then RtoC 1 else RtoC 0) = Cmult Ci (rot PI 0 a b).
Proof. intros a b. destruct (u2_is_rot a b). pose proof (cx_is_rot a b). auto. Qed.
Definition e63_rs : list qresult := [[{| e_name := str "ampcal1Qcircuit_0_0"; e_counts := [(str "0", 5%Z); (str "1", 5%Z)] |}]].
Example C63_exact : forall circs xs, ampcal_1Q_circuits 1 [0] = Ok (circs, xs) -> exact_runs (calgate (PI / 2 + 0) 0 0 0 0) 1 1 e63_rs circs.
Proof.
  assert (Hok : qubits_ok 1 [0]) by (split; [constructor; [intros []|constructor]|repeat constructor]).
  destruct (ampcal_summary _ 0 0 0 0 0 1 1 [0] (calgate_ok _ _ _ _ _) ltac:(discriminate) Hok) as (circs & xs & E & _ & _ & H & _).
  intros circs' xs' E'. rewrite E in E'. injection E' as <- <-. unfold ampcal_1Q_circuits in E. cbn [maxq fold_left bind series_circuits length seq combine map fst snd] in E. injection E as <- <-.
  intros c [<-|[]]. specialize (H 0 _ eq_refl). assert (V : valid_run e63_rs (str "ampcal1Qcircuit_0_0") 1).
  { split; [|reflexivity]. intros r c [<-|[]] E. vm_compute in E. injection E as <-. split; [|repeat constructor; auto; discriminate].
    repeat (constructor; [cbn; intros Q; repeat destruct Q as [Q|Q]; try discriminate; auto|]); constructor. }
  split; [exact V|]. split; [reflexivity|]. intros os Hos. etransitivity; [|apply f_equal; symmetry; exact (H os Hos)].
  assert (Ef : amp_cal_fit (INR (2 * 0)) 0 (1 / 2) = (1 / 2)%R).
  { unfold amp_cal_fit, cal_fit. change (INR (2 * 0)) with 0%R. replace ((PI / 2 + 0) * 0 + PI / 2 + 0)%R with (PI / 2)%R by ring. rewrite cos_PI2. ring. }
  destruct os as [|[|] [|]]; try discriminate Hos; cbn [fold_right]; rewrite Ef; unfold bernoulli;
    match goal with |- IZR ?x = _ => let v := eval vm_compute in x in change x with v end;
    match goal with |- _ = (IZR ?x * _)%R => let v := eval vm_compute in x in change x with v end; field.
Qed.
