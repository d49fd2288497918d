(** Model of the circuits and fitters of [qiskit/ignis/characterization]:
    characterization_utils.py, coherence/circuits.py, hamiltonian/circuits.py,
    gates/circuits.py, and of the data handling and fit functions of fitters.py,
    coherence/fitters.py, hamiltonian/fitters.py and gates/fitters.py.

    Simplifications.  Delays and angles are exact: delays are rationals, the
    parameters of U1 and U2 gates and the artificial angle errors are given in
    units of pi as rationals.  numpy's division by a zero last delay (a warning
    and nan in numpy) is the total division of Q; the properties exclude it.
    Qubit indices and gate numbers are natural numbers.  The barriers keep
    their places.  scipy's curve_fit is not modelled; plots are not modelled. *)
From Coq Require Import QArith Reals.
From Verif Require Import Base PyStr DihedralModel RBSeqModel CountsModel MeasCalModel.
Local Open Scope string_scope.
Local Open Scope list_scope.
Local Open Scope nat_scope.

(** One gate on one qubit, or on two. *)
Definition gate1 (name : string) (ps : list Q) (q : nat) : cinstr := CGate {| gname := str name; gparams := ps; gqubits := [q] |}.
Definition gate2 (name : string) (c t : nat) : cinstr := CGate {| gname := str name; gparams := []; gqubits := [c; t] |}.

(** [body] repeated [k] times. *)
Definition times (k : nat) (body : list cinstr) : list cinstr := concat (repeat body k).

(** characterization_utils.py:20-45 [pad_id_gates]. *)
Definition pad_id (q k : nat) : list cinstr := times k [CBarrier [q]; gate1 "id" [] q] ++ [CBarrier [q]].

(** [max(qubits) + 1]: the empty list raises ValueError. *)
Definition maxq (qs : list nat) : result nat :=
  match qs with [] => Err ValueError | q :: qs' => Ok (fold_left Nat.max qs' q) end.

(** The measurements that end every circuit: [qubits[qind]] into bit [qind]. *)
Definition measure_list (qs : list nat) : list cinstr := map (fun qc => CMeasure (fst qc) (snd qc)) (combine qs (seq 0 (length qs))).

(** [name + str(circ_index) + '_' + series]. *)
Definition char_name (base : string) (i : nat) (series : string) : pystr := str base ++ dec i ++ str "_" ++ str series.

(** The circuits of one series, one for every element of [num_of_gates]. *)
Definition series_circuits (base series : string) (lens : list nat) (body : nat -> nat -> list cinstr) : list circ :=
  map (fun il => {| cname := char_name base (fst il) series; cbody := body (fst il) (snd il) |})
      (combine (seq 0 (length lens)) lens).

(** [gate_time * np.array(num_of_gates)]. *)
Definition delays (gate_time : Q) (lens : list nat) : list Q := map (fun l => (gate_time * inject_Z (Z.of_nat l))%Q) lens.
(** [xdata[-1]]. *)
Definition last_delay (xdata : list Q) : result Q := match rev xdata with [] => Err IndexError | x :: _ => Ok x end.

(** ** coherence/circuits.py *)

(** 26-66 [t1_circuits]. *)
Definition t1_body (qs : list nat) (n len : nat) : list cinstr :=
  flat_map (fun q => gate1 "x" [] q :: pad_id q len) qs ++ [CBarrier (seq 0 n)] ++ measure_list qs.
Definition t1_circuits (lens : list nat) (gate_time : Q) (qs : list nat) : result (list circ * list Q) :=
  do m <- maxq qs;
  Ok (series_circuits "t1circuit_" "0" lens (fun _ len => t1_body qs (m + 1) len), delays gate_time lens).

(** 69-118 [t2star_circuits]. *)
Definition ramsey (q len : nat) (phase : Q) : list cinstr :=
  gate1 "h" [] q :: pad_id q len ++ [gate1 "u1" [phase] q; gate1 "h" [] q].
Definition t2star_body (qs : list nat) (n len : nat) (phase : Q) : list cinstr :=
  flat_map (fun q => ramsey q len phase) qs ++ [CBarrier (seq 0 n)] ++ measure_list qs.
Definition t2star_circuits (lens : list nat) (gate_time : Q) (qs : list nat) (nosc : Q) : result (list circ * list Q * Q) :=
  let xdata := delays gate_time lens in
  do m <- maxq qs;
  do xl <- last_delay xdata;
  let osc_freq := (nosc / xl)%Q in
  Ok (series_circuits "t2starcircuit_" "0" lens
        (fun i len => t2star_body qs (m + 1) len (2 * osc_freq * nth i xdata 0)%Q), xdata, osc_freq).

(** 121-187 [t2_circuits]. *)
Definition echo_gate (alt : bool) (echoid q : nat) : cinstr :=
  if alt && (echoid mod 2 =? 0) then gate1 "x" [] q else gate1 "y" [] q.
Definition echo (q len n_echos : nat) (alt : bool) : list cinstr :=
  gate1 "u2" [0%Q; 0%Q] q :: pad_id q len ++ [gate1 "y" [] q] ++
  flat_map (fun echoid => pad_id q (2 * len) ++ [echo_gate alt echoid q]) (seq 0 (n_echos - 1)) ++
  pad_id q len ++ [gate1 "u2" [0%Q; 0%Q] q].
Definition t2_body (qs : list nat) (n len n_echos : nat) (alt : bool) : list cinstr :=
  flat_map (fun q => echo q len n_echos alt) qs ++ [CBarrier (seq 0 n)] ++ measure_list qs.
Definition t2_circuits (lens : list nat) (gate_time : Q) (qs : list nat) (n_echos : Z) (alt : bool) : result (list circ * list Q) :=
  if (n_echos <? 1)%Z then Err ValueError
  else
    do m <- maxq qs;
    Ok (series_circuits "t2circuit_" "0" lens (fun _ len => t2_body qs (m + 1) len (Z.to_nat n_echos) alt),
        map (fun l => (2 * gate_time * inject_Z (Z.of_nat l) * inject_Z n_echos)%Q) lens).

(** ** hamiltonian/circuits.py:26-92 [zz_circuits]; [num_of_gates] is a numpy
    array here, with a list the product with [gate_time] raises. *)
Definition zz_body (qs specs : list nat) (n len : nat) (phase : Q) (qflip : bool) : list cinstr :=
  (if qflip then map (fun s => gate1 "x" [] s) specs else []) ++ [CBarrier (seq 0 n)] ++
  flat_map (fun q => ramsey q len phase) qs ++ [CBarrier (seq 0 n)] ++ measure_list qs.
Definition zz_circuits (lens : list nat) (gate_time : Q) (qs specs : list nat) (nosc : Q) : result (list circ * list Q * Q) :=
  if negb (length qs =? length specs) then Err ValueError
  else if existsb (fun q => mem q specs) qs then Err ValueError
  else
    let xdata := delays gate_time lens in
    do mq <- maxq qs;
    do ms <- maxq specs;
    do xl <- last_delay xdata;
    let osc_freq := (nosc / xl)%Q in
    let n := Nat.max mq ms + 1 in
    let body qflip := fun i len => zz_body qs specs n len (2 * osc_freq * nth i xdata 0)%Q qflip in
    Ok (series_circuits "zzcircuit_" "0" lens (body false) ++ series_circuits "zzcircuit_" "1" lens (body true), xdata, osc_freq).

(** ** gates/circuits.py *)
Definition y90 (q : nat) : cinstr := gate1 "u2" [0%Q; 0%Q] q.
Definition x90 (q : nat) : cinstr := gate1 "u2" [(-1 # 2)%Q; (1 # 2)%Q] q.
(** [if angleerr != 0: circ.append(U1Gate(k*angleerr), ...)]. *)
Definition u1_err (angleerr k : Q) (q : nat) : list cinstr :=
  if Qeq_bool angleerr 0 then [] else [gate1 "u1" [(k * angleerr)%Q] q].

(** 25-67 [ampcal_1Q_circuits]. *)
Definition ampcal_1Q_body (qs : list nat) (x : nat) : list cinstr :=
  flat_map (fun q => y90 q :: times x [CBarrier [q]; y90 q]) qs ++ measure_list qs.
Definition ampcal_1Q_circuits (max_reps : nat) (qs : list nat) : result (list circ * list nat) :=
  let xdata := map (fun k => k * 2) (seq 0 max_reps) in
  do m <- maxq qs;
  Ok (series_circuits "ampcal1Qcircuit_" "0" xdata (fun _ x => ampcal_1Q_body qs x), xdata).

(** 70-126 [anglecal_1Q_circuits]. *)
Definition anglecal_1Q_body (qs : list nat) (reps : nat) (angleerr : Q) : list cinstr :=
  flat_map (fun q =>
    y90 q ::
    times reps (u1_err angleerr (-2) q ++ times 2 [CBarrier [q]; x90 q] ++ u1_err angleerr 2 q ++ times 2 [CBarrier [q]; y90 q]) ++
    u1_err angleerr (-1) q ++ [x90 q]) qs ++ measure_list qs.
Definition anglecal_1Q_circuits (max_reps : nat) (qs : list nat) (angleerr : Q) : result (list circ * list nat) :=
  do m <- maxq qs;
  Ok (series_circuits "anglecal1Qcircuit_" "0" (seq 0 max_reps) (fun _ reps => anglecal_1Q_body qs reps angleerr),
      map (fun k => k * 2) (seq 0 max_reps)).

(** 129-183 [ampcal_cx_circuits]; [control_qubits[qind]] may raise IndexError. *)
Definition ampcal_cx_body (qcs : list (nat * nat)) (reps : nat) : list cinstr :=
  flat_map (fun qc => let (q, c) := (qc : nat * nat) in
    gate1 "x" [] c :: x90 q :: times reps [CBarrier [c; q]; gate2 "cx" c q]) qcs ++ measure_list (map fst qcs).
Definition anglecal_cx_body (qcs : list (nat * nat)) (reps : nat) (angleerr : Q) : list cinstr :=
  flat_map (fun qc => let (q, c) := (qc : nat * nat) in
    gate1 "x" [] c :: y90 q ::
    times reps (u1_err angleerr (-1) q ++ [CBarrier [c; q]; gate2 "cx" c q] ++ u1_err angleerr 1 q ++ [gate1 "y" [] q]) ++
    [x90 q]) qcs ++ measure_list (map fst qcs).
(** The circuits are built one after the other, so that a missing control qubit
    is noticed only if there is a circuit to build. *)
Definition cx_circuits (base : string) (max_reps : nat) (qs cs : list nat) (body : list (nat * nat) -> nat -> list cinstr) : result (list circ * list nat) :=
  let xdata := seq 0 max_reps in
  do mq <- maxq qs;
  do mc <- maxq cs;
  if (length cs <? length qs) && (0 <? max_reps) then Err IndexError
  else Ok (series_circuits base "0" xdata (fun _ reps => body (combine qs cs) reps), xdata).
Definition ampcal_cx_circuits (max_reps : nat) (qs cs : list nat) : result (list circ * list nat) :=
  cx_circuits "ampcalcxcircuit_" max_reps qs cs ampcal_cx_body.
(** 186-243 [anglecal_cx_circuits]. *)
Definition anglecal_cx_circuits (max_reps : nat) (qs cs : list nat) (angleerr : Q) : result (list circ * list nat) :=
  cx_circuits "anglecalcxcircuit_" max_reps qs cs (fun qcs reps => anglecal_cx_body qcs reps angleerr).

(** ** fitters.py: the data *)
Record fitter := {
  f_names : list pystr;        (* _circuit_names *)
  f_series : list pystr;       (* _series *)
  f_expected : pystr;          (* _expected_state *)
  f_nq : nat;                  (* len(_qubits) *)
  f_npts : nat;                (* len(_xdata) *)
  f_results : list qresult     (* _backend_result_list *)
}.
(** The counts of a circuit pooled over the results, 254-265: results without
    the circuit are skipped. *)
Definition found (rs : list qresult) (name : pystr) : list counts :=
  flat_map (fun r => match get_counts r name with Ok c => [c] | Err _ => [] end) rs.
(** One data point, 272-286; the mean is a rational, [var] is the number under
    the square root, and the error bar is [1e-4] where the root vanishes. *)
Definition point (c : counts) (expected : pystr) (qind : nat) : result (Q * R) :=
  let shots := zsum (dvals c) in
  do sub <- marginal_counts c (Some [qind]) false;
  if Z.eqb shots 0 then Err ZeroDivisionError
  else
    let p := (inject_Z (dget0 sub expected) / inject_Z shots)%Q in
    let v := (p * (1 - p) / inject_Z shots)%Q in
    let s := sqrt (Q2R v) in
    Ok (p, if Req_EM_T s 0 then (/ 10000)%R else s).
(** 243-286 [_calc_data]: for every series, qubit and circuit. *)
Definition calc_data (f : fitter) : result (list (pystr * list (list (Q * R)))) :=
  do names <- mapM (fun s => mapM (fun i => do n <- index_e (f_names f) i; Ok (n ++ s)) (seq 0 (f_npts f))) (f_series f);
  mapM (fun s =>
    do qs <- mapM (fun qind =>
      mapM (fun i => do n <- index_e (f_names f) i; point (build_counts (found (f_results f) (n ++ s))) (f_expected f) qind)
           (seq 0 (f_npts f))) (seq 0 (f_nq f));
    Ok (s, qs)) (f_series f).
(** 214-241 [add_data]: the results are appended, then everything is computed
    again.  [refit] is the caller's scipy fit and does not change the data. *)
Definition add_results (f : fitter) (rs : list qresult) : fitter :=
  {| f_names := f_names f; f_series := f_series f; f_expected := f_expected f; f_nq := f_nq f; f_npts := f_npts f;
     f_results := f_results f ++ rs |}.

(** The fitters' circuit names, series and expected states: coherence/fitters.py
    60-68, 116-124, 171-179; hamiltonian/fitters.py 44-53; gates/fitters.py. *)
Definition fitter_of (base : string) (series : list string) (expected : string) (npts nq : nat) (rs : list qresult) : fitter :=
  {| f_names := map (fun i => str base ++ dec i ++ str "_") (seq 0 npts); f_series := map str series; f_expected := str expected;
     f_nq := nq; f_npts := npts; f_results := rs |}.
Definition t1_fitter := fitter_of "t1circuit_" ["0"] "1".
Definition t2_fitter := fitter_of "t2circuit_" ["0"] "0".
Definition t2star_fitter := fitter_of "t2starcircuit_" ["0"] "0".
Definition zz_fitter := fitter_of "zzcircuit_" ["0"; "1"] "0".
Definition ampcal_fitter := fitter_of "ampcal1Qcircuit_" ["0"] "1".
Definition anglecal_fitter := fitter_of "anglecal1Qcircuit_" ["0"] "1".
Definition ampcalcx_fitter := fitter_of "ampcalcxcircuit_" ["0"] "1".
Definition anglecalcx_fitter := fitter_of "anglecalcxcircuit_" ["0"] "1".

(** ** Fit functions, fitters.py:333-371 and gates/fitters.py *)
Local Open Scope R_scope.
Definition exp_fit (x a tau c : R) : R := a * exp (- x / tau) + c.
Definition osc_fit (x a tau f phi c : R) : R := a * exp (- x / tau) * cos (2 * PI * f * x + phi) + c.
Definition osc_nodecay_fit (x a f phi c : R) : R := a * cos (2 * PI * f * x + phi) + c.
Definition cal_fit (x a thetaerr phierr theta0 phi0 c : R) : R := a * cos ((theta0 + thetaerr) * x + phi0 + phierr) + c.
(** gates/fitters.py:43-47, 113-117, 164-168, 214-218. *)
Definition amp_cal_fit (x thetaerr c : R) : R := cal_fit x (-(1/2)) thetaerr thetaerr (PI/2) (PI/2) c.
Definition angle_cal_fit (x thetaerr c : R) : R := cal_fit x (-(1/2)) thetaerr thetaerr (PI/2) (PI/2) c.
Definition amp_calcx_fit (x thetaerr c : R) : R := cal_fit x (-(1/2)) thetaerr 0 PI (PI/2) c.
Definition angle_calcx_fit (x thetaerr c : R) : R := cal_fit x (-(1/2)) thetaerr 0 PI (PI/2) c.
(** [angle_err], gates/fitters.py: half the fitted parameter. *)
Definition angle_err (thetaerr : R) : R := thetaerr / 2.
