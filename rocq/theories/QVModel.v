(** Model of qiskit/ignis/verification/quantum_volume: circuits.py and
    fitters.py.  Probabilities and means are exact rationals (a float is one);
    rounding is not modelled.  The plots are not modelled. *)
From Coq Require Import QArith Lqa Reals.
From Verif Require Import Base LinAlg PyStr CountsModel MeasCalModel DihedralModel RBSeqModel RBFitModel.
Open Scope nat_scope.

(** * fitters.py *)

(** One statevector of a [Result]: circuit name and amplitudes. *)
Record svexp := { s_name : pystr; s_vec : list (Q * Q) }.
(** [result.get_statevector(name)] of Terra: the first experiment of that
    name. *)
Definition get_statevector (r : list svexp) (name : pystr) : result (list (Q * Q)) :=
  match find (fun e => eqb (s_name e) name) r with
  | Some e => Ok (s_vec e)
  | None => Err QiskitError
  end.

(** [np.median], used at fitters.py:575-579: the middle of the sorted values,
    or the mean of the two middle ones. *)
Fixpoint qinsert (x : Q) (l : list Q) : list Q :=
  match l with
  | [] => [x]
  | a :: l' => if Qle_bool x a then x :: a :: l' else a :: qinsert x l'
  end.
Definition qsort (l : list Q) : list Q := fold_right qinsert [] l.
Definition np_median (l : list Q) : Q :=
  let s := qsort l in
  let n := length s in
  if Nat.even n then ((nth (n / 2 - 1) s 0 + nth (n / 2) s 0) / (2 # 1))%Q else nth (n / 2) s 0%Q.

(** [_heavy_strings], fitters.py:547-561. *)
Definition heavy_strings (dist : dict pystr Q) (median : Q) : list pystr :=
  map fst (filter (fun kv => negb (Qle_bool (snd kv) median)) dist).
(** [_subset_probability], fitters.py:581-595, for probabilities and for
    counts. *)
Definition subset_probability (strings : list pystr) (dist : dict pystr Q) : Q :=
  fold_right Qplus 0%Q (map (fun k => match dget dist k with Some p => p | None => 0%Q end) strings).
Definition subset_counts (strings : list pystr) (c : counts) : Z := zsum (map (fun k => dget0 c k) strings).

(** [QVFitter], fitters.py:41-64.  [y_data] has one entry per depth: the first
    and the third rows of [_ydata], [None] for [nan] (or infinities). *)
Record qv := {
  v_depths : list nat;
  v_ntrials : nat;
  v_results : list qresult;
  v_prob_ideal : dict pystr (dict pystr Q);
  v_heavy : dict pystr (list pystr);
  v_heavy_ideal : dict pystr Q;
  v_counts : dict pystr counts;
  v_shots : dict pystr Z;
  v_heavy_counts : dict pystr Z;
  v_heavy_exp : dict pystr Q;
  v_ydata : list (option Q * option Q) }.
Definition qv_new (qubit_lists : list (list nat)) : qv :=
  {| v_depths := map (@length nat) qubit_lists; v_ntrials := 0; v_results := []; v_prob_ideal := []; v_heavy := []; v_heavy_ideal := [];
     v_counts := []; v_shots := []; v_heavy_counts := []; v_heavy_exp := []; v_ydata := [] |}.
Definition set_ideal (f : qv) p h hi : qv :=
  {| v_depths := v_depths f; v_ntrials := v_ntrials f; v_results := v_results f; v_prob_ideal := p; v_heavy := h; v_heavy_ideal := hi;
     v_counts := v_counts f; v_shots := v_shots f; v_heavy_counts := v_heavy_counts f; v_heavy_exp := v_heavy_exp f; v_ydata := v_ydata f |}.
Definition set_run (f : qv) n rs : qv :=
  {| v_depths := v_depths f; v_ntrials := n; v_results := rs; v_prob_ideal := v_prob_ideal f; v_heavy := v_heavy f; v_heavy_ideal := v_heavy_ideal f;
     v_counts := v_counts f; v_shots := v_shots f; v_heavy_counts := v_heavy_counts f; v_heavy_exp := v_heavy_exp f; v_ydata := v_ydata f |}.
Definition set_exp (f : qv) c s hc he : qv :=
  {| v_depths := v_depths f; v_ntrials := v_ntrials f; v_results := v_results f; v_prob_ideal := v_prob_ideal f; v_heavy := v_heavy f; v_heavy_ideal := v_heavy_ideal f;
     v_counts := c; v_shots := s; v_heavy_counts := hc; v_heavy_exp := he; v_ydata := v_ydata f |}.
Definition set_ydata (f : qv) y : qv :=
  {| v_depths := v_depths f; v_ntrials := v_ntrials f; v_results := v_results f; v_prob_ideal := v_prob_ideal f; v_heavy := v_heavy f; v_heavy_ideal := v_heavy_ideal f;
     v_counts := v_counts f; v_shots := v_shots f; v_heavy_counts := v_heavy_counts f; v_heavy_exp := v_heavy_exp f; v_ydata := y |}.

(** ['qv_depth_%d_trial_%d'], circuits.py:96 and fitters.py:221. *)
Definition qv_name (depth trial : nat) : pystr := str "qv_depth_" ++ dec depth ++ str "_trial_" ++ dec trial.

(** fitters.py:129-137: squared moduli under their bit strings; too short a
    vector raises IndexError, too long a one is cut. *)
Definition ideal_probs (vec : list (Q * Q)) (depth : nat) : result (dict pystr Q) :=
  do ps <- mapM (fun b => do a <- index_e vec b; Ok (fst a * fst a + snd a * snd a)%Q) (seq 0 (2 ^ depth));
  Ok (combine (count_keys depth) ps).

(** fitters.py:118-148, one circuit.  [2**depth] of a negative depth is a float,
    of which [range] raises TypeError. *)
Definition add_statevector (r : list svexp) (f : qv) (e : svexp) : qv * option pyerr :=
  let name := s_name e in
  let step :=
    do w <- index_e (split "_"%char name) 2;
    do depth <- undec w;
    if dmem (v_heavy f) name then Err QiskitError
    else
      do vec <- get_statevector r name;
      if (depth <? 0)%Z then Err TypeError
      else
        do dist <- ideal_probs vec (Z.to_nat depth);
        let heavy := heavy_strings dist (np_median (map snd dist)) in
        Ok (set_ideal f (dset (v_prob_ideal f) name dist) (dset (v_heavy f) name heavy)
              (dset (v_heavy_ideal f) name (subset_probability heavy dist))) in
  match step with Ok f' => (f', None) | Err x => (f, Some x) end.

(** A loop over values that stops at an exception, keeping the state. *)
Fixpoint loop {S A} (step : S -> A -> S * option pyerr) (f : S) (l : list A) : S * option pyerr :=
  match l with
  | [] => (f, None)
  | a :: l' => let (f', err) := step f a in match err with Some x => (f', Some x) | None => loop step f' l' end
  end.
(** [add_statevectors], fitters.py:101-148. *)
Definition add_statevectors (f : qv) (rs : option (list (list svexp))) : qv * option pyerr :=
  match rs with
  | None => (f, None)
  | Some rs => loop (fun f r => loop (add_statevector r) f r) f rs
  end.

(** fitters.py:180-189, one circuit of a result. *)
Definition note_circuit (f : qv) (e : experiment) : qv * option pyerr :=
  match undec (last (split "_"%char (e_name e)) []) with
  | Err x => (f, Some x)
  | Ok t =>
      let f' := if (Z.of_nat (v_ntrials f) <? t + 1)%Z then set_run f (Z.to_nat (t + 1)) (v_results f) else f in
      (f', if dmem (v_heavy_ideal f') (e_name e) then None else Some QiskitError)
  end.
(** fitters.py:175-189, one result. *)
Definition note_result (f : qv) (r : qresult) : qv * option pyerr :=
  loop note_circuit (set_run f (v_ntrials f) (v_results f ++ [r])) r.

(** fitters.py:219-253, one circuit. *)
Definition calc_circuit (f : qv) (name : pystr) : qv * option pyerr :=
  let c := build_counts (count_list (v_results f) name) in
  let shots := zsum (dvals c) in
  let f1 := set_exp f (dset (v_counts f) name c) (dset (v_shots f) name shots) (v_heavy_counts f) (v_heavy_exp f) in
  match dget (v_heavy f1) name with
  | None => (f1, Some KeyError)
  | Some heavy =>
      let hc := subset_counts heavy c in
      let f2 := set_exp f1 (v_counts f1) (v_shots f1) (dset (v_heavy_counts f1) name hc) (v_heavy_exp f1) in
      match ratio hc shots with
      | Err x => (f2, Some x)
      | Ok p => (set_exp f2 (v_counts f2) (v_shots f2) (v_heavy_counts f2) (dset (v_heavy_exp f2) name p), None)
      end
  end.
Definition qv_names (f : qv) : list pystr :=
  flat_map (fun trial => map (fun depth => qv_name depth trial) (v_depths f)) (seq 0 (v_ntrials f)).
(** [calc_data], fitters.py:195-253. *)
Definition calc_data (f : qv) : qv * option pyerr := loop calc_circuit f (qv_names f).

(** numpy's quotient: [nan] or infinity rather than an exception. *)
Definition np_div (a b : Q) : option Q := if Qeq_bool b 0 then None else Some (a / b)%Q.
(** [calc_statistics], fitters.py:255-295: the two means of a depth.  The two
    standard deviations are functions of these, see [sigma]. *)
Definition depth_stats (f : qv) (depth : nat) : result (option Q * option Q) :=
  let names := map (qv_name depth) (seq 0 (v_ntrials f)) in
  do vals <- mapM (fun name =>
       do h <- dget_e (v_heavy_counts f) name;
       do s <- dget_e (v_shots f) name;
       do i <- dget_e (v_heavy_ideal f) name;
       Ok (h, s, i)) names;
  let exp_vals := zsum (map (fun t => fst (fst t)) vals) in
  let exp_shots := zsum (map (fun t => snd (fst t)) vals) in
  let ideal_vals := fold_right Qplus 0%Q (map snd vals) in
  Ok (np_div (inject_Z exp_vals) (inject_Z exp_shots), np_div ideal_vals (inject_Z (Z.of_nat (v_ntrials f)))).
Fixpoint fill_ydata (f : qv) (depths : list nat) : list (option Q * option Q) * option pyerr :=
  match depths with
  | [] => ([], None)
  | d :: ds => match depth_stats f d with
               | Ok y => let (ys, err) := fill_ydata f ds in (y :: ys, err)
               | Err x => (repeat (Some 0%Q, Some 0%Q) (S (length ds)), Some x)
               end
  end.
Definition calc_statistics (f : qv) : qv * option pyerr :=
  let (y, err) := fill_ydata f (v_depths f) in (set_ydata f y, err).

(** [add_data], fitters.py:150-193. *)
Definition add_data (f : qv) (rs : option (list qresult)) (rerun_fit : bool) : qv * option pyerr :=
  match rs with
  | None => (f, None)
  | Some rs =>
      let (f1, err) := loop note_result f rs in
      match err with
      | Some x => (f1, Some x)
      | None => if rerun_fit then
                  let (f2, err2) := calc_data f1 in
                  match err2 with Some x => (f2, Some x) | None => calc_statistics f2 end
                else (f1, None)
      end
  end.
(** [QVFitter(backend_result, statevector_result, qubit_lists)], fitters.py:41-64. *)
Definition qv_fitter (rs : option (list qresult)) (svs : option (list (list svexp))) (qubit_lists : list (list nat)) : qv * option pyerr :=
  let (f, err) := add_statevectors (qv_new qubit_lists) svs in
  match err with Some x => (f, Some x) | None => add_data f rs true end.

(** [quantum_volume], fitters.py:536-545. *)
Definition quantum_volume (f : qv) : list Z := map (fun d => (2 ^ Z.of_nat d)%Z) (v_depths f).

(** fitters.py:287-289: the standard deviation. *)
Definition sigma (mean : Q) (ntrials : nat) : R := sqrt (Q2R mean * (1 - Q2R mean) / INR ntrials).

Section Success.
(** [math.erf], fitters.py:532. *)
Variable erf : R -> R.
(** [calc_z_value], fitters.py:497-516; [2/3] is exact here. *)
Definition calc_z_value (mean sigma : R) : R :=
  let sigma := if Req_EM_T sigma 0 then (1 / 10 ^ 10)%R else sigma in ((mean - 2 / 3) / sigma)%R.
(** [calc_confidence_level], fitters.py:518-534. *)
Definition calc_confidence_level (z : R) : R := (1 / 2 * (1 + erf (z / sqrt 2)))%R.
(** [qv_success], fitters.py:467-495: the verdict and the confidence level;
    [nan] compares false. *)
Definition qv_success1 (f : qv) (i : nat) : result (bool * option R) :=
  do y <- index_e (v_ydata f) i;
  match fst y with
  | None => Ok (false, None)
  | Some mean =>
      let conf := calc_confidence_level (calc_z_value (Q2R mean) (sigma mean (v_ntrials f))) in
      Ok (if Rlt_dec (2 / 3) (Q2R mean) then if Rlt_dec (calc_confidence_level 2) conf then true else false else false, Some conf)
  end.
Definition qv_success (f : qv) : result (list (bool * option R)) := mapM (qv_success1 f) (seq 0 (length (v_depths f))).
End Success.

(** * circuits.py *)
Record qvcirc := { q_name : pystr; q_width : nat; q_clbits : nat; q_body : list cinstr }.

(** [QuantumCircuit.compose(other, qubits)] of Terra: gate on qubit [i] goes to
    [qubits[i]]; a gate on a repeated qubit is refused. *)
Fixpoint nodupb (l : list nat) : bool := match l with [] => true | a :: l' => negb (mem a l') && nodupb l' end.
Definition compose_on (qubits : list nat) (g : ginstr) : result ginstr :=
  do qs <- mapM (fun q => index_e qubits q) (gqubits g);
  if nodupb qs then Ok {| gname := gname g; gparams := gparams g; gqubits := qs |} else Err CircuitError.

(** [measure_active] of Terra: a barrier and a measurement of every qubit on
    which there is a gate, in the order of the circuit's qubits, into a new
    register of that many bits. *)
Definition active (n : nat) (body : list ginstr) : list nat := filter (fun q => existsb (fun g => mem q (gqubits g)) body) (seq 0 n).
Definition measure_active (n : nat) (body : list ginstr) : nat * list cinstr :=
  let act := active n body in
  (length act, map CGate body ++ [CBarrier act] ++ map (fun qc => CMeasure (fst qc) (snd qc)) (combine act (seq 0 (length act)))).

Definition max_of (l : list nat) : result nat := match l with [] => Err ValueError | a :: l' => Ok (fold_left Nat.max l' a) end.

Section Circuits.
(** [QuantumVolume(depth, depth, seed)] of Terra, call number [k]: the gates of
    a random circuit, the same ones for the same seed; and numpy's generator
    [rng.integers(1000)], draw number [k]. *)
Variable quantum_volume_circuit : nat -> option Z -> nat -> list ginstr.
Variable rng : Z -> nat -> Z.

(** circuits.py:83-101, one circuit and its copy without measurements. *)
Definition qv_circuit (seed : option Z) (k trial : nat) (qubits : list nat) : result (qvcirc * qvcirc) :=
  let depth := length qubits in
  do n_q_max <- max_of qubits;
  (* [if seed:] is false for 0 *)
  let s := match seed with Some z => if (z =? 0)%Z then None else Some (rng z k) | None => None end in
  let body := quantum_volume_circuit depth s k in
  do nb <- (if negb (n_q_max =? depth) then do b <- mapM (compose_on qubits) body; Ok (n_q_max + 1, b) else Ok (depth, body));
  let (m, ops) := measure_active (fst nb) (snd nb) in
  let name := qv_name depth trial in
  Ok ({| q_name := name; q_width := fst nb; q_clbits := m; q_body := ops |},
      {| q_name := name; q_width := depth; q_clbits := 0; q_body := map CGate body |}).
(** [qv_circuits], circuits.py:29-104.  An empty qubit list raises IndexError at
    line 63; the deprecation warnings are not modelled. *)
Definition qv_circuits (qubit_lists : list (list nat)) (ntrials : nat) (seed : option Z) : result (list (list qvcirc) * list (list qvcirc)) :=
  do _ <- mapM (fun l => index_e l 0) qubit_lists;
  do all <- mapM (fun trial =>
      mapM (fun iq => qv_circuit seed (trial * length qubit_lists + fst iq) trial (snd iq))
        (combine (seq 0 (length qubit_lists)) qubit_lists)) (seq 0 ntrials);
  Ok (map (map fst) all, map (map snd) all).
End Circuits.
