(** Properties C42, C43 and C61: the quantum-volume test of
    qiskit/ignis/verification/quantum_volume. *)
From Coq Require Import QArith Qcanon Qreals Reals Lra.
From Coquelicot Require Import Coquelicot.
From Verif Require Import LinAlg Base PyStr CountsModel CountsSpec ResultFacts QSem Cyc GateMat MeasCalModel RBFitSpec DihedralModel RBSeqModel RBSeqSpec StdGates AccSpec
  QVModel QVSpec QVHeavyProofs QVFitProofs QVMeanProofs QVErfProofs QVCircProofs.
Local Open Scope string_scope.
Local Open Scope list_scope.
Local Open Scope nat_scope.

(** * C42: heavy outputs *)

(** After any calls of a fitter, whether or not some raised: the heavy outputs of
    a circuit were computed from a statevector given under its name.  They are
    the strings more probable than the median, at most half of the strings, and
    their ideal probability is more than half when the probabilities differ. *)
Theorem C42_heavy_outputs : forall qubit_lists acts name heavy, dget (v_heavy (history qubit_lists acts)) name = Some heavy ->
  exists e p, ideal_given acts e /\ s_name e = name /\ NoDup heavy /\ dget (v_heavy_ideal (history qubit_lists acts)) name = Some p /\
  forall d t, name = qv_name d t ->
    2 ^ d <= length (s_vec e) /\ 2 * length heavy <= 2 ^ d /\
    (1 <= d ->
      (exists m, is_median (all_probs (s_vec e) d) m /\ forall k, In k heavy <-> (length k = d /\ is_bits k) /\ (m < string_prob (s_vec e) k)%Q) /\
      (p == sumq (map (string_prob (s_vec e)) heavy))%Q /\
      (distinct (all_probs (s_vec e) d) -> (sumq (all_probs (s_vec e) d) < (2 # 1) * p)%Q)).
Proof. exact heavy_summary. Qed.
Print Assumptions C42_heavy_outputs.

(** There is one median. *)
Theorem C42_median_unique : forall l a b, is_median l a -> is_median l b -> (a == b)%Q.
Proof. exact median_unique. Qed.
Print Assumptions C42_median_unique.

(** A new ideal circuit with a long enough statevector is accepted. *)
Theorem C42_ideal_accepted : forall f e d t, s_name e = qv_name d t -> ~ In (s_name e) (dkeys (v_heavy f)) -> 2 ^ d <= length (s_vec e) ->
  exists f', add_statevectors f (Some [[e]]) = (f', None) /\ In (s_name e) (dkeys (v_heavy f')).
Proof. exact ideal_added. Qed.
Print Assumptions C42_ideal_accepted.

Definition e42_vec : list (Q * Q) := [((1 # 10)%Q, 0%Q); ((1 # 2)%Q, (1 # 2)%Q); (0%Q, (7 # 10)%Q); ((0)%Q, 0%Q)].
Definition e42 : svexp := {| s_name := qv_name 2 0; s_vec := e42_vec |}.
Example C42_case : dget (v_heavy (history [[0; 1]] [AddIdeal (Some [[e42]])])) (qv_name 2 0) = Some [str "01"; str "10"] /\
  dget (v_heavy_ideal (history [[0; 1]] [AddIdeal (Some [[e42]])])) (qv_name 2 0) = Some (1584 # 1600)%Q.
Proof. vm_compute. split; reflexivity. Qed.
Example C42_case_distinct : distinct (all_probs e42_vec 2) /\ (sumq (all_probs e42_vec 2) == 1)%Q.
Proof.
  split; [|vm_compute; reflexivity]. intros i j [H1 H2]. cbn in H2. assert (j = 1 \/ j = 2 \/ j = 3) as [E|[E|E]] by lia; subst j;
    (destruct i as [|[|[|i]]]; try lia; intros E; vm_compute in E; discriminate).
Qed.
(** With equal probabilities there is no heavy output. *)
Example C42_uniform : dget (v_heavy (history [[0]] [AddIdeal (Some [[{| s_name := qv_name 1 0; s_vec := [((1 # 2)%Q, (1 # 2)%Q); ((1 # 2)%Q, (1 # 2)%Q)] |}]])])) (qv_name 1 0) = Some [].
Proof. vm_compute. reflexivity. Qed.

(** * C43: the verdict *)

(** After any calls, heavy counts are between zero and the number of shots. *)
Theorem C43_heavy_counts : forall qubit_lists acts, (forall r, result_given acts r -> proper r) ->
  forall name h, dget (v_heavy_counts (history qubit_lists acts)) name = Some h ->
  exists s, dget (v_shots (history qubit_lists acts)) name = Some s /\ (0 <= h <= s)%Z.
Proof. intros qls acts H name h E. apply (proj2 (history_data qls acts H) name h E). Qed.
Print Assumptions C43_heavy_counts.

(** The means of a depth: heavy shots over shots, pooled over trials and results;
    and the mean of the ideal probabilities. *)
Theorem C43_means : forall qubit_lists acts rs f', (forall r, result_given (acts ++ [AddData (Some rs) true]) r -> proper r) ->
  add_data (history qubit_lists acts) (Some rs) true = (f', None) -> 0 < v_ntrials f' ->
  v_results f' = v_results (history qubit_lists acts) ++ rs /\
  forall i d, nth_error (v_depths f') i = Some d -> exists hs mean ideal,
    (forall t, t < v_ntrials f' -> dget (v_heavy f') (qv_name d t) = Some (hs t)) /\
    nth_error (v_ydata f') i = Some (Some mean, Some ideal) /\ (0 < all_shots f' d)%Z /\ (0 <= heavy_shots f' hs d <= all_shots f' d)%Z /\
    (mean == inject_Z (heavy_shots f' hs d) / inject_Z (all_shots f' d))%Q /\
    (ideal == sumq (map (fun t => match dget (v_heavy_ideal f') (qv_name d t) with Some p => p | None => 0%Q end) (seq 0 (v_ntrials f'))) / inject_Z (Z.of_nat (v_ntrials f')))%Q.
Proof.
  intros qls acts rs f' Hp H Hn. split; [apply (add_data_ok _ _ _ H)|]. intros i d Hd.
  apply (mean_lemma (ideal_given acts) (history qls acts) rs f' i d); auto; [apply history_ideal|]. apply (given_proper qls acts rs true Hp).
Qed.
Print Assumptions C43_means.

(** The verdict of every depth: the mean [x] is above 2/3 by more than two
    standard deviations; equivalently, it is above 2/3 with a confidence above
    that of two standard deviations, which is 0.977.  For [math.erf] being the
    error function. *)
Theorem C43_verdict : forall qubit_lists acts rs f', (forall r, result_given (acts ++ [AddData (Some rs) true]) r -> proper r) ->
  add_data (history qubit_lists acts) (Some rs) true = (f', None) -> 0 < v_ntrials f' ->
  exists l, qv_success erf f' = Ok l /\ length l = length (v_depths f') /\
    forall i d, nth_error (v_depths f') i = Some d -> exists hs b, (forall t, t < v_ntrials f' -> dget (v_heavy f') (qv_name d t) = Some (hs t)) /\
      let x := (IZR (heavy_shots f' hs d) / IZR (all_shots f' d))%R in
      let sd := sqrt (x * (1 - x) / INR (v_ntrials f'))%R in
      nth_error l i = Some (b, Some (calc_confidence_level erf (calc_z_value x sd))) /\ (b = true <-> (2 * sd < x - 2 / 3)%R) /\
      (b = true <-> (2 / 3 < x)%R /\ (calc_confidence_level erf 2 < calc_confidence_level erf (calc_z_value x sd))%R) /\ (0 < all_shots f' d)%Z.
Proof.
  intros qls acts rs f' Hp H Hn. apply (verdict_lemma (ideal_given acts) (history qls acts) rs); auto; [apply erf_increasing|apply history_ideal|]. apply (given_proper qls acts rs true Hp).
Qed.
Print Assumptions C43_verdict.
Theorem C43_threshold : (0.977 < calc_confidence_level erf 2 < 0.978)%R.
Proof. exact two_sigma. Qed.
Print Assumptions C43_threshold.
(** Any other increasing function gives the same verdicts. *)
Theorem C43_verdict_any_erf : forall e f i mean ideal, increasing e -> nth_error (v_ydata f) i = Some (Some mean, ideal) -> (0 <= mean <= 1)%Q -> 0 < v_ntrials f ->
  exists b, qv_success1 e f i = Ok (b, Some (calc_confidence_level e (calc_z_value (Q2R mean) (sigma mean (v_ntrials f))))) /\
    (b = true <-> (2 * sqrt (Q2R mean * (1 - Q2R mean) / INR (v_ntrials f)) < Q2R mean - 2 / 3)%R).
Proof. exact success_lemma. Qed.
Print Assumptions C43_verdict_any_erf.

Definition e43_r : qresult := [{| e_name := qv_name 2 0; e_counts := [(str "00", 2%Z); (str "01", 50%Z); (str "10", 48%Z)] |}].
Definition e43_fed : qv := history [[0; 1]] [AddIdeal (Some [[e42]])].
Example C43_case : (forall r, result_given ([AddIdeal (Some [[e42]])] ++ [AddData (Some [e43_r]) true]) r -> proper r) /\
  exists f', add_data e43_fed (Some [e43_r]) true = (f', None) /\ v_ntrials f' = 1 /\ v_depths f' = [2] /\ v_ydata f' = [(Some (98 # 100)%Q, Some (1584 # 1600)%Q)] /\
  (forall t, t < 1 -> dget (v_heavy f') (qv_name 2 t) = Some [str "01"; str "10"]) /\
  heavy_shots f' (fun _ => [str "01"; str "10"]) 2 = 98%Z /\ all_shots f' 2 = 100%Z.
Proof.
  split.
  - intros r (rs & b & [H|[H|[]]] & Hr); [discriminate|]. injection H as <- <-. destruct Hr as [<-|[]]. split; [cbn; repeat constructor; cbn; intuition|].
    intros e [<-|[]]. split; [cbn; repeat constructor; cbn; intuition discriminate|]. intros kv H. cbn in H. intuition (subst; cbn; lia).
  - eexists. split; [vm_compute; reflexivity|]. repeat split; try reflexivity. intros t Ht. replace t with 0 by lia. reflexivity.
Qed.
(** With one trial of mean 0.98 the depth is passed, as
    [2 * sqrt (0.98 * 0.02) = 0.28 < 0.98 - 2/3]. *)
Example C43_case_passed : (2 * sqrt (98 / 100 * (1 - 98 / 100) / INR 1) < 98 / 100 - 2 / 3)%R.
Proof.
  replace (98 / 100 * (1 - 98 / 100) / INR 1)%R with (14 / 100 * (14 / 100))%R by (cbn [INR]; field). rewrite sqrt_square by lra. lra.
Qed.

(** Adding an ideal circuit twice is rejected, and so is data without its ideal
    circuit. *)
Theorem C43_ideal_twice : forall f rs r e, In (s_name e) (dkeys (v_heavy f)) -> In r rs -> In e r -> snd (add_statevectors f (Some rs)) <> None.
Proof. exact ideal_twice. Qed.
Print Assumptions C43_ideal_twice.
Theorem C43_ideal_twice_error : forall f e d t, s_name e = qv_name d t -> In (s_name e) (dkeys (v_heavy f)) -> add_statevectors f (Some [[e]]) = (f, Some QiskitError).
Proof. exact ideal_twice_one. Qed.
Print Assumptions C43_ideal_twice_error.
Theorem C43_data_early : forall f rs b r e, ~ In (e_name e) (dkeys (v_heavy_ideal f)) -> In r rs -> In e r -> snd (add_data f (Some rs) b) <> None.
Proof. exact data_early. Qed.
Print Assumptions C43_data_early.
Theorem C43_data_early_error : forall f e d t b, e_name e = qv_name d t -> ~ In (e_name e) (dkeys (v_heavy_ideal f)) -> exists f',
  add_data f (Some [[e]]) b = (f', Some QiskitError) /\ v_results f' = v_results f ++ [[e]].
Proof. exact data_early_one. Qed.
Print Assumptions C43_data_early_error.
Example C43_twice_case : In (s_name e42) (dkeys (v_heavy e43_fed)) /\ ~ In (qv_name 2 0) (dkeys (v_heavy_ideal (qv_new [[0; 1]]))).
Proof. split; [left; reflexivity | intros []]. Qed.

(** The rejected data stays in the fitter: given again after the ideal circuit it
    counts twice.  And data given twice is not rejected at all. *)
Theorem C43_rejected_data_kept_refuted :
  dget (v_shots (history [[0; 1]] [AddData (Some [e43_r]) true; AddIdeal (Some [[e42]]); AddData (Some [e43_r]) true])) (qv_name 2 0) = Some 200%Z /\
  snd (add_data (qv_new [[0; 1]]) (Some [e43_r]) true) = Some QiskitError.
Proof. vm_compute. split; reflexivity. Qed.
Print Assumptions C43_rejected_data_kept_refuted.
Theorem C43_data_twice_refuted : exists f', add_data (fst (add_data e43_fed (Some [e43_r]) true)) (Some [e43_r]) true = (f', None) /\ dget (v_shots f') (qv_name 2 0) = Some 200%Z.
Proof. eexists. split; vm_compute; reflexivity. Qed.
Print Assumptions C43_data_twice_refuted.
(** A trial without results is a ZeroDivisionError. *)
Theorem C43_missing_trial_refuted : exists f acts, f = history [[0; 1]] acts /\
  snd (add_data f (Some [[{| e_name := qv_name 2 1; e_counts := [(str "01", 10%Z)] |}]]) true) = Some ZeroDivisionError.
Proof.
  exists (history [[0; 1]] [AddIdeal (Some [[e42; {| s_name := qv_name 2 1; s_vec := e42_vec |}]])]), [AddIdeal (Some [[e42; {| s_name := qv_name 2 1; s_vec := e42_vec |}]])].
  split; [reflexivity|]. vm_compute. reflexivity.
Qed.
Print Assumptions C43_missing_trial_refuted.

(** * C61: the circuits *)

(** Trials, and in a trial a circuit and its ideal version for every list of
    qubits, named by the length of the list and the trial; draw number
    [t * length qubit_lists + j] of the library is used. *)
Theorem C61_all_circuits : forall lib rng qubit_lists ntrials seed cs is, qv_circuits lib rng qubit_lists ntrials seed = Ok (cs, is) ->
  length cs = ntrials /\ length is = ntrials /\
  forall t, t < ntrials -> length (nth t cs []) = length qubit_lists /\ length (nth t is []) = length qubit_lists /\
    forall j l, nth_error qubit_lists j = Some l -> exists c i, nth_error (nth t cs []) j = Some c /\ nth_error (nth t is []) j = Some i /\
      q_name c = qv_name (length l) t /\ q_name i = qv_name (length l) t /\ q_width i = length l /\
      q_body i = map CGate (drawn lib rng seed (t * length qubit_lists + j) (length l)).
Proof. exact qv_circuits_summary. Qed.
Print Assumptions C61_all_circuits.

(** Names tell the depth and the trial. *)
Theorem C61_names : forall d t d' t', qv_name d t = qv_name d' t' <-> d = d' /\ t = t'.
Proof. intros d t d' t'. split; [apply qv_name_inj | intros [-> ->]; reflexivity]. Qed.
Print Assumptions C61_names.

(** The circuit of an ascending list of qubits: the library's circuit placed on
    these qubits, which are measured in order.  Its outcome probabilities are
    those of the ideal circuit's statevector.  For every semantics of the gates. *)
Theorem C61_circuit_partial : forall lib rng seed k trial l, l <> [] -> ascending l ->
  fits (length l) (drawn lib rng seed k (length l)) -> touches_all (length l) (drawn lib rng seed k (length l)) ->
  exists c i N, qv_circuit lib rng seed k trial l = Ok (c, i) /\
    q_name c = qv_name (length l) trial /\ q_name i = q_name c /\ q_width c = N /\ (forall q, In q (placed_on l) -> q < N) /\
    q_clbits c = length l /\ q_width i = length l /\ q_body i = map CGate (drawn lib rng seed k (length l)) /\
    q_body c = map CGate (map (on (placed_on l)) (drawn lib rng seed k (length l))) ++ [CBarrier (placed_on l)] ++
               map (fun qc => CMeasure (fst qc) (snd qc)) (combine (placed_on l) (seq 0 (length l))).
Proof. exact qv_circuit_lemma. Qed.
Print Assumptions C61_circuit_partial.
Theorem C61_outcomes_partial : forall lib rng {F K : Type} {HF : Fld F} {HK : Fld K} (gmat : pystr -> list Q -> bits -> bits -> F) (w : F -> K) seed k trial l c i y,
  w f0 = f0 -> l <> [] -> ascending l -> fits (length l) (drawn lib rng seed k (length l)) -> touches_all (length l) (drawn lib rng seed k (length l)) ->
  qv_circuit lib rng seed k trial l = Ok (c, i) -> length y = length l ->
  prob gmat w (q_width c) (q_clbits c) (q_body c) (key_of y) = fdiv (w (final gmat (length l) (q_body i) y)) (total gmat w (length l) (q_body i)).
Proof. intros lib rng F K HF HK gmat w seed k trial l c i y. exact (qv_outcomes_lemma lib rng gmat w seed k trial l c i y). Qed.
Print Assumptions C61_outcomes_partial.

(** With a seed, the circuits depend on the seed only. *)
Theorem C61_seeded : forall lib lib' rng qubit_lists ntrials s, s <> 0%Z -> (forall d z k k', lib d (Some z) k = lib' d (Some z) k') ->
  qv_circuits lib rng qubit_lists ntrials (Some s) = qv_circuits lib' rng qubit_lists ntrials (Some s).
Proof. exact seeded_lemma. Qed.
Print Assumptions C61_seeded.

Definition e61_lib (d : nat) (s : option Z) (k : nat) : list ginstr :=
  map (fun q => {| gname := str (if q =? 0 then "x" else "z"); gparams := []; gqubits := [q] |}) (seq 0 d).
Example C61_case : ascending [1; 3] /\ fits 2 (drawn e61_lib (fun _ _ => 0%Z) None 0 2) /\ touches_all 2 (drawn e61_lib (fun _ _ => 0%Z) None 0 2) /\
  exists c i, qv_circuit e61_lib (fun _ _ => 0%Z) None 0 5 [1; 3] = Ok (c, i) /\ q_width c = 4 /\ q_name c = str "qv_depth_2_trial_5".
Proof.
  split; [repeat constructor|]. split; [|split].
  - unfold fits. cbn. repeat apply Forall_cons; try apply Forall_nil; (split; [discriminate|]); (split; [apply NoDup_cons; [intros [] | apply NoDup_nil]|]); intros q [<-|[]]; cbn; lia.
  - intros q Hq. assert (q = 0 \/ q = 1) as [E|E] by lia; subst q; [eexists; split; [left; reflexivity | cbn; auto] | eexists; split; [right; left; reflexivity | cbn; auto]].
  - do 2 eexists. split; [vm_compute; reflexivity|]. split; reflexivity.
Qed.

(** When the largest qubit is the length of the list the circuit is not placed on
    the listed qubits. *)
Theorem C61_placement_refuted : exists c i, qv_circuit e61_lib (fun _ _ => 0%Z) None 0 0 [1; 2] = Ok (c, i) /\ q_width c = 2 /\
  In (CMeasure 0 0) (q_body c) /\ forall k, ~ In (CMeasure 2 k) (q_body c).
Proof.
  do 2 eexists. split; [vm_compute; reflexivity|]. split; [reflexivity|]. split; [cbn; auto 10|]. intros k H. cbn in H. intuition discriminate.
Qed.
Print Assumptions C61_placement_refuted.
(** A list not in ascending order: the outcomes are not those of the ideal
    circuit. *)
Theorem C61_descending_refuted : exists c i, qv_circuit e61_lib (fun _ _ => 0%Z) None 0 0 [1; 0] = Ok (c, i) /\
  prob gate_mat (fun z : cyc => cymul z z) (q_width c) (q_clbits c) (q_body c) (key_of [true; false]) <>
  fdiv (cymul (final gate_mat 2 (q_body i) [true; false]) (final gate_mat 2 (q_body i) [true; false])) (total gate_mat (fun z : cyc => cymul z z) 2 (q_body i)).
Proof.
  do 2 eexists. split; [vm_compute; reflexivity|]. intros E. apply (f_equal ca) in E; apply (f_equal this) in E; vm_compute in E; discriminate.
Qed.
Print Assumptions C61_descending_refuted.
(** Lists of the same length give circuits of the same name. *)
Theorem C61_same_depth_refuted : exists c1 c2 i1 i2, qv_circuits e61_lib (fun _ _ => 0%Z) [[0; 1]; [3; 4]] 1 None = Ok ([[c1; c2]], [[i1; i2]]) /\ q_name c1 = q_name c2 /\ c1 <> c2.
Proof. do 4 eexists. split; [vm_compute; reflexivity|]. split; [reflexivity|discriminate]. Qed.
Print Assumptions C61_same_depth_refuted.
(** Seed 0 is no seed. *)
Theorem C61_seed_zero_refuted : forall lib rng qubit_lists ntrials, qv_circuits lib rng qubit_lists ntrials (Some 0%Z) = qv_circuits lib rng qubit_lists ntrials None.
Proof. exact seed_zero_lemma. Qed.
Print Assumptions C61_seed_zero_refuted.
