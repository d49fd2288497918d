(** C34 and C35: the continuous-time Markov process (CTMP) mitigation method. *)
From Coq Require Import QArith QArith.Qcanon Qreals Reals Lqa Lra.
From Coquelicot Require Import Coquelicot.
From Verif Require Import LinAlg Base CountsModel CountsSpec QcFacts ExpvalModel ExpvalSpec ExpvalProofs ExpvalVecProofs
  ExpvalTensProofs ExpvalCalProofs CtmpModel CtmpSpec CtmpExpProofs CtmpProofs CtmpMainProofs CtmpFitProofs.
Local Open Scope string_scope.
Local Open Scope list_scope.
Local Open Scope nat_scope.

(** ** C34 *)

(** The generator matrix is the rate matrix of the transitions, whatever
    qubits are selected: non-negative off the diagonal, columns summing to 0. *)
Theorem C34_generator_markov gens rates num ct qubits asc :
  ctmp_init gens rates num = Ok ct -> valid_gens gens -> qubits_are ct qubits asc ->
  exists g, generator_matrix ct qubits = Ok g /\ (forall y x, g y x = rate_matrix asc (entries ct) y x) /\
    markov_generator (2 ^ length asc) g.
Proof. exact (generator_theorem gens rates num ct qubits asc). Qed.
Print Assumptions C34_generator_markov.

(** The kept generators are those with a rate above the threshold. *)
Theorem C34_kept_rates gens rates num ct : ctmp_init gens rates num = Ok ct -> length rates = length gens ->
  entries ct = flat_map (fun gr => match snd gr with
      | Some r => if Qclt_le_dec threshold r then [(g_b (fst gr), g_a (fst gr), g_q (fst gr), r)] else []
      | None => [] end) (combine gens rates).
Proof. exact (init_entries gens rates num ct). Qed.
Print Assumptions C34_kept_rates.

(** The noise strength is the largest exit rate; the sampled matrix
    [B = 1 + G / gamma] is column stochastic. *)
Theorem C34_sampling_stochastic gens rates num ct qubits asc g :
  ctmp_init gens rates num = Ok ct -> valid_gens gens -> qubits_are ct qubits asc -> generator_matrix ct qubits = Ok g ->
  exists gamma b, noise_strength ct qubits = Ok gamma /\ sampling_matrix ct qubits = Ok b /\
    (0 <= gamma)%Qc /\ strength (2 ^ length asc) g gamma /\ column_stochastic (2 ^ length asc) b /\
    (forall y x, y < 2 ^ length asc -> x < 2 ^ length asc -> (gamma * (b y x - ind (y =? x)))%Qc = g y x).
Proof. exact (sampling_theorem gens rates num ct qubits asc g). Qed.
Print Assumptions C34_sampling_stochastic.

(** The series of the matrix exponential always converges. *)
Theorem C34_exponential_converges d m i j : i < d -> j < d -> is_series (exp_term d m i j) (mexp d m i j).
Proof. exact (mexp_series d m i j). Qed.
Print Assumptions C34_exponential_converges.

(** The signed Poisson mixture of powers of [B] converges to [exp(-G)], and
    applied to [exp(G) p] it gives back [p]. *)
Theorem C34_mixture_inverts gens rates num ct qubits asc g gamma b :
  ctmp_init gens rates num = Ok ct -> valid_gens gens -> qubits_are ct qubits asc ->
  generator_matrix ct qubits = Ok g -> noise_strength ct qubits = Ok gamma -> sampling_matrix ct qubits = Ok b ->
  let d := 2 ^ length asc in
  (forall i j, i < d -> j < d ->
    is_series (fun k => exp (2 * toR gamma) * poisson (toR gamma) k * (-1) ^ k * mpow d (of_Qc b) k i j)%R (mexp d (fun i j => (- of_Qc g i j)%R) i j)) /\
  (forall p q, (forall y, y < d -> q y = rsum d (fun x => (mexp d (of_Qc g) y x * p x)%R)) ->
    forall z, z < d ->
    is_series (fun k => exp (2 * toR gamma) * poisson (toR gamma) k * (-1) ^ k * rsum d (fun y => mpow d (of_Qc b) k z y * q y))%R (p z)).
Proof. exact (mixture_theorem gens rates num ct qubits asc g gamma b). Qed.
Print Assumptions C34_mixture_inverts.

(** The estimate: every sample starts at a drawn outcome of the measured
    distribution, makes a Poisson number of steps of [B] driven by uniform
    numbers, and contributes the observable with the sign of the parity of its
    number of steps; the mean is scaled by [exp(2 gamma)]. *)
Theorem C34_estimate gens rates num ct qs asc n c clbits sel diag draw :
  ctmp_init gens rates num = Ok ct -> valid_gens gens ->
  well_formed n c clbits sel -> total c <> 0%Z -> increasing_version asc qs -> length qs = n ->
  (forall d, diag = Some d -> length d = 2 ^ n) ->
  (forall k s probs gamma, draws_ok (2 ^ n) (draw k s probs gamma)) ->
  exists gamma b probs yss, noise_strength ct (Some qs) = Ok gamma /\ sampling_matrix ct (Some qs) = Ok b /\
    (forall i i', i < 2 ^ n -> i' < 2 ^ n -> rearranged asc qs i i' -> nth i probs 0%Qc = freq c sel i') /\
    let ks := combine (seq 0 (length (samples_set (num_samples (total c) gamma)))) (samples_set (num_samples (total c) gamma)) in
    Forall2 (fun ks ys => let dr := draw (fst ks) (snd ks) probs gamma in runs (2 ^ n) b (dr_x dr) (dr_alphas dr) (dr_r dr) ys) ks yss /\
    ctmp_expectation draw ct c diag (Some qs) clbits
    = Ok ((exp (2 * toR gamma) / INR (num_samples (total c) gamma) *
           toR (fsum (map (fun ky => signed_sum (fun y => diag_entry diag n y)
             (dr_alphas (draw (fst (fst ky)) (snd (fst ky)) probs gamma)) (snd ky)) (combine ks yss))))%R,
          (exp (2 * toR gamma) / sqrt (IZR (total c)))%R).
Proof. exact (estimate_theorem gens rates num ct qs asc n c clbits sel diag draw). Qed.
Print Assumptions C34_estimate.

(** A step is determined by its uniform number. *)
Theorem C34_step_unique d b x r y y' : column_stochastic d b -> x < d -> y < d -> y' < d -> moves_to b x r y -> moves_to b x r y' -> y = y'.
Proof. exact (moves_unique d b x r y y'). Qed.
Print Assumptions C34_step_unique.

(** The batches add up to the number of samples, which is at least 1600 and at
    least [shots * exp(2 gamma)]. *)
Theorem C34_samples shots gamma n : (list_sum (samples_set n) = n /\ forall s, In s (samples_set n) -> s <= batch_size) /\
  ((0 <= gamma)%Qc -> (1600 <= INR (num_samples shots gamma))%R /\ (IZR shots * exp (2 * toR gamma) <= INR (num_samples shots gamma))%R).
Proof. exact (conj (samples_total n) (num_samples_spec shots gamma)). Qed.
Print Assumptions C34_samples.

(** The standard generators: all single flips, all correlated flips of pairs
    and all exchanges, [2 n^2] in total, all of them transitions. *)
Theorem C34_standard_generators n : 1 <= n ->
  exists gens, standard_generator_set n None = Ok gens /\ length gens = 2 * (n * n) /\ valid_gens gens /\
  forall b a q, In {| g_b := b; g_a := a; g_q := q |} gens <->
    (exists i, i < n /\ q = [i] /\ (b = str "1" /\ a = str "0" \/ b = str "0" /\ a = str "1")) \/
    (exists i j, i < j < n /\ q = [i; j] /\ (b = str "11" /\ a = str "00" \/ b = str "00" /\ a = str "11")) \/
    (exists i j, i < n /\ j < n /\ i <> j /\ q = [i; j] /\ b = str "10" /\ a = str "01").
Proof. exact (standard_set n). Qed.
Print Assumptions C34_standard_generators.

(** The reported assignment and mitigation matrices are those of the process
    with all bits complemented ... *)
Theorem C34_reported_complemented ct qubits g asc : qubits_are ct qubits asc -> generator_matrix ct qubits = Ok g ->
  let d := 2 ^ length asc in
  exists r, reported_generator ct qubits = Ok r /\
    forall i j, i < d -> j < d -> mexp d (of_Qc r) i j = mexp d (of_Qc g) (d - 1 - i) (d - 1 - j) /\
      mexp d (fun i j => (- of_Qc r i j)%R) i j = mexp d (fun i j => (- of_Qc g i j)%R) (d - 1 - i) (d - 1 - j).
Proof. exact (reported_theorem ct qubits g asc). Qed.
Print Assumptions C34_reported_complemented.

(** ... so they are not the noise that the sampler inverts. *)
Theorem C34_reported_matrix_refuted : ~ (forall gens rates num ct g r i j, ctmp_init gens rates num = Ok ct -> valid_gens gens ->
  generator_matrix ct None = Ok g -> reported_generator ct None = Ok r ->
  let d := 2 ^ ct_n ct in i < d -> j < d -> mexp d (of_Qc r) i j = mexp d (of_Qc g) i j).
Proof. exact reported_differs. Qed.
Print Assumptions C34_reported_matrix_refuted.

(** Examples: flips 0 -> 1 of qubit 0 at rate 1/2 and exchanges at rate 1/4. *)
Definition ex_gens : list gen :=
  [ {| g_b := str "1"; g_a := str "0"; g_q := [0] |}; {| g_b := str "10"; g_a := str "01"; g_q := [1; 0] |} ].
Definition ex_rates : list (option Qc) := [Some (Q2Qc (1 # 2)); Some (Q2Qc (1 # 4))].
Definition ex_ct : ctmp := {| ct_n := 2; ct_gens := combine ex_gens [Q2Qc (1 # 2); Q2Qc (1 # 4)] |}.
Lemma ex_valid : valid_gens ex_gens.
Proof.
  intros g [<-|[<-|[]]]; (split; [reflexivity|]); (split; [reflexivity|]).
  - split; [repeat constructor; cbn; tauto|]. split; intros c [<-|[]]; auto.
  - split; [repeat constructor; cbn; intuition discriminate|]. split; intros c [<-|[<-|[]]]; auto.
Qed.
Example C34_example : ctmp_init ex_gens ex_rates None = Ok ex_ct /\ valid_gens ex_gens /\
  qubits_are ex_ct None [0; 1] /\ qubits_are ex_ct (Some [1; 0]) [0; 1] /\
  exists g b, generator_matrix ex_ct None = Ok g /\ noise_strength ex_ct None = Ok (Q2Qc (1 # 2)) /\ sampling_matrix ex_ct None = Ok b /\
    map (fun y => map (g y) (seq 0 4)) (seq 0 4)
    = [[Q2Qc (-1 # 2); 0; 0; 0]; [Q2Qc (1 # 2); Q2Qc (-1 # 4); 0; 0]; [0; Q2Qc (1 # 4); Q2Qc (-1 # 2); 0]; [0; 0; Q2Qc (1 # 2); 0]]%Qc /\
    map (fun y => map (b y) (seq 0 4)) (seq 0 4)
    = [[0; 0; 0; 0]; [1; Q2Qc (1 # 2); 0; 0]; [0; Q2Qc (1 # 2); 0; 0]; [0; 0; 1; 1]]%Qc.
Proof.
  split; [reflexivity|]. split; [exact ex_valid|].
  assert (Hs : StronglySorted lt [0; 1]) by (repeat constructor).
  split; [split; [reflexivity | discriminate]|]. split; [split; [split; [exact Hs | apply perm_swap] | discriminate]|].
  do 2 eexists. split; [reflexivity|]. split; [vm_compute; f_equal; apply Qc_is_canon; reflexivity|]. split; [reflexivity|]. split; vm_compute; reflexivity.
Qed.

(** ** C35 *)

(** The rate fitted for a transition of a pair of qubits is the rate of that
    transition in the logarithm of the calibration matrix of the pair; the rate
    fitted for a flip of one qubit is the mean rate of the opposite flip
    ([fit_rate] exchanges the two bits). *)
Theorem C35_fitted_rates_partial logm data n l gens : 2 <= n -> (forall g, In g gens -> fit_gen n gens g) ->
  (forall g j k, In g gens -> g_q g = [j; k] -> log_of logm data n l j k) ->
  fitted_rates logm data n gens = Ok (map (fun g => Some (fit_rate n l g)) gens).
Proof. exact (fit_rates logm data n l gens). Qed.
Print Assumptions C35_fitted_rates_partial.

(** The fitted mitigator with the standard generators. *)
Theorem C35_standard_fit_partial logm data n l : 2 <= n -> (forall j k, j < n -> k < n -> j <> k -> log_of logm data n l j k) ->
  exists gens ct, standard_generator_set n None = Ok gens /\ fit_ctmp logm data n None = Ok ct /\ ct_n ct = n /\
    (forall g r, In (g, r) (ct_gens ct) <-> In g gens /\ r = fit_rate n l g /\ (threshold < r)%Qc).
Proof. exact (fit_standard logm data n l). Qed.
Print Assumptions C35_standard_fit_partial.

(** A pair without calibration data, or with a complex logarithm, is refused. *)
Theorem C35_bad_pair_refused logm data n j k : j < n -> k < n -> j <> k ->
  (forall d A, assignment_matrix data n (Some [j; k]) = Ok (d, A) -> logm A = None) ->
  fit_ctmp logm data n None = Err QiskitError.
Proof. exact (fit_bad_pair logm data n j k). Qed.
Print Assumptions C35_bad_pair_refused.

(** With one qubit nothing is fitted, whatever the calibration data. *)
Theorem C35_one_qubit_ignored logm data : fit_ctmp logm data 1 None = Ok {| ct_n := 1; ct_gens := [] |}.
Proof. exact (fit_one logm data). Qed.
Print Assumptions C35_one_qubit_ignored.

(** Calibration data of two qubits, 4 shots each: qubit 0 reads 1 in one of
    four shots when prepared in 0, everything else is read correctly. *)
Definition ex_cal : cal_data := [(0, [(0, 3%Z); (1, 1%Z)]); (1, [(1, 4%Z)]); (2, [(2, 3%Z); (3, 1%Z)]); (3, [(3, 4%Z)])].
(** The logarithm to first order. *)
Definition ex_log (a : qmat) : option qmat := Some (fun i j => (a i j - if i =? j then 1 else 0)%Qc).
Definition ex_l (j k : nat) : nat -> nat -> Qc :=
  match assignment_matrix ex_cal 2 (Some [j; k]) with Ok (_, a) => fun i j => (a i j - if i =? j then 1 else 0)%Qc | Err _ => fun _ _ => 0%Qc end.

Lemma ex_logs j k : j < 2 -> k < 2 -> j <> k -> log_of ex_log ex_cal 2 ex_l j k.
Proof.
  intros Hj Hk Hjk. assert ((j = 0 /\ k = 1) \/ (j = 1 /\ k = 0)) as [[-> ->]|[-> ->]] by lia.
  - unfold log_of, ex_l. destruct (assignment_matrix ex_cal 2 (Some [0; 1])) as [[d A]|e] eqn:E; [|vm_compute in E; discriminate]. exists d, A. split; reflexivity.
  - unfold log_of, ex_l. destruct (assignment_matrix ex_cal 2 (Some [1; 0])) as [[d A]|e] eqn:E; [|vm_compute in E; discriminate]. exists d, A. split; reflexivity.
Qed.

(** The rate of the generator 0 -> 1 is not the rate of 0 -> 1 flips. *)
Theorem C35_single_qubit_rate_refuted : ~ (forall logm data n l gens rates i j, 2 <= n -> (forall g, In g gens -> fit_gen n gens g) ->
  (forall g j k, In g gens -> g_q g = [j; k] -> log_of logm data n l j k) ->
  fitted_rates logm data n gens = Ok rates ->
  nth_error gens i = Some {| g_b := str "1"; g_a := str "0"; g_q := [j] |} ->
  nth_error rates i = Some (Some (single_rate l n j "1"%char "0"%char))).
Proof.
  intros H. destruct (standard_set 2 ltac:(lia)) as (gens & E & _ & _ & Hin).
  assert (Hg : forall g j k, In g gens -> g_q g = [j; k] -> log_of ex_log ex_cal 2 ex_l j k).
  { intros g j k Hg Hq. destruct (standard_pair_inv 2 gens g j k E ltac:(lia) Hg Hq) as (Hj & Hk & Hjk). apply ex_logs; assumption. }
  pose proof (standard_fit 2 gens ltac:(lia) E) as Hf.
  specialize (H ex_log ex_cal 2 ex_l gens _ 0 0 ltac:(lia) Hf Hg (fit_rates ex_log ex_cal 2 ex_l gens ltac:(lia) Hf Hg)).
  vm_compute in E. injection E as <-. specialize (H eq_refl). apply (f_equal (fun o => match o with Some (Some q) => this q | _ => 0%Q end)) in H. vm_compute in H. discriminate.
Qed.
Print Assumptions C35_single_qubit_rate_refuted.

Example C35_example : this (single_rate ex_l 2 0 "1"%char "0"%char) = (1 # 4)%Q /\ this (single_rate ex_l 2 0 "0"%char "1"%char) = (0 # 1)%Q /\
  exists gens ct, standard_generator_set 2 None = Ok gens /\ fit_ctmp ex_log ex_cal 2 None = Ok ct /\
    map (fun gr => (fst gr, this (snd gr))) (ct_gens ct) = [({| g_b := str "0"; g_a := str "1"; g_q := [0] |}, (1 # 4)%Q)].
Proof.
  split; [vm_compute; reflexivity|]. split; [vm_compute; reflexivity|]. do 2 eexists. split; [vm_compute; reflexivity|]. split; vm_compute; reflexivity.
Qed.
