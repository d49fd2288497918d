(** Property C27: errors per Clifford, errors per gate, coherence limit. *)
From Coq Require Import Reals Lra.
From Verif Require Import Base RBErrModel RBErrSpec RBErrProofs RBErrCohProofs.
Open Scope R_scope.

(** ** Meaning *)
Theorem C27_epc_1q gpc epgs qubit row : dget gpc qubit = Some row -> physical 1 (counts_of row epgs) ->
  calculate_1q_epc gpc epgs qubit = Ok (1 - survive 1 (counts_of row epgs)).
Proof. exact (epc_1q_ok gpc epgs qubit row). Qed.
Print Assumptions C27_epc_1q.

Theorem C27_epc_2q gpc epg q0 q1 epgs name row : dget gpc q0 = Some row -> 0 < get0 row name -> epg <= 3 / 4 -> known gpc [q0; q1] epgs ->
  calculate_2q_epc gpc epg [q0; q1] epgs name =
  Ok (error_of_alpha 4 (clifford_alpha (qubit_alpha gpc [q0; q1] epgs 0) (qubit_alpha gpc [q0; q1] epgs 1) (rpow (1 - 4 / 3 * epg) (get0 row name)))).
Proof. exact (epc_2q_ok gpc epg q0 q1 epgs name row). Qed.
Print Assumptions C27_epc_2q.

(** The deprecated [twoQ_clifford_error] agrees with [calculate_2q_epc]. *)
Theorem C27_two_functions_agree k0 k1 (g0 g1 : gates) e1 e2 e3 f1 f2 f3 ec : k0 <> k1 -> 0 < get0 g0 (str "cx") ->
  physical 2 (counts_of g0 (u_epgs e1 e2 e3)) -> physical 2 (counts_of g1 (u_epgs f1 f2 f3)) -> ec <= 3 / 4 ->
  forall ng, (k0 < k1)%nat -> ng = [(k0, g0); (k1, g1)] \/ ng = [(k1, g1); (k0, g0)] ->
  twoQ_clifford_error ng [0; 0; 0; 1; 1; 1; -1]%Z [e1; e2; e3; f1; f2; f3; ec] =
  calculate_2q_epc ng ec [k0; k1] [u_epgs e1 e2 e3; u_epgs f1 f2 f3] (str "cx").
Proof. exact (two_ways k0 k1 g0 g1 e1 e2 e3 f1 f2 f3 ec). Qed.
Print Assumptions C27_two_functions_agree.

(** ** No errors *)
Theorem C27_error_free_1q gpc epgs qubit : dget gpc qubit <> None -> Forall (fun p => snd p = 0) epgs -> calculate_1q_epc gpc epgs qubit = Ok 0.
Proof. exact (epc_1q_zero gpc epgs qubit). Qed.
Print Assumptions C27_error_free_1q.

Theorem C27_error_free_2q gpc q0 q1 epgs name row : dget gpc q0 = Some row -> dget gpc q1 <> None -> get0 row name <> 0 -> Forall (Forall (fun p => snd p = 0)) epgs ->
  calculate_2q_epc gpc 0 [q0; q1] epgs name = Ok 0.
Proof. exact (epc_2q_zero gpc q0 q1 epgs name row). Qed.
Print Assumptions C27_error_free_2q.

(** ** Ranges *)
Theorem C27_range_1q gpc epgs qubit row : dget gpc qubit = Some row -> counts_ok row -> errors_within 1 epgs ->
  exists v, calculate_1q_epc gpc epgs qubit = Ok v /\ 0 <= v <= 1.
Proof. exact (epc_1q_range gpc epgs qubit row). Qed.
Print Assumptions C27_range_1q.

Theorem C27_range_2q gpc epg q0 q1 epgs name row : dget gpc q0 = Some row -> dget gpc q1 <> None -> 0 < get0 row name -> 0 <= epg <= 3 / 4 ->
  (forall q row, dget gpc q = Some row -> counts_ok row) -> Forall (errors_within (/ 2)) epgs ->
  exists v, calculate_2q_epc gpc epg [q0; q1] epgs name = Ok v /\ 0 <= v <= 3 / 4.
Proof. exact (epc_2q_range gpc epg q0 q1 epgs name row). Qed.
Print Assumptions C27_range_2q.

(** ** Conversion and back *)

(** Two qubits: from the gate to the Clifford and back gives [shrink n e] for
    [n] gates per Clifford.  It is the error for one gate per Clifford, never
    more for at least one, and agrees to first order for any number. *)
Theorem C27_roundtrip_2q gpc epg q0 q1 epgs name row : dget gpc q0 = Some row -> 0 < get0 row name -> epg <= 3 / 4 -> known gpc [q0; q1] epgs -> positive gpc [q0; q1] epgs ->
  exists epc, calculate_2q_epc gpc epg [q0; q1] epgs name = Ok epc /\ calculate_2q_epg gpc epc [q0; q1] epgs name = Ok (shrink (get0 row name) epg).
Proof. exact (roundtrip_2q gpc epg q0 q1 epgs name row). Qed.
Print Assumptions C27_roundtrip_2q.

Theorem C27_roundtrip_2q_exact e : e <= 3 / 4 -> shrink 1 e = e.
Proof. exact (shrink_1 e). Qed.
Print Assumptions C27_roundtrip_2q_exact.

Theorem C27_roundtrip_2q_below n e : 1 <= n -> 0 <= e <= 3 / 4 -> shrink n e <= e.
Proof. exact (shrink_le n e). Qed.
Print Assumptions C27_roundtrip_2q_below.

Theorem C27_roundtrip_2q_first_order n : n <> 0 -> shrink n 0 = 0 /\ derivable_pt_lim (shrink n) 0 1.
Proof.
  intros H. split; [|exact (shrink_deriv n H)]. unfold shrink. replace (1 - 4 / 3 * 0) with 1 by lra. rewrite rpow_1. field. exact H.
Qed.
Print Assumptions C27_roundtrip_2q_first_order.

(** One qubit: from the Clifford to the gates and back. *)
Theorem C27_roundtrip_1q (gpc : dict nat gates) epc qubit (row : gates) n2 n3 : dget gpc qubit = Some row -> dget row (str "u2") = Some n2 -> dget row (str "u3") = Some n3 ->
  get0 row (str "cx") <= 0 -> 0 <= n2 -> 0 <= n3 -> 0 < n2 + 2 * n3 -> 2 * epc <= n2 + 2 * n3 -> epc <= n2 + 2 * n3 -> 0 <= get0 row (str "u1") ->
  exists epgs, calculate_1q_epg gpc epc qubit = Ok epgs /\ calculate_1q_epc gpc epgs qubit = Ok (back_1q n2 n3 epc).
Proof. exact (roundtrip_1q gpc epc qubit row n2 n3). Qed.
Print Assumptions C27_roundtrip_1q.

Theorem C27_roundtrip_1q_exact x : x <= 1 -> back_1q 1 0 x = x /\ back_1q 0 1 x = x.
Proof. exact (fun H => conj (back_1q_exact_u2 x H) (back_1q_exact_u3 x H)). Qed.
Print Assumptions C27_roundtrip_1q_exact.

Theorem C27_roundtrip_1q_first_order n2 n3 : 0 < n2 + 2 * n3 -> back_1q n2 n3 0 = 0 /\ derivable_pt_lim (back_1q n2 n3) 0 1.
Proof.
  intros H. split; [|exact (back_1q_deriv n2 n3 H)]. unfold back_1q, Rdiv. rewrite Rmult_0_r, !Rmult_0_l, Rminus_0_r, !rpow_1. lra.
Qed.
Print Assumptions C27_roundtrip_1q_first_order.

(** The single-qubit gate errors add up to the error per Clifford. *)
Theorem C27_epg_1q_adds_up (gpc : dict nat gates) epc qubit (row : gates) n2 n3 : dget gpc qubit = Some row -> dget row (str "u2") = Some n2 -> dget row (str "u3") = Some n3 ->
  get0 row (str "cx") <= 0 -> n2 + 2 * n3 <> 0 ->
  exists e2, calculate_1q_epg gpc epc qubit = Ok [(str "u1", 0); (str "u2", e2); (str "u3", 2 * e2)] /\ n2 * e2 + n3 * (2 * e2) = epc.
Proof.
  intros E E2 E3 Hc Hn. exists (epc / (n2 + 2 * n3)). split; [|field; exact Hn]. rewrite (epg_1q_ok gpc epc qubit row n2 n3 E E2 E3 Hc Hn).
  replace (2 * epc / (n2 + 2 * n3)) with (2 * (epc / (n2 + 2 * n3))) by (unfold Rdiv; ring). reflexivity.
Qed.
Print Assumptions C27_epg_1q_adds_up.

(** The conversions are not inverse to each other: two gates per Clifford of
    error 3/8 come back as 9/32, an error per Clifford of 1/2 as 7/16. *)
Theorem C27_roundtrip_refuted :
  (exists epc, calculate_2q_epc [(0%nat, [(str "cx", 2)]); (1%nat, [])] (3 / 8) [0; 1]%nat [] (str "cx") = Ok epc /\
     calculate_2q_epg [(0%nat, [(str "cx", 2)]); (1%nat, [])] epc [0; 1]%nat [] (str "cx") = Ok (9 / 32)) /\
  (exists epgs, calculate_1q_epg [(0%nat, [(str "u2", 0); (str "u3", 2)])] (1 / 2) 0 = Ok epgs /\
     calculate_1q_epc [(0%nat, [(str "u2", 0); (str "u3", 2)])] epgs 0 = Ok (7 / 16)).
Proof.
  split.
  - destruct (roundtrip_2q [(0%nat, [(str "cx", 2)]); (1%nat, [])] (3 / 8) 0 1 [] (str "cx") [(str "cx", 2)]) as (epc & E1 & E2); [reflexivity | change (0 < 2); lra | lra | | |].
    + intros i q e _ H. destruct i; discriminate.
    + intros i q e row _ H. destruct i; discriminate.
    + exists epc. split; [exact E1|]. rewrite E2. f_equal. replace (get0 [(str "cx", 2)] (str "cx")) with 2 by reflexivity. rewrite rpow_exp2 by lra. field.
  - destruct (roundtrip_1q [(0%nat, [(str "u2", 0); (str "u3", 2)])] (1 / 2) 0 [(str "u2", 0); (str "u3", 2)] 0 2) as (epgs & E1 & E2); try reflexivity; try lra; try (change (0 <= 0); lra).
    exists epgs. split; [exact E1|]. rewrite E2. f_equal. unfold back_1q. rewrite rpow_exp0, rpow_exp2 by lra. field.
Qed.
Print Assumptions C27_roundtrip_refuted.

(** ** Errors raised *)

(** A missing qubit is not always reported as documented; a vanishing number of
    pulses divides by zero; errors missing for the second qubit are ignored. *)
Theorem C27_errors_refuted :
  (forall gpc epg q0 q1 epgs name, dget gpc q0 = None -> calculate_2q_epc gpc epg [q0; q1] epgs name = Err KeyError) /\
  (forall gpc epc q0 q1 name, dget gpc q0 = None -> calculate_2q_epg gpc epc [q0; q1] [] name = Err KeyError) /\
  (forall epc, calculate_1q_epg [(0%nat, [(str "u2", 0); (str "u3", 0)])] epc 0 = Err ZeroDivisionError) /\
  (forall gpc q0 q1 e, alpha_1q gpc [q0; q1] [e] = do a <- alpha_qubit gpc (q0, e); Ok (a, 1)).
Proof.
  split; [|split; [|split]].
  - intros gpc epg q0 q1 epgs name E. unfold calculate_2q_epc. cbn [length Nat.eqb negb]. change (index_e [q0; q1] 0) with (Ok q0 : result nat). cbn [bind]. unfold dget_e. rewrite E. reflexivity.
  - intros gpc epc q0 q1 name E. unfold calculate_2q_epg. cbn [length Nat.eqb negb alpha_1q combine bind]. unfold pydiv at 1. destruct (Req_EM_T _ 0); [lra|]. cbn [bind].
    change (index_e [q0; q1] 0) with (Ok q0 : result nat). cbn [bind]. unfold dget_e. rewrite E. reflexivity.
  - intros epc. apply (epg_1q_zero_div _ _ _ [(str "u2", 0); (str "u3", 0)] 0 0); try reflexivity; [change (0 <= 0); lra | lra].
  - reflexivity.
Qed.
Print Assumptions C27_errors_refuted.

(** Other malformed arguments are refused with QiskitError. *)
Theorem C27_errors gpc e pair epgs name qubit : length pair <> 2%nat ->
  calculate_2q_epc gpc e pair epgs name = Err QiskitError /\ calculate_2q_epg gpc e pair epgs name = Err QiskitError /\
  (dget gpc qubit = None -> forall g, calculate_1q_epc gpc g qubit = Err QiskitError /\ calculate_1q_epg gpc e qubit = Err QiskitError).
Proof.
  intros H. unfold calculate_2q_epc, calculate_2q_epg. destruct (Nat.eqb_spec (length pair) 2); [contradiction|]. repeat split; unfold calculate_1q_epc, calculate_1q_epg; rewrite H0; reflexivity.
Qed.
Print Assumptions C27_errors.

(** ** Coherence limit *)

(** It is one minus the average gate fidelity of independent relaxation of the
    qubits, and refused with ValueError only for lists of a wrong length or
    other numbers of qubits. *)
Theorem C27_coherence_limit nQ T1 T2 t v : coherence_limit nQ T1 T2 t = Ok v ->
  length T1 = nQ /\ length (T2_of T1 T2) = nQ /\ (nQ = 1 \/ nQ = 2)%nat /\ v = avg_infidelity (2 ^ nQ) (relaxes t (combine T1 (T2_of T1 T2))).
Proof. exact (coherence_ok nQ T1 T2 t v). Qed.
Print Assumptions C27_coherence_limit.

Theorem C27_coherence_defined nQ T1 T2 t : length T1 = nQ -> length (T2_of T1 T2) = nQ -> (nQ = 1 \/ nQ = 2)%nat -> exists v, coherence_limit nQ T1 T2 t = Ok v.
Proof. exact (coherence_defined nQ T1 T2 t). Qed.
Print Assumptions C27_coherence_defined.

Theorem C27_coherence_error nQ T1 T2 t e : coherence_limit nQ T1 T2 t = Err e -> e = ValueError.
Proof. exact (coherence_error nQ T1 T2 t e). Qed.
Print Assumptions C27_coherence_error.

Theorem C27_coherence_range nQ T1 T2 t v : coherence_limit nQ T1 T2 t = Ok v -> 0 <= t -> times_ok (combine T1 (T2_of T1 T2)) ->
  0 <= v <= (2 ^ nQ - 1) / 2 ^ nQ.
Proof. exact (coherence_range nQ T1 T2 t v). Qed.
Print Assumptions C27_coherence_range.

(** Longer T1 or T2, or a shorter gate, never give a larger limit. *)
Theorem C27_coherence_monotone nQ T1 T2 t v T1' T2' t' v' : coherence_limit nQ T1 T2 t = Ok v -> coherence_limit nQ T1' T2' t' = Ok v' -> 0 <= t' <= t ->
  times_ok (combine T1 (T2_of T1 T2)) -> Forall2 slower (combine T1 (T2_of T1 T2)) (combine T1' (T2_of T1' T2')) -> v' <= v.
Proof. exact (coherence_mono nQ T1 T2 t v T1' T2' t' v'). Qed.
Print Assumptions C27_coherence_monotone.

Theorem C27_coherence_instant nQ T1 T2 v : coherence_limit nQ T1 T2 0 = Ok v -> v = 0.
Proof. exact (coherence_zero nQ T1 T2 v). Qed.
Print Assumptions C27_coherence_instant.

(** A case meeting the hypotheses: two gates of error 3/8 per Clifford, one
    [u2] gate of error 1/4 on each qubit. *)
Definition ex_gpc : dict nat gates := [(0%nat, [(str "u2", 1); (str "cx", 2)]); (1%nat, [(str "u2", 1); (str "cx", 2)])].
Definition ex_epgs : list gates := [[(str "u2", 1 / 4)]; [(str "u2", 1 / 4)]].
Example C27_example :
  known ex_gpc [0; 1]%nat ex_epgs /\ positive ex_gpc [0; 1]%nat ex_epgs /\
  calculate_2q_epc ex_gpc (3 / 8) [0; 1]%nat ex_epgs (str "cx") = Ok (219 / 320) /\
  calculate_1q_epc ex_gpc [(str "u2", 1 / 4)] 0 = Ok (1 / 4) /\
  times_ok (combine [50; 60] (T2_of [50; 60] None)) /\ Forall2 slower (combine [50; 60] (T2_of [50; 60] None)) (combine [70; 60] (T2_of [70; 60] (Some [100; 130]))).
Proof.
  assert (K : known ex_gpc [0; 1]%nat ex_epgs).
  { intros i q e Eq Ee. destruct i as [|[|i]]; cbn [nth_error ex_epgs] in *; [| |destruct i; discriminate]; injection Eq as <-; injection Ee as <-; exists [(str "u2", 1); (str "cx", 2)];
      (split; [reflexivity|]); apply Forall_cons; [change (0 <= 1 - 2 * (1 / 4) /\ 0 <= 1); lra | apply Forall_nil | change (0 <= 1 - 2 * (1 / 4) /\ 0 <= 1); lra | apply Forall_nil]. }
  assert (P : positive ex_gpc [0; 1]%nat ex_epgs).
  { intros i q e row Eq Ee Er. destruct i as [|[|i]]; cbn [nth_error ex_epgs] in *; [| |destruct i; discriminate]; injection Eq as <-; injection Ee as <-; injection Er as <-;
      apply Forall_cons; [cbn; lra | apply Forall_nil | cbn; lra | apply Forall_nil]. }
  split; [exact K|]. split; [exact P|]. split; [|split; [|split]].
  - rewrite (epc_2q_ok ex_gpc (3 / 8) 0 1 ex_epgs (str "cx") [(str "u2", 1); (str "cx", 2)] eq_refl ltac:(change (0 < 2); lra) ltac:(lra) K). f_equal.
    change (get0 [(str "u2", 1); (str "cx", 2)] (str "cx")) with 2. rewrite rpow_exp2 by lra.
    change (qubit_alpha ex_gpc [0; 1]%nat ex_epgs 0) with (rpow (1 - 2 * (1 / 4)) 1 * 1). change (qubit_alpha ex_gpc [0; 1]%nat ex_epgs 1) with (rpow (1 - 2 * (1 / 4)) 1 * 1).
    rewrite rpow_exp1 by lra. unfold error_of_alpha, clifford_alpha. field.
  - rewrite (epc_1q_ok ex_gpc [(str "u2", 1 / 4)] 0 [(str "u2", 1); (str "cx", 2)] eq_refl); [|apply Forall_cons; [change (0 <= 1 - 1 * (1 / 4) /\ 0 <= 1); lra | apply Forall_nil]].
    f_equal. change (counts_of [(str "u2", 1); (str "cx", 2)] [(str "u2", 1 / 4)]) with [(1 / 4, 1)]. cbn [survive]. rewrite rpow_exp1 by lra. lra.
  - repeat apply Forall_cons; try apply Forall_nil; cbn; lra.
  - repeat apply Forall2_cons; try apply Forall2_nil; unfold slower; cbn; lra.
Qed.
