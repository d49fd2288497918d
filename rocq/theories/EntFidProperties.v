(** Property C73: GHZ fidelities from oscillations and density matrices. *)
From Coq Require Import QArith Qreals Reals Lra.
From Coquelicot Require Import Coquelicot.
From Verif Require Import LinAlg Base CountsModel CountsSpec QSem DihedralModel RBSeqModel RBSeqSpec CtmpSpec StdGates AccSpec TomoModel EntModel EntSpec EntMqcProofs EntFidModel EntFidSpec EntFidProofs EntFid2Proofs EntFid3Proofs.
Local Open Scope string_scope. Local Open Scope list_scope. Local Open Scope nat_scope.

(** Parity oscillations: from the mean parity at [N] equally spaced phases and the
    two populations, [get_fourier_info] returns the GHZ fidelity, for any state.  The peak
    returned is the coherence between |0..0> and |1..1>. *)
Theorem C73_po_fidelity : forall n N rho rho_m P x, 1 <= n -> enough_phases N n -> qstate n rho -> qstate n rho_m -> populations P n rho rho_m -> length x = N ->
  exists i, get_fourier_info (str "po") n x (sampled N (parity_signal n rho)) (Some (sampled N (parity_signal n rho_m))) (Some P) = Ok (PoInfo i) /\
    ghz_fidelity n rho (p_F i) /\ ghz_fidelity n rho_m (p_F_m i) /\ Cmod (p_In i) = Cmod (rho (zeros n) (ones n)) /\ Cmod (p_In_m i) = Cmod (rho_m (zeros n) (ones n)).
Proof. exact po_fidelity. Qed.
Print Assumptions C73_po_fidelity.

(** With twice as many phases as qubits, which are enough to have the peak, both
    sides of the spectrum meet there: a perfect cat state is reported as one half. *)
Theorem C73_phases_refuted : forall n, 1 <= n -> exists rho P, qstate n rho /\ normalised n rho /\ populations P n rho rho /\ ghz_fidelity n rho 1 /\
  forall x, length x = 2 * n -> exists i, get_fourier_info (str "po") n x (sampled (2 * n) (parity_signal n rho)) (Some (sampled (2 * n) (parity_signal n rho))) (Some P) = Ok (PoInfo i) /\
    p_F i = (/ 2)%R /\ p_F_m i = (/ 2)%R.
Proof.
  intros n Hn. exists (cat_state n (PI / 2)), half_pops. split; [apply pure_state|]. split; [apply cat_normalised, Hn|]. split; [apply half_populations, Hn|]. split; [apply cat_fidelity, Hn|].
  intros x Hx. apply few_phases; assumption.
Qed.
Print Assumptions C73_phases_refuted.

(** Multiple quantum coherence: the mitigated fidelity is right; the raw one is off by
    half the difference of the mitigated and raw populations.  The lower bounds hold;
    the upper bounds hold for states that flipping every qubit leaves alone. *)
Theorem C73_mqc_fidelity_partial : forall n N rho rho_m P x f f_m, 1 <= n -> 2 * n < N -> qstate n rho -> qstate n rho_m -> populations P n rho rho_m -> length x = N ->
  ghz_fidelity n rho f -> ghz_fidelity n rho_m f_m ->
  exists i, get_fourier_info (str "mqc") n x (sampled N (mqc_signal n rho)) (Some (sampled N (mqc_signal n rho_m))) (Some P) = Ok (MqcInfo i) /\
    m_F_m i = f_m /\ m_F i = (f + / 2 * (population rho_m (zeros n) + population rho_m (ones n) - (population rho (zeros n) + population rho (ones n))))%R /\
    (m_LB i <= f)%R /\ (m_LB_m i <= f_m)%R /\ (flip_invariant n rho -> f <= m_UB i)%R /\ (flip_invariant n rho_m -> f_m <= m_UB_m i)%R.
Proof. exact mqc_fidelity. Qed.
Print Assumptions C73_mqc_fidelity_partial.

(** The raw fidelity is computed from the mitigated populations: a state without any
    fidelity is reported with one half. *)
Theorem C73_raw_fidelity_refuted : exists rho rho_m P, qstate 2 rho /\ qstate 2 rho_m /\ normalised 2 rho /\ normalised 2 rho_m /\ populations P 2 rho rho_m /\ ghz_fidelity 2 rho 0 /\
  forall x, length x = 5 -> exists i, get_fourier_info (str "mqc") 2 x (sampled 5 (mqc_signal 2 rho)) (Some (sampled 5 (mqc_signal 2 rho_m))) (Some P) = Ok (MqcInfo i) /\ m_F i = (/ 2)%R.
Proof.
  assert (Q : forall b, qstate 2 (pure (ket b))) by (intros; apply pure_state).
  assert (PP : populations [(str "P0", 0%R); (str "P1", 0%R); (str "P0_m", 1%R); (str "P1_m", 0%R)] 2 (pure (ket [true; false])) (pure (ket [false; false]))).
  { constructor; unfold population; rewrite ?(ket_at (zeros 2)), ?ket_off by (left; discriminate); try reflexivity. change (zeros 2) with [false; false]. rewrite ket_at. reflexivity. }
  assert (F0 : ghz_fidelity 2 (pure (ket [true; false])) 0) by exact (ket_fidelity 2 [true; false] (le_S _ _ (le_n 1))).
  exists (pure (ket [true; false])), (pure (ket [false; false])). eexists. split; [apply Q|]. split; [apply Q|]. split; [apply ket_normalised; reflexivity|]. split; [apply ket_normalised; reflexivity|]. split; [exact PP|]. split; [exact F0|].
  intros x Hx. destruct (mqc_fidelity 2 5 _ _ _ x _ _ ltac:(lia) ltac:(lia) (Q _) (Q _) PP Hx F0 (ket_fidelity 2 [false; false] ltac:(lia))) as (i & Ei & _ & EF & _). exists i. split; [exact Ei|]. rewrite EF.
  unfold population. change (zeros 2) with [false; false]. rewrite ket_at. rewrite !ket_off by (left; discriminate). cbn. field.
Qed.
Print Assumptions C73_raw_fidelity_refuted.

(** The upper bound is no bound for states that the flip changes: the ground state
    has fidelity one half, and upper bound zero. *)
Theorem C73_upper_bound_refuted : forall n, 1 <= n -> exists rho, qstate n rho /\ normalised n rho /\ ghz_fidelity n rho (/ 2) /\
  forall N x P, n < N -> length x = N -> populations P n rho rho ->
  exists i, get_fourier_info (str "mqc") n x (sampled N (mqc_signal n rho)) (Some (sampled N (mqc_signal n rho))) (Some P) = Ok (MqcInfo i) /\ m_UB i = 0%R /\ m_UB_m i = 0%R.
Proof.
  intros n Hn. exists (pure (ket (zeros n))). split; [apply pure_state|]. split; [apply ket_normalised, repeat_length|]. split.
  - pose proof (ket_fidelity n (zeros n) Hn) as F. replace (mem (zeros n) [zeros n; ones n]) with true in F; [exact F|]. symmetry. apply mem_In. left. reflexivity.
  - intros N x P HN Hx HP. exact (upper_bound n N P x Hn HN Hx HP).
Qed.
Print Assumptions C73_upper_bound_refuted.

(** The two signals are those of the circuits: of the GHZ state, at every angle. *)
Theorem C73_circuit_signals : forall gmat r i, std_gates gmat r i -> forall n delta circ,
  (get_ghz_po n delta = Ok circ -> u2_phase gmat r [delta; (- delta)%Q] (expi (Q2R delta)) (expi (- Q2R delta)) ->
    fsum (map (fun y => ((-1) ^ weight y * prob gmat sqmod n n circ (key_of y))%R) (cube n)) = parity_signal n (cat_state n 0) (Q2R delta)) /\
  (get_ghz_mqc n delta true = Ok circ -> u1_phase gmat delta (expi (Q2R delta)) ->
    prob gmat sqmod n n circ (key_of (zeros n)) = mqc_signal n (cat_state n 0) (Q2R delta)).
Proof.
  intros gmat r i Hg n delta circ. assert (Hn : n = 0 \/ 1 <= n) by lia. destruct Hn as [->|Hn].
  - split; discriminate.
  - rewrite ghz_parity_signal, ghz_mqc_signal by exact Hn. split; intros E U.
    + exact (po_parity gmat r i Hg n delta circ (or_introl E) U).
    + exact (mqc_prob gmat r i Hg n delta circ true E U).
Qed.
Print Assumptions C73_circuit_signals.

(** [rho_to_fidelity]: the largest fidelity with a cat state of the first and last
    basis states. *)
Theorem C73_rho_fidelity : forall rho d, 2 <= d -> m_rows rho = d -> m_cols rho = d -> state (seq 0 d) (m_at rho) ->
  exists f, rho_to_fidelity rho = Ok f /\ best_fidelity (seq 0 d) 0 (d - 1) (m_at rho) f.
Proof. exact rho_fidelity. Qed.
Print Assumptions C73_rho_fidelity.
(** It is not the fidelity with the GHZ state, whose relative phase is zero: the state
    with the opposite phase, orthogonal to it, is given fidelity one. *)
Theorem C73_rho_phase_refuted : exists rho, m_rows rho = 2 /\ m_cols rho = 2 /\ state (seq 0 2) (m_at rho) /\ rho_to_fidelity rho = Ok 1%R /\ Re (form (seq 0 2) (m_at rho) (cat 0 1 0)) = 0%R.
Proof. exists (cat_mat PI). split; [reflexivity|]. split; [reflexivity|]. split; [apply cat_mat_state|exact cat_mat_pi]. Qed.
Print Assumptions C73_rho_phase_refuted.

(** The conditions: a cat state on three qubits, and seven phases. *)
Example C73_phases : enough_phases 7 3 /\ ~ enough_phases 6 3 /\ enough_phases 5 3.
Proof.
  assert (D : forall a b, 0 < a -> b mod a <> 0 -> ~ Nat.divide a b) by (intros a b Ha H Q; apply H, Nat.mod_divide; [lia|exact Q]).
  split; [|split].
  - split; [lia|]. intros w Hw. assert (w = 1 \/ w = 2 \/ w = 3) as [->|[-> | ->]] by lia; (apply D; [lia|discriminate]).
  - intros [_ H]. apply (H 3); [lia|]. exists 1. reflexivity.
  - split; [lia|]. intros w Hw. assert (w = 1 \/ w = 2 \/ w = 3) as [->|[-> | ->]] by lia; (apply D; [lia|discriminate]).
Qed.
Example C73_state : qstate 3 (cat_state 3 (PI / 3)) /\ normalised 3 (cat_state 3 (PI / 3)) /\ ghz_fidelity 3 (cat_state 3 (PI / 3)) 1 /\ populations half_pops 3 (cat_state 3 (PI / 3)) (cat_state 3 (PI / 3)).
Proof. split; [apply pure_state|]. split; [apply cat_normalised; lia|]. split; [apply cat_fidelity; lia|apply half_populations; lia]. Qed.
Example C73_reported : exists i, get_fourier_info (str "po") 3 [0; 1; 2; 3; 4; 5; 6]%R (sampled 7 (parity_signal 3 (cat_state 3 (PI / 3)))) (Some (sampled 7 (parity_signal 3 (cat_state 3 (PI / 3))))) (Some half_pops) = Ok (PoInfo i) /\ p_F i = 1%R.
Proof.
  destruct C73_state as (Q & _ & F & P). destruct (po_fidelity 3 7 _ _ _ [0; 1; 2; 3; 4; 5; 6]%R ltac:(lia) (proj1 C73_phases) Q Q P eq_refl) as (i & E & F' & _). exists i. split; [exact E|]. exact (best_unique (cube 3) (zeros 3) (ones 3) _ _ _ F' F).
Qed.
