(** Properties C44 to C48, C50 and C62: state and process tomography,
    qiskit/ignis/verification/tomography.  C44 of gate-set tomography and C49 are
    in GstProperties.v. *)
From Coq Require Import QArith Qreals Reals Lra.
From Coquelicot Require Import Coquelicot.
From Verif Require Import LinAlg Base ResultFacts PyStr CountsModel CountsSpec MeasCalModel QSem DihedralModel RBSeqModel RBSeqSpec CtmpSpec StdGates AccSpec EntSpec
  TomoModel TomoSpec TomoNameProofs TomoCircProofs TomoFitModel TomoFitSpec TomoLayerProofs TomoTensorProofs TomoBasisProofs TomoBornProofs TomoDataProofs TomoSiteProofs
  TomoCompleteProofs TomoPsdSpec TomoFitProofs TomoPsdProofs TomoPtrSpec TomoPtrProofs TomoPoolSpec TomoPoolProofs TomoHistProofs TomoTupleProofs TomoExample.
Local Open Scope string_scope.
Local Open Scope list_scope.
Local Open Scope nat_scope.

(** * C44: the circuits *)

(** State tomography of some qubits with the labels [ls] of a basis: one circuit for
    every choice of a label for each qubit, and no other; the names differ, and
    evaluating a name gives the labels.  The circuit for given labels is the given
    circuit followed by the measurement of every qubit, with its label, into the bit
    of its position. *)
Theorem C44_state_circuits : forall c mqs md mb bm ls,
  some_qubits c mqs -> default_basis mb = Ok (Some bm) -> tb_meas bm = Some md -> NoDup ls -> incl ls (md_labels md) -> Forall plain ls ->
  exists cs, state_tomography_circuits c mqs (LTuple ls) mb = Ok cs /\ length cs = length ls ^ length mqs /\ NoDup (map t_name cs) /\
  (forall t, choice (length mqs) ls t -> exists k, In k cs /\ literal_eval (t_name k) = Ok (VTup (map VStr t)) /\ state_circuit_for c md mqs t k) /\
  (forall k, In k cs -> exists t, choice (length mqs) ls t /\ literal_eval (t_name k) = Ok (VTup (map VStr t)) /\ state_circuit_for c md mqs t k).
Proof. exact state_circuits_lemma. Qed.
Print Assumptions C44_state_circuits.

(** Process tomography: the same for pairs of preparation and measurement labels. *)
Theorem C44_process_circuits : forall c mqs pqs md pd mb pb bm bp ls ps,
  some_qubits c mqs -> some_qubits c pqs -> length pqs = length mqs ->
  default_basis mb = Ok (Some bm) -> tb_meas bm = Some md -> default_basis pb = Ok (Some bp) -> tb_prep bp = Some pd ->
  NoDup ls -> incl ls (md_labels md) -> Forall plain ls -> NoDup ps -> incl ps (pd_labels pd) -> Forall plain ps ->
  let n := length mqs in
  exists cs, process_tomography_circuits c mqs (Some pqs) (LTuple ls) mb (LTuple ps) pb = Ok cs /\ length cs = length ps ^ n * length ls ^ n /\ NoDup (map t_name cs) /\
  (forall p t, choice n ps p -> choice n ls t -> exists k, In k cs /\
    literal_eval (t_name k) = Ok (VTup [VTup (map VStr p); VTup (map VStr t)]) /\ process_circuit_for c pd pqs p md mqs t k) /\
  (forall k, In k cs -> exists p t, choice n ps p /\ choice n ls t /\
    literal_eval (t_name k) = Ok (VTup [VTup (map VStr p); VTup (map VStr t)]) /\ process_circuit_for c pd pqs p md mqs t k).
Proof. exact process_circuits_lemma. Qed.
Print Assumptions C44_process_circuits.

(** The names of the built-in bases stand for these labels; prepared qubits not
    given are the measured ones. *)
Theorem C44_defaults : forall c mqs mb pb pl,
  state_tomography_circuits c mqs (LName (str "Pauli")) mb = state_tomography_circuits c mqs (LTuple [str "X"; str "Y"; str "Z"]) mb /\
  process_tomography_circuits c mqs None (LName (str "Pauli")) mb pl pb = process_tomography_circuits c mqs (Some mqs) (LTuple [str "X"; str "Y"; str "Z"]) mb pl pb /\
  process_tomography_circuits c mqs None (LName (str "Pauli")) mb (LName (str "Pauli")) pb =
    process_tomography_circuits c mqs None (LName (str "Pauli")) mb (LTuple [str "Zp"; str "Zm"; str "Xp"; str "Yp"]) pb /\
  process_tomography_circuits c mqs None (LName (str "Pauli")) mb (LName (str "SIC")) pb =
    process_tomography_circuits c mqs None (LName (str "Pauli")) mb (LTuple [str "S0"; str "S1"; str "S2"; str "S3"]) pb.
Proof.
  intros c mqs mb pb pl. unfold state_tomography_circuits, process_tomography_circuits, tomography_circuits.
  assert (E : forall A (x y : result A), x = y -> x = y) by auto.
  repeat split; (apply bind_ext; intros ?; apply bind_ext; intros ?; destruct (negb _); [reflexivity|]; apply bind_ext; intros [?|]; [|reflexivity || (apply bind_ext; intros ?; apply bind_ext; intros ?; reflexivity)];
    repeat (apply bind_ext; intros ?); try (destruct a3; reflexivity); reflexivity).
Qed.
Print Assumptions C44_defaults.

(** [tomography_circuit_tuples] lists every pair of label tuples once. *)
Theorem C44_tuples : forall n ls ps, NoDup ls -> NoDup ps ->
  exists l, tomography_circuit_tuples n (LTuple ls) (LTuple ps) = Ok l /\ NoDup l /\ length l = length ls ^ n * length ps ^ n /\
  forall x, In x l <-> exists p m, x = (Some p, Some m) /\ choice n ps p /\ choice n ls m.
Proof. exact tuples_lemma. Qed.
Print Assumptions C44_tuples.
(** The documentation has the pairs the other way round: (measurement, preparation). *)
Theorem C44_tuples_refuted : exists l, tomography_circuit_tuples 1 (LTuple [str "X"; str "Z"]) (LTuple [str "Zp"; str "Zm"]) = Ok l /\
  ~ In (Some [str "X"], Some [str "Zp"]) l /\ In (Some [str "Zp"], Some [str "X"]) l.
Proof. eexists. split; [vm_compute; reflexivity|]. split; [intros H; repeat (destruct H as [H|H]; [discriminate H|]); destruct H|vm_compute; auto]. Qed.
Print Assumptions C44_tuples_refuted.

Definition e44 : tcirc := {| t_name := str "bell"; t_width := 3; t_cregs := []; t_body := [CGate {| gname := str "h"; gparams := []; gqubits := [0] |}; CGate {| gname := str "cx"; gparams := []; gqubits := [0; 2] |}] |}.
Example C44_case : some_qubits e44 [2; 0] /\ exists cs k, state_tomography_circuits e44 [2; 0] (LName (str "Pauli")) (BName (str "Pauli")) = Ok cs /\ length cs = 9 /\
  nth_error cs 1 = Some k /\ t_name k = str "('X', 'Y')" /\
  t_body k = [CGate {| gname := str "h"; gparams := []; gqubits := [0] |}; CGate {| gname := str "cx"; gparams := []; gqubits := [0; 2] |}; CBarrier [0; 1; 2];
              g1 "h" [] 2; CMeasure 2 0; g1 "sdg" [] 0; g1 "h" [] 0; CMeasure 0 1].
Proof.
  split. { split; [discriminate|]. split; [repeat constructor; cbn; intuition lia|repeat constructor]. }
  do 2 eexists. split; [vm_compute; reflexivity|]. vm_compute. repeat split; reflexivity.
Qed.
Example C44_case_process : exists cs, process_tomography_circuits e44 [2; 0] (Some [1; 0]) (LName (str "Pauli")) (BName (str "Pauli")) (LName (str "SIC")) (BName (str "SIC")) = Ok cs /\ length cs = 144.
Proof. eexists. split; [vm_compute; reflexivity|]. reflexivity. Qed.

(** * C45: circuits and matrices of the bases *)

(** The standard matrices of the gates used; [tgate] is such a table. *)
Example C45_gates : tomo_gates tgate.
Proof. exact tgate_ok. Qed.

(** Measuring qubit [q] of any state of [N] qubits with a label of the Pauli basis:
    the circuit measures that qubit into the given bit, and outcome [o] has
    probability Tr[M rho], with M the stated matrix and rho the state of the qubit
    (both sides times the norm of the state). *)
Theorem C45_pauli_measurement : forall gmat d, tomo_gates gmat -> tb_meas PauliBasis = Some d ->
  forall l, In l (md_labels d) -> forall N q c (psi : amp C) o, q < N ->
  filter is_measure (md_circuit d l q c) = [CMeasure q c] /\
  RtoC (fsum (HF:=Fld_R) (map (fun x => if Bool.eqb (nth q x false) o then sqmod (run (map (op_of gmat) (gates (md_circuit d l q c))) psi x) else 0%R) (cube N))) =
  trace2 (at2 (md_matrix d l o)) (fun a b => reduced Cconj N [q] psi psi [a] [b]).
Proof. intros gmat d H E. exact (site_meas gmat d (pauli_meas_sound gmat H d E)). Qed.
Print Assumptions C45_pauli_measurement.

(** The operators of the two outcomes add up to the identity and are positive: they
    are V* |o><o| V for one V. *)
Theorem C45_pauli_povm : forall gmat d, tomo_gates gmat -> tb_meas PauliBasis = Some d -> sound_meas gmat d.
Proof. intros gmat d H. exact (pauli_meas_sound gmat H d). Qed.
Print Assumptions C45_pauli_povm.

(** Preparing qubit [q] with a label of either basis: if the qubit was zero, its
    state becomes the stated matrix. *)
Theorem C45_preparation : forall gmat d, tomo_gates gmat -> tb_prep PauliBasis = Some d \/ tb_prep SICBasis = Some d ->
  forall l, In l (pd_labels d) -> forall N q (psi : amp C) a b, q < N ->
  (forall x, length x = N -> nth q x false = true -> psi x = f0) ->
  filter is_measure (pd_circuit d l q) = [] /\
  let out := run (map (op_of gmat) (gates (pd_circuit d l q))) psi in
  reduced Cconj N [q] out out [a] [b] = fmul (at2 (pd_matrix d l) a b) (RtoC (norm2 N psi)).
Proof. intros gmat d H [E|E]; [exact (site_prep gmat d (pauli_prep_sound gmat H d E))|exact (site_prep gmat d (sic_prep_sound gmat H d E))]. Qed.
Print Assumptions C45_preparation.

(** The stated density matrices have trace one and are pure. *)
Theorem C45_states : forall gmat d, tomo_gates gmat -> tb_prep PauliBasis = Some d \/ tb_prep SICBasis = Some d -> sound_prep gmat d.
Proof. intros gmat d H [E|E]; [exact (pauli_prep_sound gmat H d E)|exact (sic_prep_sound gmat H d E)]. Qed.
Print Assumptions C45_states.

(** The SIC states are a SIC: halves of them add up to the identity, and any two
    of them have overlap 1/3. *)
Theorem C45_sic : (forall a b, fmul (RtoC (1 / 2)) (fsum (map (fun l => at2 (sicpovm_preparation_matrix l) a b) [str "S0"; str "S1"; str "S2"; str "S3"])) = if Bool.eqb a b then f1 else f0) /\
  forall l l', In l [str "S0"; str "S1"; str "S2"; str "S3"] -> In l' [str "S0"; str "S1"; str "S2"; str "S3"] ->
  trace2 (at2 (sicpovm_preparation_matrix l)) (at2 (sicpovm_preparation_matrix l')) = RtoC (if eqb l l' then 1 else 1 / 3).
Proof. split; [exact sic_tight|exact sic_equiangular]. Qed.
Print Assumptions C45_sic.

(** A label that is not one of the basis is refused. *)
Theorem C45_labels : forall b d op q c o, tb_meas b = Some d -> ~ In op (md_labels d) ->
  measurement_circuit b op q c = Err ValueError /\ measurement_matrix b op o = Err ValueError.
Proof. intros b d op q c o E N. unfold measurement_circuit, measurement_matrix. rewrite E. rewrite (proj2 (mem_not_In op (md_labels d)) N). split; reflexivity. Qed.
Print Assumptions C45_labels.

(** * C46: rows of the linear system *)

(** A row of state tomography, for labels [m] and outcomes [os], times the state
    after the circuit (column-major) is the probability of these outcomes in the
    circuit for these labels.  The row is built from the tensor product of the
    matrices of the basis, first label least significant. *)
Theorem C46_state_row : forall gmat N qs, NoDup qs -> Forall (fun q => q < N) qs ->
  forall d c m op os, sound_meas gmat d -> Forall (fun l => In l (md_labels d)) m -> length m = length qs -> only_gates c ->
  norm2 N (final gmat N c) <> 0%R -> length os = length qs ->
  is_tensor op (map (fun lo => at2 (md_matrix d (fst lo) (snd lo))) (combine m os)) ->
  dot (vec_conj (kron (transp eye1) op)) (vec (2 ^ length qs) (state_of gmat N c qs)) =
  RtoC (prob gmat (HK:=Fld_R) sqmod N (length qs) (c ++ CBarrier (seq 0 N) :: meas_layer d qs m) (key_of os)).
Proof. exact state_row. Qed.
Print Assumptions C46_state_row.

(** A row of process tomography times the Choi matrix of the channel from the
    prepared to the measured qubits. *)
Theorem C46_process_row : forall gmat N qs, NoDup qs -> Forall (fun q => q < N) qs ->
  forall pqs, NoDup pqs -> Forall (fun q => q < N) pqs -> length pqs = length qs ->
  forall pd p d c m P op os, sound_prep gmat pd -> Forall (fun l => In l (pd_labels pd)) p -> length p = length qs ->
  sound_meas gmat d -> Forall (fun l => In l (md_labels d)) m -> length m = length qs -> only_gates c -> isometric gmat N c -> length os = length qs ->
  is_tensor P (map (fun l => at2 (pd_matrix pd l)) p) -> is_tensor op (map (fun lo => at2 (md_matrix d (fst lo) (snd lo))) (combine m os)) ->
  dot (vec_conj (kron (transp P) op)) (vec (2 ^ length qs * 2 ^ length qs) (choi_of gmat N c pqs qs)) =
  RtoC (prob gmat (HK:=Fld_R) sqmod N (length qs) (prep_layer pd pqs p ++ [CBarrier (seq 0 N)] ++ c ++ CBarrier (seq 0 N) :: meas_layer d qs m) (key_of os)).
Proof. exact process_row. Qed.
Print Assumptions C46_process_row.

(** Hence exact data of a fitter satisfy its linear system exactly: [fitter_data]
    gives rows, as many as data, each row times the state being the datum; the
    weights are positive, one for each row. *)
Theorem C46_state_system : forall gmat N c qs b d f, qs <> [] -> NoDup qs -> Forall (fun q => q < N) qs -> only_gates c ->
  ft_meas f = Some b -> tb_meas b = Some d -> sound_meas gmat d -> forall weighted beta, (0 <= beta)%R ->
  exact_state_data gmat N c qs d (ft_data f) -> norm2 N (final gmat N c) <> 0%R ->
  exists data rows w, fitter_data f weighted beta = Ok (data, rows, w) /\
  Forall2 (fun r y => dot r (vec (2 ^ length qs) (state_of gmat N c qs)) = RtoC y) rows data /\
  Forall (fun r => length r = 2 ^ length qs * 2 ^ length qs) rows /\ rows <> [] /\ good_weights rows w /\ (w = None <-> weighted = false).
Proof.
  intros gmat N c qs b d f H1 H2 H3 H4 H5 H6 H7 weighted beta H8 H9 H10.
  destruct (state_system gmat N c qs b d f H1 H2 H3 H4 H5 H6 H7 weighted beta H8 H9 H10) as (data & rows & w & A & B & C1 & D & E & F & _). exists data, rows, w. auto 10.
Qed.
Print Assumptions C46_state_system.
Theorem C46_process_system : forall gmat N c qs b d f, qs <> [] -> NoDup qs -> Forall (fun q => q < N) qs -> only_gates c ->
  ft_meas f = Some b -> tb_meas b = Some d -> sound_meas gmat d -> forall weighted beta, (0 <= beta)%R ->
  forall pqs pb pd, NoDup pqs -> Forall (fun q => q < N) pqs -> length pqs = length qs -> ft_prep f = Some pb -> tb_prep pb = Some pd -> sound_prep gmat pd ->
  exact_process_data gmat N c pqs qs pd d (ft_data f) -> isometric gmat N c ->
  exists data rows w, fitter_data f weighted beta = Ok (data, rows, w) /\
  Forall2 (fun r y => dot r (vec (2 ^ length qs * 2 ^ length qs) (choi_of gmat N c pqs qs)) = RtoC y) rows data /\
  Forall (fun r => length r = 2 ^ length qs * 2 ^ length qs * (2 ^ length qs * 2 ^ length qs)) rows /\ rows <> [] /\ good_weights rows w /\ (w = None <-> weighted = false).
Proof.
  intros gmat N c qs b d f H1 H2 H3 H4 H5 H6 H7 weighted beta H8 pqs pb pd G1 G2 G3 G4 G5 G6 G7 G8.
  destruct (process_system gmat N c qs b d f H1 H2 H3 H4 H5 H6 H7 weighted beta H8 pqs pb pd G1 G2 G3 G4 G5 G6 G7 G8) as (data & rows & w & A & B & C1 & D & E & F & _). exists data, rows, w. auto 10.
Qed.
Print Assumptions C46_process_system.

(** Circuits of unitary gates are isometric. *)
Theorem C46_isometric : forall gmat N c, Forall (unitary_gate gmat N) (gates c) -> isometric gmat N c.
Proof. exact unitary_isometric. Qed.
Print Assumptions C46_isometric.

(** * C47: rescaling to a positive matrix *)

(** Eigenvalues in ascending order, whose sum is not negative, become non-negative
    numbers in ascending order with the same sum: the closest such. *)
Theorem C47_spectrum : forall dim v, ascending dim v -> (0 <= total dim v)%R ->
  let u := psd_values 0 dim v in
  (forall k, k < dim -> (0 <= u k)%R) /\ total dim u = total dim v /\ ascending dim u /\
  ((forall k, k < dim -> (0 <= v k)%R) -> u = v) /\
  forall p, (forall k, k < dim -> (0 <= p k)%R) -> total dim p = total dim v -> (dist2 dim u v + dist2 dim p u <= dist2 dim p v)%R.
Proof.
  intros dim v Ha Ht u. split; [intros k Hk; apply psd_nonneg; [lra|assumption]|]. split; [apply psd_total; assumption|]. split; [apply psd_ascending; [assumption|lra]|].
  split; [intros H; apply psd_values_id; exact H|]. intros p Hp E. apply closest; assumption.
Qed.
Print Assumptions C47_spectrum.

(** With a threshold: every value is zero or at least the threshold, and the sum is
    kept if it is at least the threshold. *)
Theorem C47_threshold : forall eps dim v, ascending dim v -> (0 <= eps)%R ->
  (forall k, k < dim -> psd_values eps dim v k = 0%R \/ (eps <= psd_values eps dim v k)%R) /\ ascending dim (psd_values eps dim v) /\
  ((eps <= total dim v)%R -> total dim (psd_values eps dim v) = total dim v).
Proof. intros eps dim v Ha He. split; [apply psd_big; assumption|]. split; [apply psd_ascending; assumption|]. intros Ht. apply psd_total; assumption. Qed.
Print Assumptions C47_threshold.

(** In any order of eigenvalues the result is non-negative. *)
Theorem C47_nonnegative : forall eps dim v, (0 <= eps)%R -> forall k, k < dim -> (0 <= psd_values eps dim v k)%R.
Proof. exact psd_nonneg. Qed.
Print Assumptions C47_nonnegative.

(** The matrix: for any eigen-decomposition with ascending eigenvalues that [eigh]
    returns, the result is positive, equal to the matrix if that was positive, and,
    if the trace is not negative, of the same trace and the closest such matrix. *)
Theorem C47_matrix : forall eigh m v w, eigh m = (v, w) -> eigen_of (m_rows m) (m_at m) v w -> ascending (m_rows m) v ->
  exists m', make_positive_semidefinite eigh m 0 = Ok m' /\ m_rows m' = m_rows m /\ m_cols m' = m_rows m /\ psd (m_rows m) (m_at m') /\
  (psd (m_rows m) (m_at m) -> same_entries (m_rows m) (m_at m') (m_at m)) /\
  ((0 <= total (m_rows m) v)%R ->
    ctrace (m_rows m) (m_at m') = ctrace (m_rows m) (m_at m) /\
    forall P, psd (m_rows m) P -> ctrace (m_rows m) P = ctrace (m_rows m) (m_at m) ->
    (frob2 (m_rows m) (m_at m') (m_at m) + frob2 (m_rows m) P (m_at m') <= frob2 (m_rows m) P (m_at m))%R).
Proof. exact mps_matrix. Qed.
Print Assumptions C47_matrix.

(** The fit is a state: positive and of the given trace, whatever the data, when the
    eigenvalues of the solution add up to a positive number. *)
Theorem C47_fit_physical : forall (eigh : cmat -> (nat -> R) * (nat -> nat -> C)) lstsq data rows wt t, (0 <= t)%R -> forall m,
  (forall m0, m_rows m0 = m_rows m -> (forall i j, m_at m0 i j = nth (i + j * m_rows m) (lstsq (fst (fit_system rows data wt)) (snd (fit_system rows data wt))) (RtoC 0)) ->
    let (v, w) := eigh m0 in
    (forall j k, j < m_rows m -> k < m_rows m -> fsum (map (fun a => fmul (Cconj (w a j)) (w a k)) (seq 0 (m_rows m))) = if Nat.eqb j k then f1 else f0) /\
    ascending (m_rows m) v /\ (0 < total (m_rows m) v)%R) ->
  lstsq_fit lstsq eigh data rows wt true (Some t) = Ok m -> psd (m_rows m) (m_at m) /\ ctrace (m_rows m) (m_at m) = RtoC t.
Proof. exact fit_physical. Qed.
Print Assumptions C47_fit_physical.

(** A spectrum of negative sum becomes zero: its sum is lost. *)
Theorem C47_negative_sum : exists v, ascending 2 v /\ total 2 (psd_values 0 2 v) <> total 2 v /\ forall k, k < 2 -> psd_values 0 2 v k = 0%R.
Proof.
  exists (fun k : nat => match k with 0 => (-3)%R | _ => 1%R end).
  assert (E : forall k, k < 2 -> psd_values 0 2 (fun k : nat => match k with 0 => (-3)%R | _ => 1%R end) k = 0%R).
  { intros k Hk. unfold psd_values. cbn [seq fold_left]. unfold psd_step at 2. destruct (Rlt_dec (-3) 0) as [_|N]; [|lra]. cbn [Nat.eqb Nat.ltb Nat.leb andb Nat.sub Nat.add].
    unfold psd_step. cbn [Nat.eqb Nat.ltb Nat.leb andb Nat.sub Nat.add INR]. destruct (Rlt_dec _ 0) as [_|N]; [|exfalso; apply N; lra].
    destruct k as [|[|k]]; [reflexivity|reflexivity|lia]. }
  split; [intros i j H1 H2; destruct i as [|i], j as [|j]; try lra; lia|]. split; [|exact E].
  unfold total. cbn [seq map]. rewrite !fsum_cons, !fsum_nil, !E by lia. cbn. lra.
Qed.
Print Assumptions C47_negative_sum.

(** (-1/5, 1/5, 1) of sum one becomes (0, 1/10, 9/10). *)
Definition e47 (k : nat) : R := match k with 0 => (-1 / 5)%R | 1 => (1 / 5)%R | _ => 1%R end.
Example C47_case : ascending 3 e47 /\ total 3 e47 = 1%R /\ psd_values 0 3 e47 0 = 0%R /\ psd_values 0 3 e47 1 = (1 / 10)%R /\ psd_values 0 3 e47 2 = (9 / 10)%R.
Proof.
  split; [intros i j H1 H2; destruct i as [|[|i]], j as [|[|j]]; cbn; try lra; lia|]. split; [unfold total; cbn [seq map]; rewrite !fsum_cons, fsum_nil; cbn; lra|].
  unfold psd_values. cbn [seq fold_left]. set (v1 := psd_step 0 3 e47 0).
  assert (A : v1 0 = 0%R /\ v1 1 = (1 / 10)%R /\ v1 2 = (9 / 10)%R).
  { unfold v1, psd_step. destruct (Rlt_dec (e47 0) 0) as [_|N]; [|exfalso; apply N; cbn; lra]. cbn. repeat split; lra. }
  clearbody v1. destruct A as (A0 & A1 & A2). unfold psd_step at 2 4 6. destruct (Rlt_dec (v1 1) 0) as [N|_]; [lra|]. unfold psd_step. destruct (Rlt_dec (v1 2) 0) as [N|_]; [lra|]. auto.
Qed.

(** * C48: the partial trace *)
Theorem C48_partial_trace : forall d1 d2 M r c, r < d1 -> c < d1 ->
  fsum (map (fun k => fmul (m_at (partial_trace_super d1 d2) (r + c * d1) k) (M (k mod (d1 * d2)) (k / (d1 * d2)))) (seq 0 (d1 * d2 * (d1 * d2)))) = trace_second d2 M r c.
Proof. exact ptr_lemma. Qed.
Print Assumptions C48_partial_trace.
Theorem C48_shape : forall d1 d2, m_rows (partial_trace_super d1 d2) = d1 * d1 /\ m_cols (partial_trace_super d1 d2) = d1 * d2 * (d1 * d2).
Proof.
  intros d1 d2. destruct (ptr_entries d1 d2) as (A & B & _). split; [exact A|]. rewrite B. lia.
Qed.
Print Assumptions C48_shape.
(** |00><00| + |11><01| on two qubits. *)
Example C48_case : trace_second 2 (fun i j => match i, j with 0, 0 => RtoC 1 | 3, 1 => RtoC 1 | _, _ => RtoC 0 end) 1 0 = RtoC 1.
Proof. unfold trace_second. cbn [seq map]. rewrite !fsum_cons, fsum_nil. cbn. apply injective_projections; cbn; ring. Qed.

(** * C50: pooling *)

(** Any number of calls of [add_data]: the shots of a label and outcome are those the
    fitter had plus those used of every call.  Used of a circuit are the counts of
    the last result of the call that has it; when the circuits have other registers
    (of a process on [n] qubits), the first [n] bits of them.  The labels are those
    of the circuits. *)
Theorem C50_history_partial : forall calls uss, Forall2 call_used calls uss -> forall f, exists f',
  foldM (fun f call => add_data f (fst call) (snd call)) calls f = Ok f' /\ ft_meas f' = ft_meas f /\ ft_prep f' = ft_prep f /\
  (forall t k, shots_at (ft_data f') t k = (shots_at (ft_data f) t k + shots_used (concat uss) t k)%Z) /\
  (forall t, In t (dkeys (ft_data f')) <-> In t (dkeys (ft_data f)) \/ In t (map fst (concat uss))) /\ (NoDup (dkeys (ft_data f)) -> NoDup (dkeys (ft_data f'))).
Proof. exact history_pools. Qed.
Print Assumptions C50_history_partial.

Definition f50 : fitter := {| ft_meas := Some PauliBasis; ft_prep := None; ft_data := [] |}.
Definition r50 (a b : Z) : qresult := [{| e_name := str "('X',)"; e_counts := [(str "0", a); (str "1", b)] |}].
(** Of several results of one call only the last is used. *)
Theorem C50_results_refuted : exists f', add_data f50 [r50 10 0; r50 4 6] [CName (str "('X',)")] = Ok f' /\
  shots_at (ft_data f') (VTup [VStr (str "X")]) (str "0") = 4%Z.
Proof. eexists. split; [vm_compute; reflexivity|]. vm_compute. reflexivity. Qed.
Print Assumptions C50_results_refuted.
(** In two calls they are added. *)
Example C50_case : exists f1 f2, add_data f50 [r50 10 0] [CName (str "('X',)")] = Ok f1 /\ add_data f1 [r50 4 6] [CName (str "('X',)")] = Ok f2 /\
  shots_at (ft_data f2) (VTup [VStr (str "X")]) (str "0") = 14%Z /\ shots_at (ft_data f2) (VTup [VStr (str "X")]) (str "1") = 6%Z.
Proof. do 2 eexists. split; [vm_compute; reflexivity|]. split; [vm_compute; reflexivity|]. vm_compute. split; reflexivity. Qed.
(** State tomography of two qubits in a circuit with a register of its own: only the
    bit of the first qubit is kept. *)
Definition k50 : tcirc := {| t_name := str "('X', 'X')"; t_width := 2; t_cregs := [2; 1]; t_body := [] |}.
Definition x50 : qresult := [{| e_name := str "('X', 'X')"; e_counts := [(str "0 10", 7%Z); (str "1 01", 2%Z)] |}].
Theorem C50_state_registers_refuted : exists f', add_data f50 [x50] [CCirc k50] = Ok f' /\
  dget (ft_data f') (VTup [VStr (str "X"); VStr (str "X")]) = Some [(str "0", 7%Z); (str "1", 2%Z)].
Proof. eexists. split; [vm_compute; reflexivity|]. vm_compute. reflexivity. Qed.
Print Assumptions C50_state_registers_refuted.
(** Process tomography keeps both. *)
Definition k50' : tcirc := {| t_name := str "(('Zp', 'Zp'), ('X', 'X'))"; t_width := 2; t_cregs := [2; 1]; t_body := [] |}.
Definition x50' : qresult := [{| e_name := str "(('Zp', 'Zp'), ('X', 'X'))"; e_counts := [(str "0 10", 7%Z); (str "1 10", 1%Z); (str "1 01", 2%Z)] |}].
Example C50_case_registers : exists f', add_data f50 [x50'] [CCirc k50'] = Ok f' /\
  dget (ft_data f') (VTup [VTup [VStr (str "Zp"); VStr (str "Zp")]; VTup [VStr (str "X"); VStr (str "X")]]) = Some [(str "01", 2%Z); (str "10", 8%Z)].
Proof. eexists. split; [vm_compute; reflexivity|]. vm_compute. reflexivity. Qed.
(** A circuit that no result has: QiskitError, as documented, only if it is given as a
    circuit. *)
Theorem C50_missing : forall f rs c cs, Forall (fun r => Forall (fun e => e_name e <> t_name c) r) rs -> add_data f rs (CCirc c :: cs) = Err QiskitError.
Proof.
  intros f rs c cs H. unfold add_data. rewrite foldM_cons'. unfold add_circuit, find_counts. cbn [arg_name].
  assert (E : forall acc, fold_left (fun acc r => match get_counts r (t_name c) with Ok c0 => Some c0 | Err _ => acc end) rs acc = acc).
  { induction H as [|r rs Hr _ IH]; intros acc; [reflexivity|]. cbn [fold_left]. rewrite (get_counts_none _ _ Hr). apply IH. }
  rewrite E. reflexivity.
Qed.
Print Assumptions C50_missing.
Theorem C50_missing_refuted : add_data f50 [r50 1 1] [CName (str "('Y',)")] = Err AttributeError.
Proof. vm_compute. reflexivity. Qed.
Print Assumptions C50_missing_refuted.

(** * C62: the fit of exact data is the state *)

(** The measurements of the Pauli basis, and the preparations of both bases,
    determine every matrix. *)
Theorem C62_complete : site_complete (list_prod [str "X"; str "Y"; str "Z"] [false; true]) (fun lo => at2 (pauli_measurement_matrix (fst lo) (snd lo))) /\
  site_complete [str "Zp"; str "Zm"; str "Xp"; str "Yp"] (fun l => at2 (pauli_preparation_matrix l)) /\
  site_complete [str "S0"; str "S1"; str "S2"; str "S3"] (fun l => at2 (sicpovm_preparation_matrix l)).
Proof. split; [exact pauli_meas_complete|]. split; [exact pauli_prep_complete|exact sic_prep_complete]. Qed.
Print Assumptions C62_complete.

(** State tomography with a basis that determines every matrix: from the circuits
    made for a circuit of gates, and results with exactly the probabilities of these
    circuits, the fitter is built, and its least-squares fit (weighted or not) is the
    state of the qubits after the circuit.  Asked of [lstsq] is a minimiser of the
    residual of the system it is given; of [eigh], an eigen-decomposition of the
    state. *)
Theorem C62_state : forall gmat lstsq eigh cvx_fit sdp c qs mb b d ls,
  some_qubits c qs -> t_cregs c = [] -> only_gates (t_body c) -> default_basis mb = Ok (Some b) -> tb_meas b = Some d -> sound_meas gmat d ->
  NoDup ls -> incl ls (md_labels d) -> Forall plain ls -> site_complete (list_prod ls [false; true]) (fun lo => at2 (md_matrix d (fst lo) (snd lo))) -> ls <> [] ->
  forall rs weighted beta method cs, state_tomography_circuits c qs (LTuple ls) mb = Ok cs -> wf_results rs -> (0 <= beta)%R ->
  method = MLstsq \/ method = MAuto /\ sdp = false ->
  (forall k, In k cs -> exists cts, last_counts rs (t_name k) cts /\ exact_counts gmat (t_width c) (length qs) (t_body k) cts) ->
  norm2 (t_width c) (final gmat (t_width c) (t_body c)) <> 0%R ->
  let dim := 2 ^ length qs in let rho := state_of gmat (t_width c) (t_body c) qs in
  exists f, new_fitter rs (map CCirc cs) mb BNone = Ok f /\
  ((forall data rows w, fitter_data f weighted beta = Ok (data, rows, w) ->
     least_squares (dim * dim) (fst (fit_system rows data w)) (snd (fit_system rows data w)) (lstsq (fst (fit_system rows data w)) (snd (fit_system rows data w)))) ->
   (forall m, m_rows m = dim -> m_cols m = dim -> same_entries dim (m_at m) rho -> eigen_of dim (m_at m) (fst (eigh m)) (snd (eigh m))) ->
   exists m, state_fit lstsq eigh cvx_fit sdp f method weighted beta = Ok m /\ m_rows m = dim /\ m_cols m = dim /\ same_entries dim (m_at m) rho).
Proof. exact state_end_to_end. Qed.
Print Assumptions C62_state.

(** Process tomography: the Choi matrix of the channel. *)
Theorem C62_process : forall gmat lstsq eigh cvx_fit sdp c qs mb b d ls,
  some_qubits c qs -> t_cregs c = [] -> only_gates (t_body c) -> default_basis mb = Ok (Some b) -> tb_meas b = Some d -> sound_meas gmat d ->
  NoDup ls -> incl ls (md_labels d) -> Forall plain ls -> site_complete (list_prod ls [false; true]) (fun lo => at2 (md_matrix d (fst lo) (snd lo))) -> ls <> [] ->
  forall pqs pb p pd ps, some_qubits c pqs -> length pqs = length qs -> default_basis pb = Ok (Some p) -> tb_prep p = Some pd -> sound_prep gmat pd ->
  NoDup ps -> incl ps (pd_labels pd) -> Forall plain ps -> site_complete ps (fun l => at2 (pd_matrix pd l)) -> ps <> [] ->
  forall rs weighted beta method cs, process_tomography_circuits c qs (Some pqs) (LTuple ls) mb (LTuple ps) pb = Ok cs -> wf_results rs -> (0 <= beta)%R ->
  method = MLstsq \/ method = MAuto /\ sdp = false ->
  (forall k, In k cs -> exists cts, last_counts rs (t_name k) cts /\ exact_counts gmat (t_width c) (length qs) (t_body k) cts) ->
  isometric gmat (t_width c) (t_body c) ->
  let dim := 2 ^ length qs * 2 ^ length qs in let choi := choi_of gmat (t_width c) (t_body c) pqs qs in
  exists f, new_fitter rs (map CCirc cs) mb pb = Ok f /\
  ((forall data rows w, fitter_data f weighted beta = Ok (data, rows, w) ->
     least_squares (dim * dim) (fst (fit_system rows data w)) (snd (fit_system rows data w)) (lstsq (fst (fit_system rows data w)) (snd (fit_system rows data w)))) ->
   (forall m, m_rows m = dim -> m_cols m = dim -> same_entries dim (m_at m) choi -> eigen_of dim (m_at m) (fst (eigh m)) (snd (eigh m))) ->
   exists m, process_fit lstsq eigh cvx_fit sdp f method weighted beta = Ok m /\ m_rows m = dim /\ m_cols m = dim /\ same_entries dim (m_at m) choi).
Proof. exact process_end_to_end. Qed.
Print Assumptions C62_process.

(** The same of a fitter's data, however they were added, when they are exact and
    there are some for every choice of labels. *)
Theorem C62_state_data : forall gmat lstsq eigh cvx_fit sdp N c qs b d f, qs <> [] -> NoDup qs -> Forall (fun q => q < N) qs -> only_gates c ->
  ft_meas f = Some b -> tb_meas b = Some d -> sound_meas gmat d -> forall weighted beta, (0 <= beta)%R ->
  forall ls, site_complete (list_prod ls [false; true]) (fun lo => at2 (md_matrix d (fst lo) (snd lo))) ->
  forall method, method = MLstsq \/ method = MAuto /\ sdp = false ->
  exact_state_data gmat N c qs d (ft_data f) -> covers_states (length qs) ls (ft_data f) -> norm2 N (final gmat N c) <> 0%R ->
  let dim := 2 ^ length qs in let rho := state_of gmat N c qs in
  (forall data rows w, fitter_data f weighted beta = Ok (data, rows, w) ->
     least_squares (dim * dim) (fst (fit_system rows data w)) (snd (fit_system rows data w)) (lstsq (fst (fit_system rows data w)) (snd (fit_system rows data w)))) ->
  (forall m, m_rows m = dim -> m_cols m = dim -> same_entries dim (m_at m) rho -> eigen_of dim (m_at m) (fst (eigh m)) (snd (eigh m))) ->
  exists m, state_fit lstsq eigh cvx_fit sdp f method weighted beta = Ok m /\ m_rows m = dim /\ m_cols m = dim /\ same_entries dim (m_at m) rho.
Proof. exact state_fit_exact. Qed.
Print Assumptions C62_state_data.

(** State tomography of |1> in the Pauli basis, with 100 shots for each circuit: the
    hypotheses hold, so that the fit is that state. *)
Example C62_case : state_tomography_circuits c62 [0] (LTuple [str "X"; str "Y"; str "Z"]) (BName (str "Pauli")) = Ok cs62 /\
  new_fitter [r62] (map CCirc cs62) (BName (str "Pauli")) BNone = Ok f62 /\
  exact_state_data tgate 1 [xg] [0] d62 (ft_data f62) /\ covers_states 1 [str "X"; str "Y"; str "Z"] (ft_data f62) /\
  (forall weighted beta data rows w, (0 <= beta)%R -> fitter_data f62 weighted beta = Ok (data, rows, w) ->
    least_squares 4 (fst (fit_system rows data w)) (snd (fit_system rows data w)) (lstsq62 (fst (fit_system rows data w)) (snd (fit_system rows data w)))) /\
  (forall m, same_entries 2 (m_at m) rho62 -> eigen_of 2 (m_at m) (fst (eigh62 m)) (snd (eigh62 m))) /\
  (forall a b, a < 2 -> b < 2 -> rho62 a b = RtoC (if (a =? 1) && (b =? 1) then 1 else 0)) /\
  forall cvx, exists m, state_fit lstsq62 eigh62 cvx false f62 MAuto true (1 / 2)%R = Ok m /\ m_rows m = 2 /\ m_cols m = 2 /\ same_entries 2 (m_at m) rho62.
Proof.
  split; [vm_compute; reflexivity|]. split; [vm_compute; reflexivity|]. split; [exact f62_exact|]. split; [exact f62_covers|].
  split; [intros; apply lstsq62_ok with (weighted := weighted) (beta := beta); assumption|]. split; [exact eigh62_ok|]. split; [exact rho62_at|].
  intros cvx. apply (C62_state_data tgate lstsq62 eigh62 cvx false 1 [xg] [0] PauliBasis d62 f62) with (ls := [str "X"; str "Y"; str "Z"]); auto.
  - discriminate.
  - constructor; [intros []|constructor].
  - repeat constructor.
  - apply (pauli_meas_sound tgate tgate_ok). reflexivity.
  - lra.
  - exact pauli_meas_complete.
  - exact f62_exact.
  - exact f62_covers.
  - rewrite norm62. lra.
  - intros data rows w E. apply (lstsq62_ok true (1 / 2)%R); [lra|exact E].
  - intros m _ _ H. apply eigh62_ok, H.
Qed.
