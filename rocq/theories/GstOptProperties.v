(** Properties of the optimisations of gate-set tomography: vectors (C64), constraints
    (C65), the fit (C66) and the gauge (C67). *)
From Coq Require Import QArith Reals Lra.
From Coquelicot Require Import Coquelicot.
From Verif Require Import LinAlg Base ResultFacts PyStr CtmpSpec EntSpec TomoModel TomoFitModel TomoFitSpec TomoPsdSpec GstModel GstInvSpec GstOptModel GstOptSpec GstEncProofs GstConsProofs GstFitProofs GstGaugeProofs GstCaseProofs GstLimitProofs GstStateProofs.
Local Open Scope string_scope.
Local Open Scope list_scope.
Local Open Scope nat_scope.

(** * C64: vectors of the optimisation *)

(** Every vector of the right length stands for a gate set whose effect, state and
    Choi matrices are positive; another length raises RuntimeError. *)
Theorem C64_decoding : forall q n x,
  (length x = vec_length q n -> exists E rho Gs, split_input_vector q n x = Ok (E, rho, Gs) /\ length Gs = n /\ expressible q E rho Gs) /\
  (length x <> vec_length q n -> split_input_vector q n x = Err RuntimeError).
Proof. intros q n x. split; [apply decoding_lemma|apply decoding_error]. Qed.
Print Assumptions C64_decoding.

(** Every such gate set is the one of its own vector, given a Schur decomposition of
    its matrices. *)
Theorem C64_encoding : forall schur q E rho Gs, expressible q E rho Gs ->
  schur_on schur (2 ^ q) (square (2 ^ q) E) -> schur_on schur (2 ^ q) (square (2 ^ q) rho) -> Forall (fun G => schur_on schur (4 ^ q) (choi_matrix q (m_at G))) Gs ->
  exists x Gs', join_input_vector schur q E rho Gs = Ok x /\ length x = vec_length q (length Gs) /\
    split_input_vector q (length Gs) x = Ok (E, rho, Gs') /\
    Forall2 (fun G' G => m_rows G' = 4 ^ q /\ m_cols G' = 4 ^ q /\ same_entries (4 ^ q) (m_at G') (m_at G)) Gs' Gs.
Proof.
  intros schur q E rho Gs H1 H2 H3 H4. destruct (encoding_lemma schur q E rho Gs H1 H2 H3 H4) as (x & E' & rho' & Gs' & A & B & D & -> & -> & F). exists x, Gs'. auto.
Qed.
Print Assumptions C64_encoding.

(** The ideal gate set of the default basis can be encoded. *)
Example C64_encoding_case : let Gs := map (fun g => cptm4 (d_G g)) d_gates in
  expressible 1 (cvec4 default_vec) (cvec4 default_vec) Gs /\ schur_on d_schur (2 ^ 1) (square (2 ^ 1) (cvec4 default_vec)) /\
  Forall (fun G => schur_on d_schur (4 ^ 1) (choi_matrix 1 (m_at G))) Gs.
Proof. intros Gs. split; [exact (ad_expressible _ _ _ _ d_admissible)|]. split; [exact schur_vec|]. apply Forall_map. exact d_schur_gates. Qed.
Example C64_decoding_case : vec_length 1 3 = 112. Proof. reflexivity. Qed.

(** The lists of the effect and of the state, not their operators, are made positive.
    The states that can be reached have an occupation of |0> at least that of |1> and,
    when Hermitian, equal expectations of X and Y ... *)
Theorem C64_states : forall n x E rho Gs, split_input_vector 1 n x = Ok (E, rho, Gs) ->
  forall v, v = E \/ v = rho -> let r := operator_of (fun i => nth i v (RtoC 0)) in
  (fst (r 1%nat 1%nat) <= fst (r 0%nat 0%nat))%R /\ (hermitian 2 r -> fst (r 0 1) = (- snd (r 0%nat 1%nat))%R).
Proof.
  intros n x E rho Gs S v Hv. destruct (Nat.eq_dec (length x) (vec_length 1 n)) as [L|L]; [|rewrite decoding_error in S by exact L; discriminate].
  destruct (decoding_lemma 1 n x L) as (E' & rho' & Gs' & S' & _ & X). rewrite S in S'. injection S' as <- <- <-. destruct X. destruct Hv as [->| ->]; apply states_lemma; assumption.
Qed.
Print Assumptions C64_states.
(** ... so that no vector stands for the state |1><1| or |+><+| ... *)
Theorem C64_states_refuted : forall n x E rho Gs, split_input_vector 1 n x = Ok (E, rho, Gs) -> let r := operator_of (fun i => nth i rho (RtoC 0)) in
  ~ same_entries 2 r (fun i j => if (i =? 1) && (j =? 1) then RtoC 1 else RtoC 0) /\ ~ same_entries 2 r (fun _ _ => RtoC (1 / 2)).
Proof.
  intros n x E rho Gs S. destruct (C64_states n x E rho Gs S rho (or_intror eq_refl)) as (A & B). cbv zeta. split; intros H.
  - rewrite !H in A by lia. cbn in A. lra.
  - assert (Hm : hermitian 2 (operator_of (fun i => nth i rho (RtoC 0)))) by (intros a b Ha Hb; rewrite !H by assumption; apply injective_projections; cbn; lra). specialize (B Hm). rewrite !H in B by lia. cbn in B. lra.
Qed.
Print Assumptions C64_states_refuted.
(** ... and some vectors that meet all the constraints stand for operators that are
    not even Hermitian. *)
Theorem C64_hermitian_refuted : forall n terms, exists x E rho Gs, let p := mle_problem_of 1 n terms in feasible (mp_eq p) (mp_ineq p) x /\ split_input_vector 1 n x = Ok (E, rho, Gs) /\
  ~ hermitian 2 (operator_of (fun i => nth i rho (RtoC 0))) /\ ~ hermitian 2 (operator_of (fun i => nth i E (RtoC 0))).
Proof. exact bad_state. Qed.
Print Assumptions C64_hermitian_refuted.

(** * C65: constraints *)

(** The equalities of the gates hold exactly when all of them preserve the trace and
    are real; the inequalities exactly when the entries of all the rows but the first
    are between -1 and 1. *)
Theorem C65_constraints : forall q n x E rho Gs, split_input_vector q n x = Ok (E, rho, Gs) ->
  (exists l, bounds_eq_constraint q n x = Ok l /\ (Forall (fun v => v = 0%R) l <-> Forall (fun G => trace_preserving q (m_at G) /\ forall i j, i < 4 ^ q -> j < 4 ^ q -> is_real (m_at G i j)) Gs)) /\
  (exists l, bounds_ineq_constraint q n x = Ok l /\ (Forall (fun v => (0 <= v)%R) l <-> Forall (fun G => forall i j, 0 < i -> i < 4 ^ q -> j < 4 ^ q -> (-1 <= fst (m_at G i j) <= 1)%R) Gs)).
Proof. exact constraints_lemma. Qed.
Print Assumptions C65_constraints.

(** The equality of the state holds exactly when its operator has trace one ... *)
Theorem C65_trace : forall n x E rho Gs, split_input_vector 1 n x = Ok (E, rho, Gs) ->
  exists l, rho_trace_constraint 1 n x = Ok l /\ (Forall (fun v => v = 0%R) l <-> csumn 2 (fun r => operator_of (fun i => nth i rho (RtoC 0)) r r) = f1).
Proof.
  intros n x E rho Gs S. eexists. split; [exact (trace_constraint n x E rho Gs S)|]. set (t := csumn 2 _). split.
  - intros H. apply Forall_inv in H as H1. apply Forall_inv_tail, Forall_inv in H. apply injective_projections; cbn; lra.
  - intros ->. constructor; [cbn; lra|]. constructor; [reflexivity|constructor].
Qed.
Print Assumptions C65_trace.
(** ... but it cannot be evaluated for any other number of qubits. *)
Theorem C65_trace_refuted : forall q n x, q <> 1 -> length x = vec_length q n -> rho_trace_constraint q n x = Err ValueError.
Proof. exact trace_constraint_error. Qed.
Print Assumptions C65_trace_refuted.

(** The feasible vectors are those of the gate sets with trace-preserving real gates
    and a state of trace one. *)
Theorem C65_feasible : forall n terms x E rho Gs, split_input_vector 1 n x = Ok (E, rho, Gs) -> let p := mle_problem_of 1 n terms in
  feasible (mp_eq p) (mp_ineq p) x <-> Forall (fun G => ptm_gate 1 (m_at G)) Gs /\ csumn 2 (fun r => operator_of (fun i => nth i rho (RtoC 0)) r r) = f1.
Proof.
  intros n terms x E rho Gs S. destruct (C65_constraints _ _ _ _ _ _ S) as ((l1 & C1 & I1) & (l2 & C2 & I2)). destruct (C65_trace _ _ _ _ _ S) as (l3 & C3 & I3). cbv zeta. cbn [mle_problem_of mp_eq mp_ineq]. split.
  - intros [H1 H2]. inversion H1 as [|a b (m3 & M3 & Z3) H1']. inversion H1' as [|c d (m1 & M1 & Z1) _]. inversion H2 as [|e f (m2 & M2 & Z2) _]. subst.
    rewrite C3 in M3. rewrite C1 in M1. rewrite C2 in M2. injection M3 as <-. injection M1 as <-. injection M2 as <-. apply I1 in Z1. apply I2 in Z2. apply I3 in Z3. split; [|exact Z3].
    rewrite Forall_forall in *. intros G HG. destruct (Z1 G HG) as [T1 T2]. split; [exact T1|]. split; [exact T2|apply Z2, HG].
  - intros [H1 H2]. split; repeat constructor.
    + exists l3. split; [exact C3|apply I3, H2].
    + exists l1. split; [exact C1|]. apply I1. apply (Forall_impl _ (fun M H => conj (proj1 H) (proj1 (proj2 H))) H1).
    + exists l2. split; [exact C2|]. apply I2. apply (Forall_impl _ (fun M H => proj2 (proj2 H)) H1).
Qed.
Print Assumptions C65_feasible.
Example C65_case : admissible d_gates default_vec default_vec d_G. Proof. exact d_admissible. Qed.

(** * C66: the fit *)

(** The objective function is the squared error of the real parts of the predictions. *)
Theorem C66_objective : forall q Gs names Fs ops probs data, spam_of Gs names Fs ops ->
  (forall fj g fi, In fj names -> In g Gs -> In fi names -> probs (VTup [VStr fj; VStr g; VStr fi]) = Some (data fj g fi)) ->
  exists terms, obj_terms Gs names Fs probs = Ok terms /\
  forall x E rho ms G, split_input_vector q (length Gs) x = Ok (E, rho, ms) -> (forall i g M, nth_error Gs i = Some g -> nth_error ms i = Some M -> G g = m_at M) ->
    mle_obj q (length Gs) terms x = Ok (real_error (4 ^ q) Gs names ops data (fun i => nth i E (RtoC 0)) (fun i => nth i rho (RtoC 0)) G).
Proof.
  intros q Gs names Fs ops probs data Hs Hd. destruct (terms_lemma Gs names Fs ops probs data Hs Hd) as (tv & Et & Ht). eexists. split; [exact Et|]. intros x E rho ms G S HG.
  destruct (Nat.eq_dec (length x) (vec_length q (length Gs))) as [L|L]; [|rewrite decoding_error in S by exact L; discriminate].
  destruct (decoding_lemma q _ x L) as (E' & rho' & Gs' & S' & Ln & X). rewrite S in S'. injection S' as <- <- <-.
  apply (error_list Gs names ops data q x E rho ms S Ln); [| |exact Ht].
  - apply (Forall_impl _ (fun m (H : m_rows m = 4 ^ q /\ m_cols m = 4 ^ q /\ _) => proj1 (proj2 H)) (ex_Gs _ _ _ _ X)).
  - intros i g Hi. apply (HG i g _ Hi). apply nth_error_nth'. rewrite Ln. apply nth_error_Some. congruence.
Qed.
Print Assumptions C66_objective.

(** Exact data of a gate set that the vectors express: the fit returns completely
    positive, trace-preserving gates and operators that give exactly the probabilities
    of all the experiments, the state with trace one. *)
Theorem C66_fit : forall schur np_inv gauge_minimize mle_minimize gates spam mats spec ops probs E0 rho0 G0 S0,
  length spam = 4 -> NoDup gates -> spam_of gates spam spec ops -> (forall f, In f spam -> ops f <> []) -> (forall g, In g gates -> exists m, dget mats g = Some m) ->
  admissible gates E0 rho0 G0 -> exact_gst 4 spam gates E0 rho0 G0 S0 probs -> in_order spam ops G0 S0 ->
  (forall M, (forall i j, i < 4 -> j < 4 -> M i j = gram_matrix 4 spam E0 rho0 S0 i j) -> exists X, np_inv 4 M = Some X /\ inverse_of 4 X M) ->
  (forall Fs, mapM (spam_matrix 4 mats spec) spam = Ok Fs -> np_inv 4 (gauge_start 4 Fs default_vec) <> None) ->
  (forall f x0, (exists v, f x0 = Ok v) -> exists v, f (gauge_minimize f x0) = Ok v) ->
  schur_on schur 2 (square 2 (cvec4 E0)) -> schur_on schur 2 (square 2 (cvec4 rho0)) -> Forall (fun g => schur_on schur 4 (choi_matrix 1 (m_at (cptm4 (G0 g))))) gates ->
  (forall terms x0, obj_terms gates spam spec probs = Ok terms -> let p := mle_problem_of 1 (length gates) terms in solution (mp_obj p) (mp_eq p) (mp_ineq p) (mle_minimize p x0)) ->
  exists r, gst_fit schur np_inv gauge_minimize mle_minimize gates spam mats spec probs = Ok r /\
  m_rows (gr_E r) = 2 /\ m_cols (gr_E r) = 2 /\ m_rows (gr_rho r) = 2 /\ m_cols (gr_rho r) = 2 /\ csumn 2 (fun i => m_at (gr_rho r) i i) = f1 /\
  (forall g, In g gates -> exists M, dget (gr_gates r) g = Some M /\ m_rows M = 4 /\ m_cols M = 4 /\ ptm_gate 1 (m_at M) /\ completely_positive 1 (m_at M)) /\
  forall fj g fi Ms, In fj spam -> In g gates -> In fi spam -> Forall2 (fun g M => dget (gr_gates r) g = Some M) (ops fj ++ [g] ++ ops fi) Ms ->
    fst (born (m_at (gr_E r)) (m_at (gr_rho r)) (map m_at Ms)) = seq_prob 4 E0 rho0 (map G0 (ops fj ++ [g] ++ ops fi)).
Proof. exact fit_lemma. Qed.
Print Assumptions C66_fit.

(** The default gate set with its ideal gates meets all the conditions. *)
Example C66_fit_case : exists (gauge_minimize : (rmat -> result R) -> rmat -> rmat) (mle_minimize : mle_problem -> list R -> list R),
  length d_spam = 4 /\ NoDup d_gates /\ spam_of d_gates d_spam d_spec d_ops /\ (forall f, In f d_spam -> d_ops f <> []) /\ (forall g, In g d_gates -> exists m, dget d_mats g = Some m) /\
  admissible d_gates default_vec default_vec d_G /\ exact_gst 4 d_spam d_gates default_vec default_vec d_G d_S d_probs /\ in_order d_spam d_ops d_G d_S /\
  (forall M, (forall i j, i < 4 -> j < 4 -> M i j = gram_matrix 4 d_spam default_vec default_vec d_S i j) -> exists X, d_np_inv 4 M = Some X /\ inverse_of 4 X M) /\
  (forall Fs, mapM (spam_matrix 4 d_mats d_spec) d_spam = Ok Fs -> d_np_inv 4 (gauge_start 4 Fs default_vec) <> None) /\
  (forall f x0, (exists v, f x0 = Ok v) -> exists v, f (gauge_minimize f x0) = Ok v) /\
  schur_on d_schur 2 (square 2 (cvec4 default_vec)) /\ Forall (fun g => schur_on d_schur 4 (choi_matrix 1 (m_at (cptm4 (d_G g))))) d_gates /\
  forall terms x0, obj_terms d_gates d_spam d_spec d_probs = Ok terms -> let p := mle_problem_of 1 (length d_gates) terms in solution (mp_obj p) (mp_eq p) (mp_ineq p) (mle_minimize p x0).
Proof. exact d_fit_conditions. Qed.
Example C66_objective_case : spam_of d_gates d_spam d_spec d_ops. Proof. exact d_spam_of. Qed.

(** * C67: the gauge *)

(** With exact data of the ideal gate set itself, the best gauge turns the linear
    inversion into the ideal gate set. *)
Theorem C67_gauge : forall np_inv gauge_minimize gates spam mats spec ops probs G0 S0,
  length spam = 4 -> NoDup gates -> spam_of gates spam spec ops -> (forall f, In f spam -> ops f <> []) -> (forall g, In g gates -> dget mats g = Some (G0 g)) ->
  exact_gst 4 spam gates default_vec default_vec G0 S0 probs ->
  (forall M, (forall i j, i < 4 -> j < 4 -> M i j = gram_matrix 4 spam default_vec default_vec S0 i j) -> exists X, np_inv 4 M = Some X /\ inverse_of 4 X M) ->
  (forall X, inverse_of 4 X (fun i j => after 4 [S0 (nth j spam [])] default_vec i) -> exists Y, np_inv 4 X = Some Y /\ inverse_of 4 Y X) ->
  (forall Fs, mapM (spam_matrix 4 mats spec) spam = Ok Fs -> np_inv 4 (gauge_start 4 Fs default_vec) <> None) ->
  (forall li ideal x0, linear_inversion np_inv spam gates probs = Ok li -> ideal_gateset gates mats 4 = Ok ideal -> minimiser (gauge_obj np_inv 4 gates ideal li) (gauge_minimize (gauge_obj np_inv 4 gates ideal li) x0)) ->
  exists li ideal g, linear_inversion np_inv spam gates probs = Ok li /\ ideal_gateset gates mats 4 = Ok ideal /\
  gauge_optimize np_inv gauge_minimize 4 gates spam mats spec ideal li = Ok (Some g) /\
  (forall l, In l gates -> exists m, dget (ge_gates g) l = Some m /\ forall i j, i < 4 -> j < 4 -> m i j = G0 l i j) /\
  forall i, i < 4 -> ge_E g i = default_vec i /\ ge_rho g i = default_vec i.
Proof. exact gauge_recovers. Qed.
Print Assumptions C67_gauge.
Example C67_gauge_case : exists gauge_minimize : (rmat -> result R) -> rmat -> rmat,
  (forall M, (forall i j, i < 4 -> j < 4 -> M i j = gram_matrix 4 d_spam default_vec default_vec d_S i j) -> exists X, g_np_inv 4 M = Some X /\ inverse_of 4 X M) /\
  (forall X, inverse_of 4 X (fun i j => after 4 [d_S (nth j d_spam [])] default_vec i) -> exists Y, g_np_inv 4 X = Some Y /\ inverse_of 4 Y X) /\
  (forall Fs, mapM (spam_matrix 4 d_mats d_spec) d_spam = Ok Fs -> g_np_inv 4 (gauge_start 4 Fs default_vec) <> None) /\
  forall li ideal x0, linear_inversion g_np_inv d_spam d_gates d_probs = Ok li -> ideal_gateset d_gates d_mats 4 = Ok ideal -> minimiser (gauge_obj g_np_inv 4 d_gates ideal li) (gauge_minimize (gauge_obj g_np_inv 4 d_gates ideal li) x0).
Proof. exact d_gauge_conditions. Qed.

(** The optimal gauge is the inverse of the matrix of the prepared states ... *)
Theorem C67_best_gauge : forall np_inv gates spam mats probs G0 S0,
  length spam = 4 -> NoDup gates -> (forall g, In g gates -> dget mats g = Some (G0 g)) ->
  exact_gst 4 spam gates default_vec default_vec G0 S0 probs ->
  (forall M, (forall i j, i < 4 -> j < 4 -> M i j = gram_matrix 4 spam default_vec default_vec S0 i j) -> exists X, np_inv 4 M = Some X /\ inverse_of 4 X M) ->
  (forall X, inverse_of 4 X (fun i j => after 4 [S0 (nth j spam [])] default_vec i) -> exists Y, np_inv 4 X = Some Y /\ inverse_of 4 Y X) ->
  exists li ideal, linear_inversion np_inv spam gates probs = Ok li /\ ideal_gateset gates mats 4 = Ok ideal /\
  (exists X, inverse_of 4 X (fun i j => after 4 [S0 (nth j spam [])] default_vec i)) /\
  (forall X, inverse_of 4 X (fun i j => after 4 [S0 (nth j spam [])] default_vec i) -> gauge_obj np_inv 4 gates ideal li X = Ok 0%R) /\
  forall x v, gauge_obj np_inv 4 gates ideal li x = Ok v -> (0 <= v)%R.
Proof.
  intros np_inv gates spam mats probs G0 S0 H1 H2 H3 H4 H5 H6. destruct (zero_gauge np_inv gates spam mats probs G0 S0 H1 H2 H3 H4 H5 H6) as (li & ideal & A & B & _ & _ & _ & _ & D & E).
  exists li, ideal. split; [exact A|]. split; [exact B|]. split; [exact D|]. split; [exact E|]. intros x v. apply gauge_obj_nonneg.
Qed.
Print Assumptions C67_best_gauge.
(** ... but the search starts from that matrix itself, which is not optimal: with exact
    data of the default gate set the objective is positive there. *)
Theorem C67_start_refuted : forall np_inv,
  (forall M, (forall i j, i < 4 -> j < 4 -> M i j = gram_matrix 4 d_spam default_vec default_vec d_S i j) -> exists X, np_inv 4 M = Some X /\ inverse_of 4 X M) ->
  (forall M, (forall i j, i < 4 -> j < 4 -> M i j = d_K i j) -> np_inv 4 M <> None) ->
  exists li ideal Fs v, linear_inversion np_inv d_spam d_gates d_probs = Ok li /\ ideal_gateset d_gates d_mats 4 = Ok ideal /\ mapM (spam_matrix 4 d_mats d_spec) d_spam = Ok Fs /\
    (forall i j, i < 4 -> j < 4 -> gauge_start 4 Fs default_vec i j = after 4 [d_S (nth j d_spam [])] default_vec i) /\
    gauge_obj np_inv 4 d_gates ideal li (gauge_start 4 Fs default_vec) = Ok v /\ (0 < v)%R.
Proof. exact start_lemma. Qed.
Print Assumptions C67_start_refuted.

(** The matrix of a SPAM circuit applies its gates in the reverse order ... *)
Theorem C67_spam_matrix : forall d mats spec f ops (G : pystr -> rmat), dget spec f = Some ops -> ops <> [] -> (forall g, In g ops -> dget mats g = Some (G g)) ->
  exists M, spam_matrix d mats spec f = Ok M /\ forall v i, mapply (seq 0 d) M v i = after d (map G (rev ops)) v i.
Proof. exact spam_lemma. Qed.
Print Assumptions C67_spam_matrix.
(** ... which is not that of the circuit when they do not commute. *)
Theorem C67_spam_matrix_refuted : exists M v i, spam_matrix 4 d_mats xy (str "F") = Ok M /\ i < 4 /\ mapply (seq 0 4) M v i <> after 4 (map d_G [str "X_Rot_90"; str "Y_Rot_90"]) v i.
Proof. exact spam_case. Qed.
Print Assumptions C67_spam_matrix_refuted.
