(** Cat states as examples, and fidelities that are misreported (C73). *)
From Coq Require Import QArith Qreals Reals Lra Lia ZArith.
From Coquelicot Require Import Coquelicot.
From Verif Require Import LinAlg Base CountsModel ResultFacts QSem DihedralModel RBSeqModel RBSeqSpec CtmpSpec StdGates AccSpec AccProbProofs EntGhzProofs TomoModel EntModel EntSpec EntMqcProofs CharCircProofs EntFidModel EntFidSpec EntFidProofs EntFid2Proofs.
Local Open Scope list_scope.
Local Open Scope nat_scope.

Lemma pure_state {I} (idx : list I) v : state idx (pure v).
Proof.
  constructor.
  - intros x y _ _. unfold pure. rewrite cj_mul, cj_cj. toC. ring.
  - intros u. set (s := fsum (map (fun y => fmul (Cconj (v y)) (u y)) idx)).
    assert (E : form idx (pure v) u = fmul (Cconj s) s).
    { unfold form, s. rewrite conj_sum, <- fsum_map_mul_r. apply fsum_map_ext. intros x _. rewrite <- fsum_map_mul. apply fsum_map_ext. intros y _. unfold pure. rewrite cj_mul, cj_cj. toC. ring. }
    rewrite E. destruct s as [a b]. cbn. nra.
Qed.
Definition cat_state (n : nat) (theta : R) : bits -> bits -> C := pure (cat (zeros n) (ones n) theta).
Section Entries.
Context {I : Type} {HI : Eqb I}.
Variables (x0 x1 : I) (theta : R).
Hypothesis Hne : x0 <> x1.
Lemma cat_0 : cat x0 x1 theta x0 = RtoC (/ sqrt 2).
Proof. unfold cat. destruct (eqb_spec x0 x0); [reflexivity|congruence]. Qed.
Lemma cat_1 : cat x0 x1 theta x1 = fmul (RtoC (/ sqrt 2)) (expi theta).
Proof. unfold cat. destruct (eqb_spec x1 x0); [congruence|]. destruct (eqb_spec x1 x1); [reflexivity|congruence]. Qed.
Lemma cat_out y : y <> x0 -> y <> x1 -> cat x0 x1 theta y = f0.
Proof. intros A B. unfold cat. destruct (eqb_spec y x0); [congruence|]. destruct (eqb_spec y x1); [congruence|reflexivity]. Qed.
Lemma cat_00 : pure (cat x0 x1 theta) x0 x0 = RtoC (/ 2).
Proof. unfold pure. rewrite cat_0. replace (Cconj (RtoC (/ sqrt 2))) with (RtoC (/ sqrt 2)) by cring. apply half_sq. Qed.
Lemma cat_11 : pure (cat x0 x1 theta) x1 x1 = RtoC (/ 2).
Proof. unfold pure. rewrite cat_1, cj_mul, conj_expi. replace (Cconj (RtoC (/ sqrt 2))) with (RtoC (/ sqrt 2)) by cring. toC. transitivity (Cmult (Cmult (RtoC (/ sqrt 2)) (RtoC (/ sqrt 2))) (Cmult (expi theta) (expi (- theta)))); [ring|]. rewrite half_sq, expi_inv. ring. Qed.
Lemma cat_01 : pure (cat x0 x1 theta) x0 x1 = fmul (RtoC (/ 2)) (expi (- theta)).
Proof. unfold pure. rewrite cat_0, cat_1, cj_mul, conj_expi. replace (Cconj (RtoC (/ sqrt 2))) with (RtoC (/ sqrt 2)) by cring. rewrite <- half_sq. toC. ring. Qed.
Lemma cat_10 : pure (cat x0 x1 theta) x1 x0 = fmul (RtoC (/ 2)) (expi theta).
Proof. unfold pure. rewrite cat_0, cat_1. replace (Cconj (RtoC (/ sqrt 2))) with (RtoC (/ sqrt 2)) by cring. rewrite <- half_sq. toC. ring. Qed.
End Entries.
Lemma cat_normalised n theta : 1 <= n -> normalised n (cat_state n theta).
Proof.
  intros Hn. unfold normalised. rewrite (fsum_two (cube n) (zeros n) (ones n)); auto using cube_NoDup, in_zeros, in_ones, zeros_ones.
  - unfold cat_state. rewrite cat_00, cat_11 by apply zeros_ones, Hn. toC. rewrite <- RtoC_plus. f_equal. field.
  - intros y _ A B. unfold cat_state, pure. rewrite cat_out by assumption. toC. ring.
Qed.
Lemma cat_fidelity n theta : 1 <= n -> ghz_fidelity n (cat_state n theta) 1.
Proof.
  intros Hn. pose proof (best_value (cube n) (zeros n) (ones n) (cube_NoDup n) (in_zeros n) (in_ones n) (zeros_ones n Hn) (cat_state n theta) (pure_state _ _)) as V. unfold cat_state in V. rewrite cat_00, cat_11, cat_01 in V by apply zeros_ones, Hn.
  toC. rewrite Cmod_mult, Cmod_expi, Cmod_R, Rabs_pos_eq in V by lra. cbn [Re RtoC fst] in V. unfold ghz_fidelity. replace 1%R with (/ 2 * (/ 2 + / 2) + / 2 * 1)%R by field. exact V.
Qed.

(** ** The signals of the GHZ state *)
Lemma ghz_parity_signal n phi : 1 <= n -> parity_signal n (cat_state n 0) phi = ((-1) ^ n * cos (INR n * phi))%R.
Proof.
  intros Hn. pose proof (parity_harmonics n (cat_state n 0) (st_herm _ _ (pure_state _ _)) phi) as H. rewrite (fsum_two (cube n) (zeros n) (ones n)) in H; auto using cube_NoDup, in_zeros, in_ones, zeros_ones.
  - rewrite flip_zeros, flip_ones in H. unfold cat_state in H. rewrite cat_01, cat_10 in H by apply zeros_ones, Hn. unfold turns in H. rewrite weight_zeros, weight_ones in H. rewrite Ropp_0, expi_0 in H.
    replace (Z.of_nat n - 2 * Z.of_nat 0)%Z with (Z.of_nat n) in H by lia. replace (Z.of_nat n - 2 * Z.of_nat n)%Z with (- Z.of_nat n)%Z in H by lia. rewrite opp_IZR, <- INR_IZR_INZ, Ropp_mult_distr_l_reverse in H.
    apply (f_equal fst) in H. unfold sgn in H. toC. cbn in H. rewrite cos_neg, sin_neg in H. fold (cat_state n 0) in H. rewrite H. field.
  - intros y _ A B. unfold cat_state, pure. rewrite cat_out by assumption. toC. ring.
Qed.
Lemma ghz_mqc_signal n phi : 1 <= n -> mqc_signal n (cat_state n 0) phi = ((1 + cos (INR n * phi)) / 2)%R.
Proof.
  intros Hn. pose proof (mqc_harmonics n (cat_state n 0) (st_herm _ _ (pure_state _ _)) phi) as H. rewrite fsum_pairs in H. pose proof (zeros_ones n Hn) as Z.
  assert (Zf : forall x y, y <> zeros n -> y <> ones n -> fmul (mc (cat_state n 0) (x, y)) (expi (IZR (md (x, y)) * phi)) = f0 /\ fmul (mc (cat_state n 0) (y, x)) (expi (IZR (md (y, x)) * phi)) = f0).
  { intros x y A B. unfold mc, cat_state, pure. cbn [fst snd]. rewrite !(cat_out _ _ _ y) by assumption. rewrite cj_0. split; toC; ring. }
  rewrite (fsum_two (cube n) (zeros n) (ones n)) in H; auto using cube_NoDup, in_zeros, in_ones.
  - assert (G : forall x, fsum (map (fun y => fmul (mc (cat_state n 0) (x, y)) (expi (IZR (md (x, y)) * phi))) (cube n)) = fadd (fmul (mc (cat_state n 0) (x, zeros n)) (expi (IZR (md (x, zeros n)) * phi))) (fmul (mc (cat_state n 0) (x, ones n)) (expi (IZR (md (x, ones n)) * phi)))).
    { intros x. rewrite (fsum_two (cube n) (zeros n) (ones n)); auto using cube_NoDup, in_zeros, in_ones. intros y _ A B. exact (proj1 (Zf x y A B)). }
    rewrite !G in H. clear G.
    unfold mc, md in H. cbn [fst snd] in H. rewrite flip_zeros, flip_ones, weight_zeros, weight_ones in H. unfold cat_state in H. rewrite cat_01, cat_10, cat_00, cat_11 in H by exact Z. rewrite Ropp_0, expi_0, !Z.sub_diag in H.
    replace (Z.of_nat n - Z.of_nat 0)%Z with (Z.of_nat n) in H by lia. replace (Z.of_nat 0 - Z.of_nat n)%Z with (- Z.of_nat n)%Z in H by lia. rewrite opp_IZR, <- INR_IZR_INZ, Ropp_mult_distr_l_reverse, Rmult_0_l, expi_0 in H.
    apply (f_equal fst) in H. toC. cbn in H. rewrite cos_neg, sin_neg in H. fold (cat_state n 0) in H. rewrite H. field.
  - intros y _ A B. apply fsum_map_zero'. intros x _. exact (proj2 (Zf x y A B)).
Qed.

(** ** Twice as many phases as qubits *)
Lemma few_component n : 1 <= n -> component (2 * n) n (cube n) (fun a => fmul (sgn n) (cat_state n (PI / 2) a (flip a))) (turns n) = f0.
Proof.
  intros Hn. unfold component. pose proof (zeros_ones n Hn) as Z. rewrite (fsum_two (cube n) (zeros n) (ones n)); auto using cube_NoDup, in_zeros, in_ones.
  - unfold turns. rewrite weight_zeros, weight_ones, flip_zeros, flip_ones. replace (Z.of_nat n - 2 * Z.of_nat 0 - Z.of_nat n)%Z with 0%Z by lia. rewrite Z.mod_0_l by lia. replace (Z.of_nat n - 2 * Z.of_nat n - Z.of_nat n)%Z with ((-1) * Z.of_nat (2 * n))%Z by lia. rewrite Z_mod_mult. cbn [Z.eqb].
    unfold cat_state. rewrite cat_01, cat_10 by exact Z. unfold expi. rewrite cos_neg, sin_neg, cos_PI2, sin_PI2. unfold sgn. toC. cring.
  - intros y _ A B. unfold cat_state, pure. rewrite cat_out by assumption. destruct (_ =? 0)%Z; toC; ring.
Qed.
Definition half_pops : list (pystr * R) := [(str "P0", / 2); (str "P1", / 2); (str "P0_m", / 2); (str "P1_m", / 2)]%R.
Lemma half_populations n : 1 <= n -> forall t, populations half_pops n (cat_state n t) (cat_state n t).
Proof.
  intros Hn t. pose proof (zeros_ones n Hn) as Z. constructor; unfold population, cat_state; rewrite ?cat_00, ?cat_11 by exact Z; reflexivity.
Qed.
Lemma few_phases n x : 1 <= n -> length x = 2 * n ->
  exists i, get_fourier_info (str "po") n x (sampled (2 * n) (parity_signal n (cat_state n (PI / 2)))) (Some (sampled (2 * n) (parity_signal n (cat_state n (PI / 2))))) (Some half_pops) = Ok (PoInfo i) /\
    p_F i = (/ 2)%R /\ p_F_m i = (/ 2)%R.
Proof.
  intros Hn Hx. assert (HN0 : 0 < 2 * n) by lia.
  destruct (fft_component (2 * n) _ _ _ _ HN0 (parity_harmonics n (cat_state n (PI / 2)) (st_herm _ _ (pure_state _ _)))) as (l & El & Ll & Nl).
  unfold get_fourier_info, half_pops. change (dget_e _ (str "P0")) with (Ok (/ 2)%R). change (dget_e _ (str "P1")) with (Ok (/ 2)%R). change (dget_e _ (str "P0_m")) with (Ok (/ 2)%R). change (dget_e _ (str "P1_m")) with (Ok (/ 2)%R). cbn [bind]. rewrite Hx. destruct (Nat.eqb_spec (2 * n) 0) as [Z0|_]; [lia|].
  rewrite El. cbn [bind]. rewrite !length_sampled, Nat.eqb_refl. cbn [negb orb].
  destruct (eqb_spec (str "po") (str "mqc")) as [A|_]; [discriminate|]. destruct (eqb_spec (str "po") (str "po")) as [_|A]; [|congruence].
  rewrite (item_ok _ _ _ (Nl n ltac:(lia))). cbn [bind]. eexists. split; [reflexivity|]. cbn [p_F p_F_m]. rewrite few_component by exact Hn. toC. rewrite Cmod_0. split; field.
Qed.

(** ** One basis state *)
Lemma ket_at b : pure (ket b) b b = RtoC 1.
Proof. unfold pure, ket. rewrite eqb_refl. rewrite cj_1. toC. ring. Qed.
Lemma ket_off b x y : x <> b \/ y <> b -> pure (ket b) x y = f0.
Proof. unfold pure, ket. intros H. destruct (eqb_spec x b); destruct (eqb_spec y b); try (destruct H; congruence); rewrite ?cj_0; toC; ring. Qed.
Lemma ket_normalised n b : length b = n -> normalised n (pure (ket b)).
Proof.
  intros H. unfold normalised. rewrite (fsum_one (cube n) b); [apply ket_at|apply cube_NoDup|apply in_cube, H|]. intros y _ A. apply ket_off. auto.
Qed.
Lemma ket_fidelity n b : 1 <= n -> ghz_fidelity n (pure (ket b)) (if mem b [zeros n; ones n] then / 2 else 0)%R.
Proof.
  intros Hn. pose proof (zeros_ones n Hn) as Z. pose proof (best_value (cube n) (zeros n) (ones n) (cube_NoDup n) (in_zeros n) (in_ones n) Z (pure (ket b)) (pure_state _ _)) as V. unfold ghz_fidelity.
  assert (O : pure (ket b) (zeros n) (ones n) = f0). { apply ket_off. destruct (eqb_spec (zeros n) b) as [<-|A]; [right; congruence|left; exact A]. }
  rewrite O in V. toC. rewrite Cmod_0 in V. destruct (mem b [zeros n; ones n]) eqn:M.
  - apply mem_In in M. destruct M as [<-|[<-|[]]].
    + rewrite ket_at, (ket_off (zeros n) (ones n) (ones n)) in V by (left; congruence). cbn in V. replace (/ 2)%R with (/ 2 * (1 + 0) + 0)%R by field. exact V.
    + rewrite ket_at, (ket_off (ones n) (zeros n) (zeros n)) in V by (left; congruence). cbn in V. replace (/ 2)%R with (/ 2 * (0 + 1) + 0)%R by field. exact V.
  - apply mem_not_In in M. rewrite (ket_off b (zeros n) (zeros n)), (ket_off b (ones n) (ones n)) in V by (left; intros A; apply M; rewrite <- A; cbn; auto). cbn in V. replace (/ 2 * (0 + 0) + 0)%R with 0%R in V by field. exact V.
Qed.
(** The ground state: the signal vanishes at every phase. *)
Lemma ground_signal n phi : 1 <= n -> mqc_signal n (pure (ket (zeros n))) phi = 0%R.
Proof.
  intros Hn. pose proof (mqc_harmonics n (pure (ket (zeros n))) (st_herm _ _ (pure_state _ _)) phi) as H. rewrite fsum_map_zero' in H.
  - apply (f_equal fst) in H. exact H.
  - intros [x y] _. unfold mc. cbn [fst snd]. destruct (eqb_spec x (zeros n)) as [->|A].
    + rewrite flip_zeros, (ket_off (zeros n) (ones n)) by (left; intros E; apply (zeros_ones n Hn); auto). toC. ring.
    + rewrite (ket_off (zeros n) y x) by auto. toC. ring.
Qed.
Lemma upper_bound n N P x : 1 <= n -> n < N -> length x = N -> populations P n (pure (ket (zeros n))) (pure (ket (zeros n))) ->
  exists i, get_fourier_info (str "mqc") n x (sampled N (mqc_signal n (pure (ket (zeros n))))) (Some (sampled N (mqc_signal n (pure (ket (zeros n)))))) (Some P) = Ok (MqcInfo i) /\
    m_UB i = 0%R /\ m_UB_m i = 0%R.
Proof.
  intros Hn HN Hx [E0 E1 E2 E3]. assert (HN0 : 0 < N) by lia.
  assert (Hh : harmonics (mqc_signal n (pure (ket (zeros n)))) (@nil nat) (fun _ => f0) (fun _ => 0%Z)) by (intros phi; rewrite ground_signal by exact Hn; reflexivity).
  destruct (fft_component N _ _ _ _ HN0 Hh) as (l & El & Ll & Nl).
  unfold get_fourier_info. rewrite (dget_e_ok _ _ _ E0), (dget_e_ok _ _ _ E1), (dget_e_ok _ _ _ E2), (dget_e_ok _ _ _ E3). cbn [bind]. rewrite Hx. destruct (Nat.eqb_spec N 0) as [Z0|_]; [lia|]. rewrite El. cbn [bind]. rewrite !length_sampled, Nat.eqb_refl. cbn [negb orb].
  destruct (eqb_spec (str "mqc") (str "mqc")) as [_|A]; [|congruence].
  rewrite (item_ok _ _ _ (Nl n HN)), (item_ok _ _ _ (Nl 0 HN0)). cbn [bind]. eexists. split; [reflexivity|]. cbn [m_UB m_UB_m]. unfold component. cbn [map]. rewrite fsum_nil. toC. rewrite Cmod_0. unfold Rdiv. rewrite Rmult_0_l, sqrt_0. split; ring.
Qed.
Definition cat_mat (theta : R) : cmat := {| m_rows := 2; m_cols := 2; m_at := pure (cat 0 1 theta) |}.
Lemma cat_mat_state theta : state (seq 0 2) (m_at (cat_mat theta)).
Proof. apply pure_state. Qed.
Lemma cat_mat_best theta : best_fidelity (seq 0 2) 0 1 (m_at (cat_mat theta)) 1.
Proof.
  pose proof (best_value (seq 0 2) 0 1 (seq_NoDup 2 0) (or_introl eq_refl) (or_intror (or_introl eq_refl)) (O_S 0) (pure (cat 0 1 theta)) (pure_state _ _)) as V. rewrite cat_00, cat_11, cat_01 in V by apply O_S.
  toC. rewrite Cmod_mult, Cmod_expi, Cmod_R, Rabs_pos_eq in V by lra. cbn [Re RtoC fst] in V. replace 1%R with (/ 2 * (/ 2 + / 2) + / 2 * 1)%R by field. exact V.
Qed.
Lemma cat_mat_pi : rho_to_fidelity (cat_mat PI) = Ok 1%R /\ Re (form (seq 0 2) (m_at (cat_mat PI)) (cat 0 1 0)) = 0%R.
Proof.
  split.
  - destruct (rho_fidelity (cat_mat PI) 2 (le_n 2) eq_refl eq_refl (cat_mat_state PI)) as (f & -> & Hf). f_equal. exact (best_unique (seq 0 2) 0 1 _ f 1 Hf (cat_mat_best PI)).
  - rewrite (cat_form (seq 0 2) 0 1 (seq_NoDup 2 0) (or_introl eq_refl) (or_intror (or_introl eq_refl)) (O_S 0) _ (cat_mat_state PI)). cbn [m_at cat_mat]. rewrite cat_00, cat_11, cat_01 by apply O_S. rewrite expi_0. unfold expi. rewrite cos_neg, sin_neg, cos_PI, sin_PI. toC. cbn. field.
Qed.
