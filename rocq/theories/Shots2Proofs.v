(** The mitigated expectation value of random shots (C77). *)
From Coq Require Import QArith QArith.Qcanon Lqa Qround.
From Verif Require Import LinAlg Base ResultFacts CountsModel CountsSpec CountsProofs QcFacts ExpvalModel ExpvalSpec
  ExpvalProofs ExpvalVecProofs ExpvalTensProofs ExpvalGammaProofs ExpvalCompProofs ExpvalCalProofs ExpvalMainProofs ShotsSpec ShotsProofs.
Open Scope nat_scope.

(** ** Counts of a sequence of outcomes *)
Lemma count_sum d (f : nat -> Qc) ys : Forall (fun y => y < d) ys -> fsum (map (fun i => iz (Z.of_nat (count_occ Nat.eq_dec ys i)) * f i)%Qc (seq 0 d)) = total_of f ys.
Proof.
  induction 1 as [|y ys Hy _ IH].
  - cbn [count_occ]. apply qsum_zero'. intros i _. change (Z.of_nat 0) with 0%Z. rewrite iz_0. ring.
  - rewrite total_cons, <- IH. rewrite <- (qsum_pick (seq 0 d) y f (seq_NoDup d 0) ltac:(apply in_seq; lia)), <- qsum_add. apply qsum_ext. intros i _. cbn [count_occ]. change (eqb y i) with (y =? i).
    destruct (Nat.eq_dec y i) as [->|Hn]; [rewrite Nat.eqb_refl, Nat2Z.inj_succ, <- Z.add_1_r, iz_add, iz_1; ring|]. destruct (Nat.eqb_spec y i); [contradiction|ring].
Qed.
Lemma total_one ys : total_of (fun _ => 1%Qc) ys = iz (Z.of_nat (length ys)).
Proof. induction ys as [|y ys IH]; [cbn [length]; change (Z.of_nat 0) with 0%Z; rewrite iz_0; reflexivity|]. rewrite total_cons, IH. cbn [length]. rewrite Nat2Z.inj_succ, <- Z.add_1_r, iz_add, iz_1. ring. Qed.
Lemma counts_total n clbits sel c ys N : counts_shots n clbits sel c ys -> outcomes n N ys -> total c = Z.of_nat N.
Proof.
  intros (Hw & _ & Hh) [Hl Hy]. rewrite <- (hits_total n c clbits sel Hw). apply iz_inj. rewrite iz_zsum, <- Hl, <- total_one, <- (count_sum (2 ^ n) _ ys Hy).
  apply qsum_ext. intros i Hi. apply in_seq in Hi. rewrite Hh by lia. ring.
Qed.
Lemma counts_average n clbits sel c ys N g : 0 < N -> counts_shots n clbits sel c ys -> outcomes n N ys ->
  mean_of (fun k => g (binary_value 0 (outcome_sel sel k))) c = average g N ys.
Proof.
  intros HN Hc Ho. pose proof (counts_total n clbits sel c ys N Hc Ho) as ET. destruct Hc as (Hw & _ & Hh). destruct Ho as [_ Hy]. rewrite (mean_freq n c clbits sel g Hw ltac:(lia)). unfold average. rewrite <- (count_sum (2 ^ n) g ys Hy). unfold Qcdiv. rewrite <- qsum_mul_r.
  apply qsum_ext. intros i Hi. apply in_seq in Hi. unfold freq. change ofZ with iz. rewrite ET, Hh by lia. unfold Qcdiv. ring.
Qed.

(** ** Linear estimators *)
Definition estimator (n : nat) (clbits sel : option (list nat)) (E : counts -> result (option Qc * Qc)) (g : nat -> Qc) : Prop :=
  forall c, well_formed n c clbits sel -> total c <> 0%Z -> exists v, E c = Ok (Some (mean_of (fun k => g (binary_value 0 (outcome_sel sel k))) c), v) /\
  ((0 < total c)%Z -> nonneg c -> v = (var_of (fun k => g (binary_value 0 (outcome_sel sel k))) c / ofZ (total c))%Qc).
Lemma estimates n clbits sel E g N dict : estimator n clbits sel E g -> 0 < N -> (forall ys, outcomes n N ys -> counts_shots n clbits sel (dict ys) ys) ->
  forall ys, outcomes n N ys -> exists v, E (dict ys) = Ok (Some (average g N ys), v).
Proof.
  intros HE HN Hd ys Hy. pose proof (counts_total n clbits sel _ ys N (Hd ys Hy) Hy) as ET. destruct (HE (dict ys) (proj1 (Hd ys Hy)) ltac:(lia)) as (v & Ev & _). exists v. rewrite Ev, (counts_average n clbits sel (dict ys) ys N g HN (Hd ys Hy) Hy). reflexivity.
Qed.
Lemma noisy_distribution d a p : stochastic d a -> distribution d p -> distribution d (noisy d a p).
Proof.
  intros Ha [P1 P2]. split.
  - intros y Hy. apply qsum_nonneg. intros x Hx. apply in_seq in Hx. apply Qc_mul_nonneg; [apply (proj1 (Ha x ltac:(lia))), Hy|apply P1; lia].
  - unfold noisy, sum_lt. rewrite qsum_swap. rewrite <- P2. apply qsum_ext. intros x Hx. apply in_seq in Hx. rewrite qsum_mul_r. destruct (Ha x ltac:(lia)) as [_ E]. unfold sum_lt in E. rewrite E. ring.
Qed.
Lemma noisy_mean d a p g dd : (forall x, x < d -> sum_lt d (fun y => g y * a y x)%Qc = dd x) -> sum_lt d (fun y => noisy d a p y * g y)%Qc = sum_lt d (fun x => dd x * p x)%Qc.
Proof.
  intros H. unfold noisy, sum_lt. transitivity (fsum (map (fun y => fsum (map (fun x => (g y * a y x * p x)%Qc) (seq 0 d))) (seq 0 d))).
  - apply qsum_ext. intros y _. rewrite <- qsum_mul_r. apply qsum_ext. intros; ring.
  - rewrite qsum_swap. apply qsum_ext. intros x Hx. apply in_seq in Hx. rewrite qsum_mul_r, <- (H x) by lia. reflexivity.
Qed.
Lemma shots_for_iff g delta N : 0 < N -> (0 < delta)%Qc -> (shots_for g delta <= Z.of_nat N)%Z <-> (iz 4 * stddev_bound_sq g (Z.of_nat N) <= delta * delta)%Qc.
Proof.
  intros HN Hd. unfold shots_for, stddev_bound_sq. change qz with iz. set (x := (iz 4 * (g * g) / (delta * delta))%Qc). assert (D : (0 < delta * delta)%Qc) by qnra. assert (Z0 : (0 < iz (Z.of_nat N))%Qc) by (apply iz_pos; lia).
  assert (A : (Qceiling (this x) <= Z.of_nat N)%Z <-> (x <= iz (Z.of_nat N))%Qc).
  { unfold Qcle. rewrite this_iz. split; intros H; [eapply Qle_trans; [apply Qle_ceiling|rewrite <- Zle_Qle; exact H]|]. apply Qceiling_resp_le in H. rewrite Qceiling_Z in H. exact H. }
  rewrite A. unfold x. split; intros H.
  - replace (iz 4 * (g * g / iz (Z.of_nat N)))%Qc with (iz 4 * (g * g) / iz (Z.of_nat N))%Qc by (field; apply Qc_pos_neq; exact Z0). apply Qc_div_le; [exact Z0|].
    replace (iz 4 * (g * g))%Qc with ((iz 4 * (g * g) / (delta * delta)) * (delta * delta))%Qc by (field; intros K; rewrite K in Hd; revert Hd; apply Qlt_irrefl). rewrite (Qcmult_comm (delta * delta)%Qc). apply Qcmult_le_compat_r; [exact H|apply Qclt_le_weak; exact D].
  - apply Qc_div_le; [exact D|]. replace (iz 4 * (g * g))%Qc with (iz 4 * (g * g / iz (Z.of_nat N)) * iz (Z.of_nat N))%Qc by (field; apply Qc_pos_neq; exact Z0). rewrite (Qcmult_comm (iz (Z.of_nat N)) (delta * delta)). apply Qcmult_le_compat_r; [exact H|apply Qclt_le_weak; exact Z0].
Qed.

(** ** Bounds on the coefficients *)
Lemma abs_add x y : (abs_of (x + y) <= abs_of x + abs_of y)%Qc.
Proof. unfold abs_of. destruct (Qclt_le_dec (x + y) 0), (Qclt_le_dec x 0), (Qclt_le_dec y 0); qlra. Qed.
Lemma abs_sum {A} (f : A -> Qc) l : (abs_of (fsum (map f l)) <= fsum (map (fun a => abs_of (f a)) l))%Qc.
Proof.
  induction l as [|a l IH]; [cbv; discriminate|]. cbn [map]. rewrite !qsum_cons. pose proof (abs_add (f a) (fsum (map f l))). qlra.
Qed.
Lemma coeff_bound d B G (dd : nat -> Qc) y : max_column_sum d B G -> y < d -> (forall x, x < d -> (abs_of (dd x) <= 1)%Qc) -> (abs_of (sum_lt d (fun x => dd x * B x y)) <= G)%Qc.
Proof.
  intros [_ HB] Hy Hd. eapply Qcle_trans; [apply abs_sum|]. eapply Qcle_trans; [|apply (HB y Hy)]. apply qsum_le. intros x Hx. apply in_seq in Hx. rewrite abs_mul. specialize (Hd x ltac:(lia)). pose proof (abs_nonneg (B x y)). pose proof (abs_nonneg (dd x)). qnra.
Qed.
(** The deviation that is reported. *)
Lemma reported_bound n c clbits sel g G : well_formed n c clbits sel -> nonneg c -> (0 < total c)%Z -> (forall y, y < 2 ^ n -> (abs_of (g y) <= G)%Qc) ->
  (var_of (fun k => g (binary_value 0 (outcome_sel sel k))) c / ofZ (total c) <= stddev_bound_sq G (total c))%Qc.
Proof.
  intros Hw Hn HT HG. unfold stddev_bound_sq. change qz with ofZ. assert (Z0 : (0 < ofZ (total c))%Qc) by (apply iz_pos, HT).
  assert (Q : distribution (2 ^ n) (freq c sel)).
  { split; [intros y _; apply Qc_div_nonneg; [apply iz_nonneg, hits_nonneg, Hn|exact Z0]|]. unfold freq, sum_lt, Qcdiv. rewrite qsum_mul_r. change ofZ with iz. rewrite <- iz_zsum, (hits_total n c clbits sel Hw). apply Qcmult_inv_r. apply Qc_pos_neq. exact Z0. }
  set (m := mean_of (fun k => g (binary_value 0 (outcome_sel sel k))) c).
  assert (E : var_of (fun k => g (binary_value 0 (outcome_sel sel k))) c = sum_lt (2 ^ n) (fun y => freq c sel y * ((g y - sum_lt (2 ^ n) (fun y => freq c sel y * g y)) * (g y - sum_lt (2 ^ n) (fun y => freq c sel y * g y))))%Qc).
  { rewrite <- (mean_freq n c clbits sel g Hw ltac:(lia)). fold m. rewrite <- (mean_freq n c clbits sel (fun y => ((g y - m) * (g y - m))%Qc) Hw ltac:(lia)). reflexivity. }
  rewrite E. pose proof (variance_bound (2 ^ n) (freq c sel) g G Q HG) as V. cbv zeta in V. unfold Qcdiv. apply Qcmult_le_compat_r; [exact V|]. apply Qclt_le_weak, Qc_inv_pos, Z0.
Qed.

(** ** The tensored mitigator *)
Lemma tensor_stochastic ms : Forall stochastic2 ms -> stochastic (2 ^ length ms) (tensor_entry ms).
Proof.
  induction 1 as [|a ms [A1 A2] _ IH]; intros x Hx.
  - split; [intros y _; cbv; discriminate|]. apply Qc_is_canon. reflexivity.
  - cbn [length] in *. destruct (IH (x / 2) (half_lt x _ Hx)) as [I1 I2]. split.
    + intros y Hy. cbn [tensor_entry]. apply Qc_mul_nonneg; [apply A1|apply I1, half_lt, Hy].
    + unfold sum_lt in *. rewrite qsum_bit. rewrite <- I2. apply qsum_ext. intros y _. cbn [tensor_entry]. rewrite half_even, half_odd, odd_double, odd_double1, <- Qcmult_plus_distr_l, A2. ring.
Qed.
Lemma low_invertible a : stochastic2 a -> low_error a -> invertible2 a.
Proof. intros H1 H2. destruct (gamma2_spec (fun x => x) a H1 H2) as (g & _ & Hi & _). exact Hi. Qed.
Lemma tensored_estimator pinv2 amats ms diag qubits n clbits sel g : selected amats qubits ms -> length ms = n -> Forall stochastic2 ms -> Forall low_error ms -> (forall d, diag = Some d -> length d = 2 ^ n) ->
  (forall x, x < 2 ^ n -> (abs_of (diag_entry diag n x) <= 1)%Qc) -> tensored_gamma (tensored_init pinv2 amats) qubits = Ok (Some g) ->
  exists f, estimator n clbits sel (fun c => tensored_expectation (tensored_init pinv2 amats) c diag qubits clbits) f /\
  (forall x, x < 2 ^ n -> sum_lt (2 ^ n) (fun y => f y * tensor_entry ms y x)%Qc = diag_entry diag n x) /\ forall y, y < 2 ^ n -> (abs_of (f y) <= g)%Qc.
Proof.
  intros Hs Hl H2 He Hd Hb Hg. assert (Hi : Forall invertible2 ms) by (rewrite Forall_forall in *; intros a Ha; apply low_invertible; auto).
  destruct (tensored_gamma_lemma pinv2 amats ms qubits Hs H2 He) as (g' & Eg & _ & HB). rewrite Hg in Eg. injection Eg as <-.
  assert (Ed : forall x, x < 2 ^ n -> nth x (the_diagonal diag n) 0%Qc = diag_entry diag n x). { intros x Hx. destruct diag as [d|]; [reflexivity|]. apply the_diagonal_none, Hx. }
  exists (tens_coeff pinv2 ms (the_diagonal diag n) n). split; [|split].
  - intros c Hw HT. destruct (tensored_expectation_lemma pinv2 amats ms c diag qubits n clbits sel Hw HT Hs Hl Hd) as (v & Ev & Hv & _). exists v. split; [exact Ev|exact Hv].
  - intros x Hx. rewrite tens_coeff_spec by assumption. apply Ed, Hx.
  - intros y Hy. assert (L : left_inverse (2 ^ length ms) (tensor_entry (map (mitigation2 pinv2) ms)) (tensor_entry ms)) by (apply tensor_left_inverse; [apply map_length|apply (mitigation_linv pinv2 ms Hi)]).
    specialize (HB _ L). rewrite Hl in HB. apply (coeff_bound (2 ^ n) _ g (fun x => nth x (the_diagonal diag n) 0%Qc) y HB Hy). intros x Hx. rewrite Ed by exact Hx. apply Hb, Hx.
Qed.

(** ** The complete mitigator *)
Definition moved (asc qs : list nat) (n : nat) (f : nat -> Qc) (y : nat) : Qc := sum_lt (2 ^ n) (fun i => if sigma asc qs i =? y then f i else 0%Qc).
Lemma moved_sum asc qs n f (w : nat -> Qc) : length qs = n -> sum_lt (2 ^ n) (fun y => w y * moved asc qs n f y)%Qc = sum_lt (2 ^ n) (fun i => w (sigma asc qs i) * f i)%Qc.
Proof.
  intros Hl. unfold moved, sum_lt. transitivity (fsum (map (fun y => fsum (map (fun i => if eqb (sigma asc qs i) y then (w y * f i)%Qc else 0%Qc) (seq 0 (2 ^ n)))) (seq 0 (2 ^ n)))).
  - apply qsum_ext. intros y _. rewrite <- qsum_mul. apply qsum_ext. intros i _. change (eqb (sigma asc qs i) y) with (sigma asc qs i =? y). destruct (_ =? _); [reflexivity|ring].
  - rewrite qsum_swap. apply qsum_ext. intros i _. rewrite (qsum_pick (seq 0 (2 ^ n)) (sigma asc qs i) (fun y => (w y * f i)%Qc)); [reflexivity|apply seq_NoDup|]. apply in_seq. pose proof (sigma_lt asc qs i). rewrite Hl in *. lia.
Qed.
Lemma moved_at asc qs n f i : increasing_version asc qs -> length qs = n -> i < 2 ^ n -> moved asc qs n f (sigma asc qs i) = f i.
Proof.
  intros Ha Hl Hi. unfold moved, sum_lt. rewrite (qsum_ext _ (fun k => if eqb i k then f k else 0%Qc)); [apply qsum_pick; [apply seq_NoDup|apply in_seq; lia]|].
  intros k Hk. apply in_seq in Hk. change (eqb i k) with (i =? k). destruct (Nat.eqb_spec i k) as [<-|Hn]; [rewrite Nat.eqb_refl; reflexivity|]. destruct (Nat.eqb_spec (sigma asc qs k) (sigma asc qs i)) as [E|_]; [|reflexivity].
  exfalso. apply Hn. symmetry. apply (sigma_inj asc qs k i Ha); [rewrite Hl; lia|rewrite Hl; lia|exact E].
Qed.
Lemma sigma_onto asc qs n y : increasing_version asc qs -> length qs = n -> y < 2 ^ n -> exists i, i < 2 ^ n /\ sigma asc qs i = y.
Proof.
  intros Ha Hl Hy. pose proof (sigma_perm asc qs Ha) as P. rewrite Hl in P. assert (I : In y (map (sigma asc qs) (seq 0 (2 ^ n)))) by (eapply Permutation_in; [apply Permutation_sym, P|apply in_seq; lia]).
  apply in_map_iff in I. destruct I as (i & E & Hi). apply in_seq in Hi. exists i. split; [lia|exact E].
Qed.
Section WithInv.
Variable inv : nat -> qmat -> option qmat.
Variable pinv : nat -> qmat -> qmat.
Lemma complete_estimator cm asc qs n diag clbits sel M d' g : increasing_version asc qs -> length qs = n -> (forall q, In q qs -> q < cm_n cm) -> is_marginal (cm_n cm) (cm_amat cm) qs M -> finds_inverse inv (cm_n cm) (cm_amat cm) asc ->
  (forall d, diag = Some d -> length d = 2 ^ n) -> as_listed asc qs n (diag_entry diag n) d' -> (forall x, x < 2 ^ n -> (abs_of (diag_entry diag n x) <= 1)%Qc) -> complete_gamma inv pinv cm (Some qs) = Ok g ->
  exists f, estimator n clbits sel (fun c => complete_expectation inv pinv cm c diag (Some qs) clbits) f /\
  (forall x, x < 2 ^ n -> sum_lt (2 ^ n) (fun y => f y * M y x)%Qc = d' x) /\ forall y, y < 2 ^ n -> (abs_of (f y) <= g)%Qc.
Proof.
  intros Ha Hl Hq HM Hinv Hd Hd' Hb Hg. pose proof Ha as [Hs Hperm]. assert (Hla : length asc = n) by (rewrite <- Hl; apply Permutation_length, Hperm). pose proof (sigma_lt asc qs) as Hsl. rewrite Hl in Hsl.
  destruct (complete_assignment_lemma cm asc asc (increasing_self _ _ Ha)) as (S & HS & HSM). { intros q Hin. apply Hq. eapply Permutation_in; eauto. }
  destruct (Hinv S HSM) as (B & HB & HL). rewrite Hla in HB, HL, HS.
  assert (Em : complete_mitigation inv pinv cm (Some qs) = Ok (2 ^ n, B)). { unfold complete_mitigation. rewrite (sort_asc_ok asc qs Ha), HS. cbn [bind]. rewrite HB. reflexivity. }
  assert (HG : max_column_sum (2 ^ n) B g).
  { unfold complete_gamma in Hg. rewrite Em in Hg. cbn [bind] in Hg. apply (f_equal (fun r => match r with Ok z => z | Err _ => 0%Qc end)) in Hg. cbv beta iota in Hg.
    set (col := fun j => fsum (map (fun i => Qc_abs (B i j)) (seq 0 (2 ^ n)))) in Hg. change (fsum (map (fun i => Qc_abs (B i 0)) (seq 0 (2 ^ n)))) with (col 0) in Hg. destruct (max_fold (map col (seq 1 (2 ^ n - 1))) (col 0)) as (H1 & H2 & H3). rewrite Hg in *.
    assert (Hd1 : 1 <= 2 ^ n) by (pose proof (Nat.pow_nonzero 2 n); lia). split.
    - destruct H3 as [H3|H3]; [exists 0; split; [lia|symmetry; exact H3]|]. apply in_map_iff in H3. destruct H3 as (j & Hj & Hin). apply in_seq in Hin. exists j. split; [lia|exact Hj].
    - intros j Hj. change (sum_lt _ _) with (col j). destruct j as [|j]; [exact H1|]. apply H2, in_map, in_seq. lia. }
  assert (Ed : forall x, x < 2 ^ n -> nth x (the_diagonal diag n) 0%Qc = diag_entry diag n x). { intros x Hx. destruct diag as [d|]; [reflexivity|]. apply the_diagonal_none, Hx. }
  set (f := fun j => sum_lt (2 ^ n) (fun i => nth i (the_diagonal diag n) 0 * B i j)%Qc).
  assert (HfS : forall x, x < 2 ^ n -> sum_lt (2 ^ n) (fun y => f y * S y x)%Qc = nth x (the_diagonal diag n) 0%Qc).
  { intros x Hx. unfold f, sum_lt. transitivity (fsum (map (fun y => fsum (map (fun i => (nth i (the_diagonal diag n) 0 * (B i y * S y x))%Qc) (seq 0 (2 ^ n)))) (seq 0 (2 ^ n)))).
    { apply qsum_ext. intros y _. rewrite <- qsum_mul_r. apply qsum_ext. intros; ring. }
    rewrite qsum_swap. rewrite (qsum_ext _ (fun i => if eqb x i then nth i (the_diagonal diag n) 0%Qc else 0%Qc)); [apply (qsum_pick (seq 0 (2 ^ n)) x (fun i => nth i (the_diagonal diag n) 0%Qc)); [apply seq_NoDup|apply in_seq; lia]|].
    intros i Hi. apply in_seq in Hi. rewrite qsum_mul. specialize (HL i x ltac:(lia) Hx). unfold sum_lt in HL. rewrite HL. change (eqb x i) with (x =? i). rewrite (Nat.eqb_sym x). destruct (_ =? _); ring. }
  exists (moved asc qs n f). split; [|split].
  - intros c Hw HT. unfold complete_expectation. destruct (counts_vector_remap n c clbits sel qs asc Hw HT Ha Hl) as (vec & Hv & Hlv & Hvec). rewrite Hv. cbn [bind pv_n pv_vec pv_shots]. rewrite Hl, Nat.eqb_refl. fold (the_diagonal diag n). rewrite Em. cbn [bind].
    assert (Hc : mapM (fun j => dotp (map (fun i => B i j) (seq 0 (2 ^ n))) (the_diagonal diag n)) (seq 0 (2 ^ n)) = Ok (map f (seq 0 (2 ^ n)))).
    { apply mapM_ok. intros j _. rewrite (dotp_vec n (fun i => B i j) _ (the_diagonal_length diag n Hd)). f_equal. apply qsum_ext. intros; ring. }
    rewrite Hc. cbn [bind].
    assert (Ev : vec = map (fun i => (iz (hits c sel (sigma asc qs i)) / iz (total c))%Qc) (seq 0 (2 ^ n))).
    { apply (nth_ext _ _ 0%Qc 0%Qc); [rewrite map_length, seq_length; exact Hlv|]. intros i Hi. rewrite Hlv in Hi. rewrite (Hvec i (sigma asc qs i) Hi (Hsl i) (sigma_rearranged asc qs i Ha)).
      rewrite nth_indep with (d' := (iz (hits c sel (sigma asc qs 0)) / iz (total c))%Qc) by (rewrite map_length, seq_length; exact Hi). rewrite (map_nth (fun i => (iz (hits c sel (sigma asc qs i)) / iz (total c))%Qc)), seq_nth by exact Hi. reflexivity. }
    assert (Et : zsum (map (fun i => hits c sel (sigma asc qs i)) (seq 0 (2 ^ n))) = total c).
    { rewrite <- (hits_total n c clbits sel Hw). apply iz_inj. rewrite !iz_zsum. exact (sum_sigma asc qs n (fun i => iz (hits c sel i)) Ha Hl). }
    destruct (expval_core (fun i => hits c sel (sigma asc qs i)) f (total c) (seq 0 (2 ^ n)) vec Et HT Ev) as (v & E & Hvv & _). exists v. rewrite E.
    assert (T0 : iz (total c) <> 0%Qc) by (apply iz_neq_0, HT).
    assert (W : forall h, wmean (fun a => iz (hits c sel (sigma asc qs a))) h (iz (total c)) (seq 0 (2 ^ n)) = mean_of (fun k => moved asc qs n h (binary_value 0 (outcome_sel sel k))) c).
    { intros h. rewrite (mean_freq n c clbits sel _ Hw HT), (moved_sum asc qs n h (freq c sel) Hl). unfold wmean, Qcdiv. rewrite <- qsum_mul_r. apply qsum_ext. intros i _. unfold freq. change ofZ with iz. unfold Qcdiv. ring. }
    split; [rewrite W; reflexivity|]. intros Hp Hn. rewrite (Hvv Hp) by (intros a _; apply hits_nonneg, Hn). change ofZ with iz. f_equal. unfold wvar. rewrite W. set (m := mean_of _ c).
    change (wmean (fun a => iz (hits c sel (sigma asc qs a))) (fun a => ((f a - m) * (f a - m))%Qc) (iz (total c)) (seq 0 (2 ^ n)) = var_of (fun k => moved asc qs n f (binary_value 0 (outcome_sel sel k))) c).
    transitivity (mean_of (fun k => (fun y => ((moved asc qs n f y - m) * (moved asc qs n f y - m))%Qc) (binary_value 0 (outcome_sel sel k))) c); [|reflexivity].
    rewrite W, (mean_freq n c clbits sel _ Hw HT), (mean_freq n c clbits sel (fun y => ((moved asc qs n f y - m) * (moved asc qs n f y - m))%Qc) Hw HT). apply qsum_ext. intros y Hy. apply in_seq in Hy. destruct (sigma_onto asc qs n y Ha Hl ltac:(lia)) as (i & Hi & <-). rewrite !moved_at by assumption. reflexivity.
  - intros x' Hx'. destruct (sigma_onto asc qs n x' Ha Hl Hx') as (x & Hx & <-). rewrite (Hd' x (sigma asc qs x) Hx (Hsl x) (sigma_rearranged asc qs x Ha)), <- Ed, <- HfS by exact Hx.
    unfold sum_lt. rewrite (qsum_ext _ (fun y => M y (sigma asc qs x) * moved asc qs n f y)%Qc) by (intros; ring). fold (sum_lt (2 ^ n) (fun y => M y (sigma asc qs x) * moved asc qs n f y)%Qc). rewrite (moved_sum asc qs n f (fun y => M y (sigma asc qs x)) Hl).
    apply qsum_ext. intros y Hy. apply in_seq in Hy. rewrite Qcmult_comm. f_equal.
    destruct (keep_fold asc (asc_NoDup asc Hs)) as [_ Hk]. rewrite Hla in Hk. specialize (Hk x Hx). set (X := nth x _ 0) in Hk. rewrite (HSM y x X); [|rewrite Hla; lia|rewrite Hla; lia|exact Hk].
    rewrite (HM (sigma asc qs y) (sigma asc qs x) X); [|rewrite Hl; apply Hsl|rewrite Hl; apply Hsl|apply (rearranged_spread asc qs x _ X Ha (sigma_rearranged asc qs x Ha) Hk)].
    apply (marginal_rearranged asc qs _ _ y _ X Ha (sigma_rearranged asc qs y Ha)).
  - intros y Hy. destruct (sigma_onto asc qs n y Ha Hl Hy) as (i & Hi & <-). rewrite moved_at by assumption. apply (coeff_bound (2 ^ n) B g (fun x => nth x (the_diagonal diag n) 0%Qc) i HG Hi). intros x Hx. rewrite Ed by exact Hx. apply Hb, Hx.
Qed.
End WithInv.

(** A marginal of a stochastic matrix is stochastic. *)
Lemma marginal_stochastic N a qs M : NoDup qs -> (forall q, In q qs -> q < N) -> stochastic (2 ^ N) a -> is_marginal N a qs M -> stochastic (2 ^ length qs) M.
Proof.
  intros Hn Hq Ha HM. set (n := length qs).
  assert (Hsp : forall x, x < 2 ^ n -> exists X, X < 2 ^ N /\ spread qs x X).
  { intros x Hx. destruct (keep_fold qs Hn) as [_ Hk]. specialize (Hk x Hx). eexists. split; [|exact Hk]. apply (spread_lt qs N x _ Hq Hk). }
  intros x Hx. destruct (Hsp x Hx) as (X & HX & HS). destruct (Ha X HX) as [A1 A2]. split.
  - intros y Hy. rewrite (HM y x X Hy Hx HS). apply qsum_nonneg. intros Y HY. apply in_seq in HY. destruct (agrees qs Y y); [apply A1; lia|apply Qcle_refl].
  - rewrite <- A2. unfold sum_lt. rewrite (qsum_ext _ (fun y => marginal_entry N a qs y X)) by (intros y Hy; apply in_seq in Hy; apply HM; [fold n; lia|exact Hx|exact HS]). unfold marginal_entry, sum_lt. rewrite qsum_swap. apply qsum_ext. intros Y _.
    rewrite (qsum_ext _ (fun y => if eqb (gather qs Y) y then a Y X else 0%Qc)); [apply (qsum_pick (seq 0 (2 ^ n)) (gather qs Y) (fun _ => a Y X)); [apply seq_NoDup|]|].
    + apply in_seq. split; [lia|]. cbn. apply gather_lt.
    + intros y Hy. apply in_seq in Hy. change (eqb (gather qs Y) y) with (gather qs Y =? y). rewrite gather_agrees by (unfold n in *; lia). reflexivity.
Qed.

(** ** A dictionary for every sequence of outcomes *)
Definition dict_of (n : nat) (ys : list nat) : counts := map (fun s => (s, Z.of_nat (count_occ Nat.eq_dec ys (binary_value 0 s)))) (all_bits n).
Lemma dict_counts n ys : 1 <= n -> counts_shots n None None (dict_of n ys) ys.
Proof.
  intros Hn. assert (K : forall k v, In (k, v) (dict_of n ys) -> length k = n /\ is_bits k /\ v = Z.of_nat (count_occ Nat.eq_dec ys (binary_value 0 k))).
  { intros k v H. apply in_map_iff in H. destruct H as (s & [= <- <-] & Hs). apply all_bits_In in Hs. tauto. }
  assert (Ks : forall k v, In (k, v) (dict_of n ys) -> strip k = k) by (intros k v H; apply strip_bits, (K k v H)).
  split; [split; [exact Hn|split; [split; [|split]|exact Ks]]|split].
  - intros E. apply (f_equal (@length _)) in E. unfold dict_of in E. rewrite map_length, all_bits_length in E. cbn [length] in E. revert E. apply Nat.pow_nonzero. lia.
  - unfold dict_of. rewrite map_map. cbn [fst]. rewrite (map_ext_in _ (fun s => s)); [rewrite map_id; apply all_bits_NoDup|]. intros s Hs. apply strip_bits. apply all_bits_In in Hs. tauto.
  - intros k v H. rewrite (Ks k v H). specialize (K k v H). tauto.
  - intros k v H. destruct (K k v H) as (_ & _ & ->). lia.
  - intros y Hy. unfold hits, dict_of. rewrite map_map. cbn [fst snd outcome_sel].
    rewrite (zsum_ext_in _ (fun s => (fun i => if y =? i then Z.of_nat (count_occ Nat.eq_dec ys y) else 0%Z) (binary_value 0 s))).
    + rewrite <- (map_map (binary_value 0) (fun i => if y =? i then Z.of_nat (count_occ Nat.eq_dec ys y) else 0%Z)), map_binary_value_all_bits. apply zsum_pick, Hy.
    + intros s Hs. cbn beta. rewrite strip_bits by (apply all_bits_In in Hs; tauto). rewrite (Nat.eqb_sym y). destruct (Nat.eqb_spec (binary_value 0 s) y) as [->|_]; reflexivity.
Qed.

(** ** What is promised *)
Lemma promised n clbits sel E a p d f G delta N dict : estimator n clbits sel E f -> stochastic (2 ^ n) a -> distribution (2 ^ n) p ->
  (forall x, x < 2 ^ n -> sum_lt (2 ^ n) (fun y => f y * a y x)%Qc = d x) -> (forall y, y < 2 ^ n -> (abs_of (f y) <= G)%Qc) ->
  0 < N -> (forall ys, outcomes n N ys -> counts_shots n clbits sel (dict ys) ys) ->
  exists est, (forall ys, outcomes n N ys -> exists v, E (dict ys) = Ok (Some (est ys), v) /\ (v <= stddev_bound_sq G (Z.of_nat N))%Qc) /\
    expect (noisy (2 ^ n) a p) (2 ^ n) N est = sum_lt (2 ^ n) (fun x => d x * p x)%Qc /\
    (expect (noisy (2 ^ n) a p) (2 ^ n) N (fun ys => (est ys - sum_lt (2 ^ n) (fun x => d x * p x)) * (est ys - sum_lt (2 ^ n) (fun x => d x * p x))) <= stddev_bound_sq G (Z.of_nat N))%Qc /\
    ((0 < delta)%Qc -> (shots_for G delta <= Z.of_nat N)%Z -> (iz 3 <= iz 4 * probability (noisy (2 ^ n) a p) (2 ^ n) N (fun ys => within delta (est ys) (sum_lt (2 ^ n) (fun x => d x * p x))))%Qc).
Proof.
  intros HE Ha Hp Hf HG HN Hd. pose proof (noisy_distribution (2 ^ n) a p Ha Hp) as Hq. pose proof (noisy_mean (2 ^ n) a p f d Hf) as Em. exists (average f N). split; [|split; [|split]].
  - intros ys Hy. pose proof (counts_total n clbits sel _ ys N (Hd ys Hy) Hy) as ET. destruct (Hd ys Hy) as (Hw & Hn & _). destruct (HE (dict ys) Hw ltac:(lia)) as (v & Ev & Hv). exists v. rewrite Ev, (counts_average n clbits sel (dict ys) ys N f HN (Hd ys Hy) Hy). split; [reflexivity|].
    rewrite (Hv ltac:(lia) Hn), <- ET. apply (reported_bound n (dict ys) clbits sel f G Hw Hn ltac:(lia) HG).
  - rewrite (average_mean _ (2 ^ n) N f Hq HN). exact Em.
  - rewrite <- Em. exact (average_spread _ (2 ^ n) N f G Hq HN HG).
  - intros Hdl HS. rewrite <- Em. apply (chebyshev _ (2 ^ n) N f G delta Hq HN Hdl HG). apply shots_for_iff; assumption.
Qed.
