(** Chebyshev's inequality for the part of accepted runs, and the confidence of the
    fitter (C84). *)
From Coq Require Import QArith QArith.Qcanon Reals Qreals Lqa Lra.
From Verif Require Import LinAlg Base QcFacts ExpvalModel ExpvalSpec ExpvalProofs ExpvalVecProofs ShotsSpec ShotsProofs AccModel AccFitProofs AccConfSpec.
Open Scope nat_scope.

Lemma coin_distribution p : (0 <= p)%Qc -> (p <= 1)%Qc -> distribution 2 (coin p).
Proof.
  intros H0 H1. split.
  - intros [|[|x]] Hx; [| |lia]; unfold coin; cbn [Nat.eqb]; [|exact H0]. clear - H1. qlra.
  - unfold sum_lt. cbn [seq map]. rewrite !qsum_cons. unfold coin. cbn [Nat.eqb]. change (fsum []) with 0%Qc. ring.
Qed.
Definition hit (y : nat) : Qc := if y =? 1 then 1%Qc else 0%Qc.
Lemma total_hit ys : total_of hit ys = iz (Z.of_nat (acceptances ys)).
Proof.
  induction ys as [|y ys IH]; [symmetry; exact iz_0|]. rewrite total_cons, IH. unfold acceptances, hit. cbn [count_occ]. destruct (Nat.eq_dec y 1) as [->|Hy]; cbn [Nat.eqb].
  - rewrite Nat2Z.inj_succ, <- Z.add_1_r, iz_add, iz_1. ring.
  - destruct (Nat.eqb_spec y 1); [lia|]. ring.
Qed.
Lemma coin_mean p : sum_lt 2 (fun y => coin p y * hit y)%Qc = p.
Proof. unfold sum_lt. cbn [seq map]. rewrite !qsum_cons. unfold coin, hit. cbn [Nat.eqb]. change (fsum []) with 0%Qc. ring. Qed.
Lemma coin_variance p : sum_lt 2 (fun y => coin p y * ((hit y - p) * (hit y - p)))%Qc = (p * (1 - p))%Qc.
Proof. unfold sum_lt. cbn [seq map]. rewrite !qsum_cons. unfold coin, hit. cbn [Nat.eqb]. change (fsum []) with 0%Qc. ring. Qed.
Lemma average_hit N ys : (this (average hit N ys) == inject_Z (Z.of_nat (acceptances ys)) / inject_Z (Z.of_nat N))%Q.
Proof. unfold average. rewrite total_hit. unfold Qcdiv, Qcinv, Qcmult, Q2Qc, iz, Q2Qc. cbn [this]. rewrite !Qred_correct. reflexivity. Qed.

Lemma covers_far theta p N ys : (0 < theta)%Q ->
  ((1 - (if covers theta p N ys then 1 else 0)) * (Q2Qc theta * Q2Qc theta) <= (average hit N ys - p) * (average hit N ys - p))%Qc.
Proof.
  intros Ht. assert (Et : (this (Q2Qc theta) == theta)%Q) by (cbn [this Q2Qc]; apply Qred_correct). pose proof (average_hit N ys) as Ea. set (t := Q2Qc theta) in *. set (a := average hit N ys) in *. unfold covers. rewrite <- Ea.
  destruct (Qle_bool (a - theta) p) eqn:E.
  - pose proof (Qc_sq_nonneg (a - p)). qlra.
  - assert (L : (p < a - theta)%Q). { apply Qnot_le_lt. intros H. apply Qle_bool_iff in H. congruence. } clearbody t a. clear - L Et Ht. rewrite <- Et in L, Ht. clear Et. qnra.
Qed.

Theorem chebyshev_runs p theta N : (0 <= p)%Qc -> (p <= 1)%Qc -> (0 < theta)%Q -> 0 < N ->
  let P := probability (coin p) 2 N (covers theta p N) in ((1 - P) * (inject_Z (Z.of_nat N) * (theta * theta)) <= p * (1 - p) /\ (1 - P) * ((4 # 1) * inject_Z (Z.of_nat N) * (theta * theta)) <= 1)%Q.
Proof.
  intros H0 H1 Ht HN P. pose proof (coin_distribution p H0 H1) as Hq.
  assert (L : ((1 - P) * (Q2Qc theta * Q2Qc theta) <= p * (1 - p) / iz (Z.of_nat N))%Qc).
  { pose proof (average_square (coin p) 2 N hit Hq HN) as V. cbv zeta in V. rewrite coin_mean, coin_variance in V. rewrite <- V.
    assert (E : ((1 - P) * (Q2Qc theta * Q2Qc theta))%Qc = expect (coin p) 2 N (fun ys => (1 - (if covers theta p N ys then 1 else 0)) * (Q2Qc theta * Q2Qc theta))%Qc).
    { rewrite (expect_ext (coin p) 2 N _ (fun ys => Q2Qc theta * Q2Qc theta + (- (Q2Qc theta * Q2Qc theta)) * (if covers theta p N ys then 1 else 0))%Qc) by (intros; ring). rewrite expect_add, (expect_mul (coin p) 2 N (- (Q2Qc theta * Q2Qc theta))%Qc), (expect_const (coin p) 2 N _ Hq). unfold P, probability. ring. }
    rewrite E. apply expect_le; [exact Hq|]. intros ys _. apply covers_far, Ht. }
  assert (HI : (0 < iz (Z.of_nat N))%Qc) by (apply iz_pos; lia).
  assert (K : ((1 - P) * (Q2Qc theta * Q2Qc theta) * iz (Z.of_nat N) <= p * (1 - p))%Qc).
  { assert (E : (p * (1 - p))%Qc = (p * (1 - p) / iz (Z.of_nat N) * iz (Z.of_nat N))%Qc) by (field; apply iz_neq_0; lia). rewrite E. apply Qcmult_le_compat_r; [exact L|]. apply Qclt_le_weak, HI. }
  clearbody P. clear L Hq. assert (Et : (this (Q2Qc theta) == theta)%Q) by (cbn [this Q2Qc]; apply Qred_correct). assert (En : (this (iz (Z.of_nat N)) == inject_Z (Z.of_nat N))%Q) by (cbn [this Q2Qc iz]; apply Qred_correct).
  set (t := Q2Qc theta) in *. set (n := iz (Z.of_nat N)) in *. clearbody t n.
  assert (K' : ((1 - P) * (inject_Z (Z.of_nat N) * (theta * theta)) <= p * (1 - p))%Q) by (rewrite <- Et, <- En; clear Et En; revert K; clear; intros K; qlra).
  split; [exact K'|]. clear - K'. set (q := this p) in *. clearbody q.
  setoid_replace ((1 - P) * ((4 # 1) * inject_Z (Z.of_nat N) * (theta * theta)))%Q with ((4 # 1) * ((1 - P) * (inject_Z (Z.of_nat N) * (theta * theta))))%Q by ring. set (x := ((1 - P) * (inject_Z (Z.of_nat N) * (theta * theta)))%Q) in *. clearbody x.
  assert (S : (0 <= ((2 # 1) * q - 1) * ((2 # 1) * q - 1))%Q) by (clear; destruct (Qlt_le_dec q (1 # 2)); Lqa.nra). clear - S K'. ring_simplify in S. ring_simplify in K'. Lqa.lra.
Qed.

(** All runs are accepted with probability [p ^ N]. *)
Lemma all_accepted p N : expect (coin p) 2 N (fun ys => if acceptances ys =? N then 1%Qc else 0%Qc) = Qcpower p N.
Proof.
  induction N as [|N IH]; [reflexivity|]. rewrite expect_S. unfold sum_lt. cbn [seq map]. rewrite !qsum_cons. change (fsum []) with 0%Qc. cbn [Qcpower].
  rewrite (expect_ext (coin p) 2 N (fun ys => if acceptances (0 :: ys) =? S N then 1%Qc else 0%Qc) (fun _ => (0 * 0)%Qc)).
  2:{ intros ys Hy. unfold acceptances. cbn [count_occ]. destruct (Nat.eq_dec 0 1); [lia|]. destruct (Nat.eqb_spec (count_occ Nat.eq_dec ys 1) (S N)) as [E|E]; [|ring]. pose proof (count_occ_bound Nat.eq_dec 1 ys). pose proof (proj1 (in_sequences _ _ _ Hy)). lia. }
  rewrite (expect_mul (coin p) 2 N 0%Qc (fun _ => 0%Qc)).
  rewrite (expect_ext (coin p) 2 N (fun ys => if acceptances (1 :: ys) =? S N then 1%Qc else 0%Qc) (fun ys => if acceptances ys =? N then 1%Qc else 0%Qc)) by reflexivity.
  rewrite IH. unfold coin. cbn [Nat.eqb]. ring.
Qed.
Lemma covers_rarely p theta N : (0 <= p)%Qc -> (p <= 1)%Qc -> 0 < N -> (theta < 1 - p)%Q -> (probability (coin p) 2 N (covers theta p N) + Qcpower p N <= 1)%Qc.
Proof.
  intros H0 H1 HN Ht. pose proof (coin_distribution p H0 H1) as Hq. unfold probability. rewrite <- all_accepted, <- expect_add. apply Qcle_trans with (expect (coin p) 2 N (fun _ => 1%Qc)); [|rewrite (expect_one (coin p) 2 N Hq); apply Qcle_refl]. apply expect_le; [exact Hq|].
  intros ys _. destruct (Nat.eqb_spec (acceptances ys) N) as [E|E]; [|destruct (covers theta p N ys); discriminate]. unfold covers. rewrite E.
  destruct (Qle_bool _ p) eqn:B; [|discriminate]. apply Qle_bool_iff in B. exfalso. revert B. apply Qlt_not_le.
  assert (X : (inject_Z (Z.of_nat N) / inject_Z (Z.of_nat N) == 1)%Q). { unfold Qdiv. apply Qmult_inv_r. intros Z0. unfold Qeq in Z0. cbn in Z0. lia. } rewrite X. Lqa.lra.
Qed.

(** ** The confidence of the fitter *)
Lemma exp_beats n : (2 * exp (- INR (n + 1)) < (/ 2) ^ n)%R.
Proof.
  assert (E1 : (2 < exp 1)%R) by (pose proof (exp_ineq1 1 R1_neq_R0); Lra.lra).
  rewrite plus_INR, Ropp_plus_distr, exp_plus. change (INR 1) with 1%R. assert (H1 : (2 * exp (Ropp 1) < 1)%R).
  { rewrite exp_Ropp. apply Rmult_lt_reg_r with (exp 1)%R; [apply exp_pos|]. rewrite Rmult_assoc, Rinv_l by (pose proof (exp_pos 1); Lra.lra). Lra.lra. }
  assert (H2 : (exp (- INR n) <= (/ 2) ^ n)%R).
  { induction n as [|n IH]; [cbn; rewrite Ropp_0, exp_0; Lra.lra|]. rewrite S_INR, Ropp_plus_distr, exp_plus. cbn [pow]. rewrite Rmult_comm. apply Rmult_le_compat; try (apply Rlt_le, exp_pos); [|exact IH]. Lra.lra. }
  pose proof (exp_pos (- INR n)). pose proof (exp_pos (Ropp 1)). Lra.nra.
Qed.
Lemma power_half N : Q2R (Qcpower (Q2Qc (1 # 2)) N) = ((/ 2) ^ N)%R.
Proof.
  induction N as [|N IH]; [cbn; unfold Q2R; cbn; Lra.lra|]. cbn [Qcpower pow]. rewrite <- IH. rewrite (Qeq_eqR _ (this (Q2Qc (1 # 2)) * this (Qcpower (Q2Qc (1 # 2)) N))%Q) by apply this_mult. rewrite Q2R_mult. f_equal. unfold Q2R. cbn. Lra.lra.
Qed.
Theorem confidence_wrong theta f f' : (theta < 1 # 2)%Q -> f_runs f <> 0 -> (0 <= f_traps f)%Z ->
  (inject_Z (Z.of_nat (f_runs f + 1)) <= (2 # 1) * theta * inject_Z (Z.of_nat (f_runs f)) * inject_Z (Z.of_nat (f_runs f)))%Q ->
  (theta < inject_Z (Z.of_nat (f_acc f)) / inject_Z (Z.of_nat (f_runs f)))%Q -> bound_variation_distance theta f = Ok f' ->
  (Q2R (probability (coin (Q2Qc (1 # 2))) 2 (f_runs f) (covers theta (Q2Qc (1 # 2)) (f_runs f))) < f_conf f')%R.
Proof.
  intros Ht Hr Hf Hn Ha E. destruct (bound_value theta f Hr Hf Ha) as (f2 & E2 & _ & C). rewrite E in E2. injection E2 as <-. rewrite C.
  assert (L : (probability (coin (Q2Qc (1 # 2))) 2 (f_runs f) (covers theta (Q2Qc (1 # 2)) (f_runs f)) + Qcpower (Q2Qc (1 # 2)) (f_runs f) <= 1)%Qc).
  { apply covers_rarely; [discriminate|discriminate|lia|]. cbn. Lqa.lra. }
  set (P := probability _ _ _ _) in *. clearbody P. set (w := Qcpower _ _) in *. assert (W : Q2R w = ((/ 2) ^ f_runs f)%R) by apply power_half. clearbody w.
  unfold Qcle in L. rewrite this_plus, this_1 in L. apply Qle_Rle in L. rewrite Q2R_plus, RMicromega.Q2R_1, W in L.
  assert (B : (exp (- (2 * Q2R theta * INR (f_runs f) * INR (f_runs f))) <= exp (- INR (f_runs f + 1)))%R).
  { apply Qle_Rle in Hn. rewrite !Q2R_mult in Hn. assert (I : forall k, Q2R (inject_Z (Z.of_nat k)) = INR k) by (intros k; unfold Q2R; cbn [Qnum Qden inject_Z]; rewrite <- INR_IZR_INZ, Rinv_1; ring). rewrite !I in Hn. assert (T : Q2R (2 # 1) = 2%R) by (unfold Q2R; cbn; Lra.lra). rewrite T in Hn.
    destruct Hn as [Hn|Hn]; [left; apply exp_increasing; Lra.lra|right; rewrite Hn; reflexivity]. }
  pose proof (exp_beats (f_runs f)). Lra.lra.
Qed.
