(** Hoeffding's inequality for the part of accepted runs (C84). *)
From Coq Require Import QArith QArith.Qcanon Reals Qreals Lqa Lra.
From Verif Require Import LinAlg Base QcFacts ExpvalModel ExpvalSpec ExpvalProofs ExpvalVecProofs ShotsSpec ShotsProofs AccConfSpec AccConfProofs AccExpProofs.
Open Scope nat_scope.

(** ** Sums of reals *)
Definition rsum {A} (f : A -> R) (l : list A) : R := fold_right (fun a s => (f a + s)%R) 0%R l.
Lemma rsum_cons {A} (f : A -> R) a l : rsum f (a :: l) = (f a + rsum f l)%R.
Proof. reflexivity. Qed.
Lemma rsum_app {A} (f : A -> R) l m : rsum f (l ++ m) = (rsum f l + rsum f m)%R.
Proof. induction l as [|a l IH]; [symmetry; apply Rplus_0_l|]. rewrite <- app_comm_cons, !rsum_cons, IH. ring. Qed.
Lemma rsum_map {A B} (f : B -> R) (g : A -> B) l : rsum f (map g l) = rsum (fun a => f (g a)) l.
Proof. induction l as [|a l IH]; [reflexivity|]. cbn [map]. rewrite !rsum_cons, IH. reflexivity. Qed.
Lemma rsum_scale {A} (f : A -> R) k l : rsum (fun a => k * f a)%R l = (k * rsum f l)%R.
Proof. induction l as [|a l IH]; [symmetry; apply Rmult_0_r|]. rewrite !rsum_cons, IH. ring. Qed.
Lemma rsum_ext {A} (f g : A -> R) l : (forall a, In a l -> f a = g a) -> rsum f l = rsum g l.
Proof. induction l as [|a l IH]; intros H; [reflexivity|]. rewrite !rsum_cons, (H a (or_introl eq_refl)), IH; [reflexivity|]. intros b Hb. apply H. right. exact Hb. Qed.
Lemma rsum_le {A} (f g : A -> R) l : (forall a, In a l -> (f a <= g a)%R) -> (rsum f l <= rsum g l)%R.
Proof. induction l as [|a l IH]; intros H; [apply Rle_refl|]. rewrite !rsum_cons. apply Rplus_le_compat; [apply H; left; reflexivity|]. apply IH. intros b Hb. apply H. right. exact Hb. Qed.
Definition rq (x : Qc) : R := Q2R x.
Lemma rq_add x y : rq (x + y)%Qc = (rq x + rq y)%R.
Proof. unfold rq. rewrite <- Q2R_plus. apply Qeq_eqR, this_plus. Qed.
Lemma rq_mul x y : rq (x * y)%Qc = (rq x * rq y)%R.
Proof. unfold rq. rewrite <- Q2R_mult. apply Qeq_eqR, this_mult. Qed.
Lemma rq_0 : rq 0%Qc = 0%R. Proof. unfold rq, Q2R. cbn. ring. Qed.
Lemma rq_1 : rq 1%Qc = 1%R. Proof. unfold rq, Q2R. cbn. field. Qed.
Lemma rq_sub x y : rq (x - y)%Qc = (rq x - rq y)%R.
Proof. assert (E : x = ((x - y) + y)%Qc) by ring. rewrite E at 2. rewrite rq_add. ring. Qed.
Lemma rq_fsum {A} (f : A -> Qc) l : rq (fsum (map f l)) = rsum (fun a => rq (f a)) l.
Proof. induction l as [|a l IH]; [exact rq_0|]. cbn [map]. rewrite qsum_cons, rq_add, IH. reflexivity. Qed.

(** ** The exponential moment *)
Lemma moment p N s : rsum (fun ys => rq (weight (coin p) ys) * exp (s * INR (acceptances ys)))%R (sequences 2 N) = ((1 - rq p + rq p * exp s) ^ N)%R.
Proof.
  induction N as [|N IH]; [unfold rsum; cbn [sequences fold_right]; change (weight (coin p) []) with 1%Qc; rewrite rq_1; cbn; rewrite Rmult_0_r, exp_0; ring|].
  cbn [sequences seq flat_map]. rewrite app_nil_r, rsum_app, !rsum_map. cbn [pow].
  rewrite (rsum_ext _ (fun ys => (1 - rq p) * (rq (weight (coin p) ys) * exp (s * INR (acceptances ys))))%R).
  2:{ intros ys _. unfold weight. cbn [map]. rewrite qprod_cons, rq_mul. unfold coin at 1. cbn [Nat.eqb]. rewrite rq_sub, rq_1. unfold acceptances. cbn [count_occ]. destruct (Nat.eq_dec 0 1); [lia|]. ring. }
  rewrite rsum_scale, IH.
  rewrite (rsum_ext _ (fun ys => (rq p * exp s) * (rq (weight (coin p) ys) * exp (s * INR (acceptances ys))))%R).
  2:{ intros ys _. unfold weight. cbn [map]. rewrite qprod_cons, rq_mul. unfold coin at 1. cbn [Nat.eqb]. unfold acceptances. cbn [count_occ]. destruct (Nat.eq_dec 1 1); [|lia]. rewrite S_INR, Rmult_plus_distr_l, Rmult_1_r, exp_plus. ring. }
  rewrite rsum_scale, IH. ring.
Qed.

Lemma rq_nat k : Q2R (inject_Z (Z.of_nat k)) = INR k.
Proof. unfold Q2R. cbn [Qnum Qden inject_Z]. rewrite <- INR_IZR_INZ, Rinv_1. ring. Qed.

Theorem hoeffding p theta N : (0 <= p)%Qc -> (p <= 1)%Qc -> (0 < theta)%Q -> 0 < N ->
  (1 - exp (- (2 * Q2R theta ^ 2 * INR N)) <= Q2R (probability (coin p) 2 N (covers theta p N)))%R.
Proof.
  intros H0 H1 Ht HN. pose proof (coin_distribution p H0 H1) as Hq. set (P := probability _ _ _ _).
  assert (R0 : (0 <= rq p)%R) by (rewrite <- rq_0; apply Qle_Rle, H0). assert (R1 : (rq p <= 1)%R) by (rewrite <- rq_1; apply Qle_Rle, H1).
  set (t := Q2R theta). assert (T0 : (0 < t)%R). { unfold t. replace 0%R with (Q2R 0) by (unfold Q2R; cbn; ring). apply Qlt_Rlt, Ht. }
  set (s := (4 * t)%R). set (n := INR N). assert (N0 : (0 < n)%R) by (apply lt_0_INR, HN).
  assert (E : (1 - P)%Qc = expect (coin p) 2 N (fun ys => if covers theta p N ys then 0 else 1)%Qc).
  { rewrite (expect_ext (coin p) 2 N _ (fun ys => 1 + (- (1)) * (if covers theta p N ys then 1 else 0))%Qc) by (intros ys _; destruct (covers theta p N ys); ring).
    rewrite expect_add, (expect_mul (coin p) 2 N (- (1))%Qc), (expect_const (coin p) 2 N _ Hq). unfold P, probability. ring. }
  assert (B : (rq (1 - P)%Qc <= exp (- (s * n * (rq p + t))) * (1 - rq p + rq p * exp s) ^ N)%R).
  { rewrite E. unfold expect. rewrite rq_fsum, <- moment, <- rsum_scale. apply rsum_le. intros ys Hy. rewrite rq_mul.
    assert (W : (0 <= rq (weight (coin p) ys))%R) by (rewrite <- rq_0; apply Qle_Rle, (weight_nonneg (coin p) 2 ys Hq (proj2 (in_sequences 2 N ys Hy)))).
    replace (exp (- (s * n * (rq p + t))) * (rq (weight (coin p) ys) * exp (s * INR (acceptances ys))))%R with (rq (weight (coin p) ys) * exp (s * (INR (acceptances ys) - n * (rq p + t))))%R.
    2:{ replace (s * (INR (acceptances ys) - n * (rq p + t)))%R with (- (s * n * (rq p + t)) + s * INR (acceptances ys))%R by ring. rewrite exp_plus. ring. }
    apply Rmult_le_compat_l; [exact W|]. destruct (covers theta p N ys) eqn:C; [rewrite rq_0; apply Rlt_le, exp_pos|]. rewrite rq_1.
    assert (L : (this p < inject_Z (Z.of_nat (acceptances ys)) / inject_Z (Z.of_nat N) - theta)%Q). { apply Qnot_le_lt. intros X. apply Qle_bool_iff in X. unfold covers in C. congruence. }
    apply Qlt_Rlt in L. assert (NZ : ~ (inject_Z (Z.of_nat N) == 0)%Q) by (intros Z0; unfold Qeq in Z0; cbn in Z0; lia). rewrite Q2R_minus, Q2R_div in L by exact NZ. rewrite !rq_nat in L. fold (rq p) t n in L.
    assert (A : (n * (rq p + t) <= INR (acceptances ys))%R). { apply Rmult_le_reg_l with (/ n)%R; [apply Rinv_0_lt_compat, N0|]. rewrite <- Rmult_assoc, Rinv_l by Lra.lra. unfold Rdiv in L. Lra.lra. }
    assert (G : (0 <= s * (INR (acceptances ys) - n * (rq p + t)))%R) by (apply Rmult_le_pos; unfold s; Lra.lra). rewrite <- exp_0. destruct G as [G|G]; [left; apply exp_increasing, G|right; rewrite G; reflexivity]. }
  assert (K : ((1 - rq p + rq p * exp s) ^ N <= exp (n * (s * rq p + s ^ 2 / 8)))%R).
  { replace (exp (n * (s * rq p + s ^ 2 / 8)))%R with (exp (s * rq p + s ^ 2 / 8) ^ N)%R.
    - apply pow_incr. split; [apply Rlt_le, mass_pos; assumption|]. apply hoeffding_lemma; [assumption|assumption|unfold s; Lra.lra].
    - unfold n. generalize (s * rq p + s ^ 2 / 8)%R. clear. intros x. induction N as [|N IH]; [cbn; rewrite Rmult_0_l, exp_0; reflexivity|]. cbn [pow]. rewrite IH, S_INR, <- exp_plus. f_equal. ring. }
  rewrite rq_sub, rq_1 in B. fold (rq P).
  assert (F : (exp (- (s * n * (rq p + t))) * exp (n * (s * rq p + s ^ 2 / 8)) = exp (- (2 * t ^ 2 * n)))%R) by (rewrite <- exp_plus; f_equal; unfold s; field).
  assert (B2 : (1 - rq P <= exp (- (2 * t ^ 2 * n)))%R). { rewrite <- F. eapply Rle_trans; [exact B|]. apply Rmult_le_compat_l; [apply Rlt_le, exp_pos|exact K]. }
  Lra.lra.
Qed.
