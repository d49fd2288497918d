(** The confidence level at two standard deviations, by Taylor polynomials. *)
From Coq Require Import Reals Lra Lia Machin.
From Coquelicot Require Import Coquelicot.
From Verif Require Import QVModel QVSpec QVMeanProofs.
Local Open Scope R_scope.

Definition tay (n : nat) (u : R) : R := sum_f_R0 (fun k => (- u) ^ k / INR (fact k)) n.
Lemma pow_derive m c u : is_derive (fun u => (- u) ^ m / c) u (- (INR m * (- u) ^ pred m / c)).
Proof. auto_derive; [exact I|]. unfold Rdiv. ring. Qed.
Lemma tay_derive n u : is_derive (tay (S n)) u (- tay n u).
Proof.
  induction n as [|n IH].
  - unfold tay; cbn. auto_derive; [exact I | field].
  - change (is_derive (fun u => tay (S n) u + (- u) ^ S (S n) / INR (fact (S (S n)))) u (- (tay n u + (- u) ^ S n / INR (fact (S n))))).
    rewrite Ropp_plus_distr. apply (is_derive_plus (tay (S n))); [exact IH|].
    replace ((- u) ^ S n / INR (fact (S n))) with (INR (S (S n)) * (- u) ^ pred (S (S n)) / INR (fact (S (S n)))); [apply pow_derive|].
    rewrite (fact_simpl (S n)), mult_INR, <- (pred_Sn (S n)). field. split; [apply INR_fact_neq_0 | apply not_0_INR; lia].
Qed.
Lemma tay_0 n : tay n 0 = 1.
Proof.
  induction n as [|n IH]; [unfold tay; cbn; field|]. change (tay n 0 + (- 0) ^ S n / INR (fact (S n)) = 1). rewrite IH, Ropp_0. cbn [pow]. rewrite Rmult_0_l. unfold Rdiv. rewrite Rmult_0_l. ring.
Qed.
Lemma nonneg_from (f df : R -> R) u : 0 <= u -> f 0 = 0 -> (forall x, is_derive f x (df x)) -> (forall x, 0 <= x -> 0 <= df x) -> 0 <= f u.
Proof.
  intros Hu H0 Hd Hp. destruct (MVT_gen f 0 u df) as (c & Hc & E).
  - intros x _. apply Hd.
  - intros x _. apply continuity_pt_filterlim. apply (ex_derive_continuous f). exists (df x). apply Hd.
  - rewrite H0, !Rminus_0_r in E. rewrite E. apply Rmult_le_pos; auto. apply Hp. rewrite Rmin_left in Hc by exact Hu. lra.
Qed.
Lemma tay_bounds n u : 0 <= u -> tay (S (2 * n)) u <= exp (- u) <= tay (2 * n) u.
Proof.
  assert (D0 : forall x, is_derive (fun u => exp (- u)) x (- exp (- x))) by (intros x; auto_derive; [exact I | ring]).
  assert (Up : forall n, (forall u, 0 <= u -> exp (- u) <= tay n u) -> forall u, 0 <= u -> tay (S n) u <= exp (- u)).
  { clear n u. intros n H u Hu. assert (0 <= exp (- u) - tay (S n) u); [|lra].
    apply (nonneg_from (fun u => exp (- u) - tay (S n) u) (fun u => tay n u - exp (- u))); auto.
    - rewrite Ropp_0, exp_0, tay_0. ring.
    - intros x. replace (tay n x - exp (- x)) with (- exp (- x) - (- tay n x)) by ring. apply (is_derive_minus (fun u => exp (- u)) (tay (S n))); [apply D0 | apply tay_derive].
    - intros x Hx. specialize (H x Hx). lra. }
  assert (Dn : forall n, (forall u, 0 <= u -> tay n u <= exp (- u)) -> forall u, 0 <= u -> exp (- u) <= tay (S n) u).
  { clear n u. intros n H u Hu. assert (0 <= tay (S n) u - exp (- u)); [|lra].
    apply (nonneg_from (fun u => tay (S n) u - exp (- u)) (fun u => exp (- u) - tay n u)); auto.
    - rewrite Ropp_0, exp_0, tay_0. ring.
    - intros x. replace (exp (- x) - tay n x) with (- tay n x - (- exp (- x))) by ring. apply (is_derive_minus (tay (S n)) (fun u => exp (- u))); [apply tay_derive | apply D0].
    - intros x Hx. specialize (H x Hx). lra. }
  assert (X : forall n u, 0 <= u -> exp (- u) <= tay (2 * n) u).
  { clear n u. induction n as [|n IH]; intros u Hu.
    - unfold tay; cbn. replace (1 / 1) with 1 by field. rewrite <- exp_0. destruct Hu as [Hu|<-]; [left; apply exp_increasing; lra | rewrite Ropp_0; lra].
    - replace (2 * S n)%nat with (S (S (2 * n))) by lia. apply Dn; [|exact Hu]. apply Up. exact IH. }
  intros Hu. split; [apply Up; auto | apply X; exact Hu].
Qed.

(** Antiderivative of [tay n (x*x)]. *)
Definition ant (n : nat) (x : R) : R := sum_f_R0 (fun k => (-1) ^ k * x ^ (2 * k + 1) / (INR (fact k) * INR (2 * k + 1))) n.
Lemma ant_derive n x : is_derive (ant n) x (tay n (x * x)).
Proof.
  induction n as [|n IH].
  - unfold ant, tay; cbn. auto_derive; [exact I | field].
  - change (is_derive (fun x => ant n x + (-1) ^ S n * x ^ (2 * S n + 1) / (INR (fact (S n)) * INR (2 * S n + 1))) x (tay n (x * x) + (- (x * x)) ^ S n / INR (fact (S n)))).
    apply (is_derive_plus (ant n)); [exact IH|].
    assert (H1 : INR (fact (S n)) <> 0) by apply INR_fact_neq_0. assert (H2 : INR (2 * S n + 1) <> 0) by (apply not_0_INR; lia).
    apply (is_derive_ext (fun x => ((-1) ^ S n / (INR (fact (S n)) * INR (2 * S n + 1))) * x ^ (2 * S n + 1))); [intros t; unfold Rdiv; cbn beta; match goal with |- ?a = ?b => change (@eq R a b) end; ring|].
    remember (2 * S n + 1)%nat as m eqn:Em. remember (INR (fact (S n))) as c eqn:Ec. clear Ec.
    replace ((- (x * x)) ^ S n / c) with (((-1) ^ S n / (c * INR m)) * (INR m * x ^ pred m)).
    { generalize (((-1) ^ S n / (c * INR m))). intros k. auto_derive; [exact I | ring]. }
    subst m. replace (pred (2 * S n + 1)) with (2 * S n)%nat by lia.
    replace (- (x * x)) with ((-1) * x ^ 2) by ring. rewrite Rpow_mult_distr, <- pow_mult. field. split; assumption.
Qed.
Lemma ant_0 n : ant n 0 = 0.
Proof.
  unfold ant. induction n as [|n IH].
  - cbn. field.
  - cbn [sum_f_R0]. rewrite IH. replace (0 ^ (2 * S n + 1)) with 0 by (symmetry; apply pow_i; lia). unfold Rdiv. ring.
Qed.
Lemma ant_int n x : is_RInt (fun t => tay n (t * t)) 0 x (ant n x).
Proof.
  replace (ant n x) with (minus (ant n x) (ant n 0)) by (rewrite ant_0; unfold minus, plus, opp; cbn; ring).
  apply (is_RInt_derive (ant n)).
  - intros t _. apply ant_derive.
  - intros t _. apply (ex_derive_continuous (fun t => tay n (t * t))). destruct n as [|n]; [unfold tay; cbn; auto_derive; exact I|].
    apply (ex_derive_comp (tay (S n)) (fun t => t * t)); [exists (- tay n (t * t)); apply tay_derive | auto_derive; exact I].
Qed.

(** The series at sqrt 2. *)
Definition ser (n : nat) : R := sum_f_R0 (fun k => (-2) ^ k / (INR (fact k) * INR (2 * k + 1))) n.
Lemma ant_ser n : ant n (sqrt 2) = sqrt 2 * ser n.
Proof.
  unfold ant, ser. rewrite scal_sum. apply sum_eq. intros k _. replace (2 * k + 1)%nat with (S (2 * k)) by lia. cbn [pow]. rewrite pow_mult.
  replace (sqrt 2 ^ 2) with 2 by (cbn; rewrite Rmult_1_r; symmetry; apply sqrt_sqrt; lra).
  replace (-2) with ((-1) * 2) by ring. rewrite Rpow_mult_distr. unfold Rdiv. ring.
Qed.
Lemma gauss_bounds n : sqrt 2 * ser (S (2 * n)) <= RInt (fun t => exp (- (t * t))) 0 (sqrt 2) <= sqrt 2 * ser (2 * n).
Proof.
  rewrite <- !ant_ser, <- !(is_RInt_unique _ _ _ _ (ant_int _ _)).
  assert (Hs : 0 <= sqrt 2) by apply sqrt_pos. assert (Hsq : forall t, 0 <= t * t) by (intros t; pose proof (Rle_0_sqr t); unfold Rsqr in *; lra).
  split; (apply RInt_le; [exact Hs | | | intros t _; apply tay_bounds; apply Hsq]).
  - exists (ant (S (2 * n)) (sqrt 2)). apply ant_int.
  - apply gauss_int.
  - apply gauss_int.
  - exists (ant (2 * n) (sqrt 2)). apply ant_int.
Qed.

Lemma pi_bounds : 3.14 < PI < 3.142.
Proof.
  pose proof (PI_2_3_7_ineq 2) as [H1 H2]. unfold tg_alt, PI_2_3_7_tg, Ratan_seq in *. cbn [sum_f_R0 Nat.mul Nat.add pow INR] in *. lra.
Qed.

Fixpoint coef (k : nat) : R := match k with O => 1 | S k' => coef k' * (-2 / INR (S k')) end.
Lemma coef_is k : (-2) ^ k / INR (fact k) = coef k.
Proof.
  induction k as [|k IH]; [cbn; field|]. cbn [coef]. rewrite <- IH, fact_simpl, mult_INR. cbn [pow]. field. split; [apply not_0_INR; lia | apply INR_fact_neq_0].
Qed.
Lemma ser_coef n : ser n = sum_f_R0 (fun k => coef k / INR (2 * k + 1)) n.
Proof.
  unfold ser. apply sum_eq. intros k _. rewrite <- coef_is. field. split; [apply INR_fact_neq_0 | apply not_0_INR; lia].
Qed.
Lemma ser_bounds : 0.598 < ser 9 /\ ser 10 < 0.5983.
Proof.
  rewrite !ser_coef. cbn [sum_f_R0 coef Nat.mul Nat.add]. rewrite !INR_IZR_INZ. cbn [Z.of_nat Pos.of_succ_nat Pos.succ]. split; lra.
Qed.

Lemma two_sigma : 0.977 < calc_confidence_level erf 2 < 0.978.
Proof.
  unfold calc_confidence_level, erf.
  assert (H2 : 0 < sqrt 2) by (apply sqrt_lt_R0; lra).
  replace (2 / sqrt 2) with (sqrt 2) by (apply (Rmult_eq_reg_r (sqrt 2)); [|lra]; rewrite sqrt_sqrt by lra; field; lra).
  pose proof (gauss_bounds 4) as [Hl _]. pose proof (gauss_bounds 5) as [_ Hu]. destruct ser_bounds as [S9 S10].
  change (S (2 * 4)) with 9%nat in Hl. change (2 * 5)%nat with 10%nat in Hu.
  set (I := RInt (fun t => exp (- (t * t))) 0 (sqrt 2)) in *. destruct pi_bounds as [P1 P2].
  assert (Hp : 0 < sqrt PI) by (apply sqrt_lt_R0; lra).
  assert (A1 : 0.598 * sqrt 2 < I) by (apply Rlt_le_trans with (sqrt 2 * ser 9); [rewrite Rmult_comm; apply Rmult_lt_compat_l; auto | exact Hl]).
  assert (A2 : I < 0.5983 * sqrt 2) by (apply Rle_lt_trans with (sqrt 2 * ser 10); [exact Hu | rewrite (Rmult_comm 0.5983); apply Rmult_lt_compat_l; auto]).
  assert (B : forall a b, 0 <= a -> 0 <= b -> a * a * PI < b * b * 2 -> a * sqrt PI < b * sqrt 2).
  { intros a b Ha Hb H. apply Rsqr_incrst_0; [|apply Rmult_le_pos; lra|apply Rmult_le_pos; lra].
    rewrite !Rsqr_mult, !Rsqr_sqrt by lra. unfold Rsqr. exact H. }
  assert (B' : forall a b, 0 <= a -> 0 <= b -> a * a * 2 < b * b * PI -> a * sqrt 2 < b * sqrt PI).
  { intros a b Ha Hb H. apply Rsqr_incrst_0; [|apply Rmult_le_pos; lra|apply Rmult_le_pos; lra].
    rewrite !Rsqr_mult, !Rsqr_sqrt by lra. unfold Rsqr. exact H. }
  assert (C1 : 0.477 * sqrt PI < 0.598 * sqrt 2) by (apply B; lra).
  assert (C2 : 0.5983 * sqrt 2 < 0.478 * sqrt PI) by (apply B'; lra).
  assert (X : forall J : R, 0.598 * sqrt 2 < J -> J < 0.5983 * sqrt 2 -> 0.977 < 1 / 2 * (1 + 2 / sqrt PI * J) < 0.978); [|apply (X I A1 A2)].
  clear - C1 C2 Hp. intros J A1 A2.
  assert (D1 : 0.477 < J / sqrt PI) by (apply (Rmult_lt_reg_r (sqrt PI)); auto; replace (J / sqrt PI * sqrt PI) with J by (field; lra); lra).
  assert (D2 : J / sqrt PI < 0.478) by (apply (Rmult_lt_reg_r (sqrt PI)); auto; replace (J / sqrt PI * sqrt PI) with J by (field; lra); lra).
  replace (2 / sqrt PI * J) with (2 * (J / sqrt PI)) by (field; lra). lra.
Qed.
