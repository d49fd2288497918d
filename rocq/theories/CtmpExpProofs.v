(** Matrix exponentials and Poisson mixtures (for C34). *)
From Coq Require Import QArith QArith.Qcanon Reals Lra.
From Coquelicot Require Import Coquelicot.
From Verif Require Import LinAlg Base CountsSpec ExpvalSpec CtmpSpec.
Open Scope nat_scope.
Local Open Scope R_scope.

Ltac rring := match goal with |- ?a = ?b => change (@eq R a b) end; ring.

Lemma rsum_ext d f g : (forall i, (i < d)%nat -> f i = g i) -> rsum d f = rsum d g.
Proof. intros H. unfold rsum. apply fsum_map_ext. intros a Ha. apply H. apply in_seq in Ha. lia. Qed.
Lemma rsum_add d f g : rsum d (fun i => f i + g i) = rsum d f + rsum d g.
Proof. exact (fsum_map_add f g (seq 0 d)). Qed.
Lemma rsum_scal d k f : rsum d (fun i => k * f i) = k * rsum d f.
Proof. exact (fsum_map_mul k f (seq 0 d)). Qed.
Lemma rsum_scal_r d k f : rsum d (fun i => f i * k) = rsum d f * k.
Proof. exact (fsum_map_mul_r k f (seq 0 d)). Qed.
Lemma rsum_swap d (f : nat -> nat -> R) : rsum d (fun i => rsum d (f i)) = rsum d (fun j => rsum d (fun i => f i j)).
Proof. exact (fsum_swap f (seq 0 d) (seq 0 d)). Qed.
Lemma rsum_0 d : rsum d (fun _ => 0) = 0.
Proof. exact (fsum_map_zero (seq 0 d)). Qed.
Lemma rsum_S d f : rsum (S d) f = rsum d f + f d.
Proof.
  unfold rsum. rewrite seq_S, map_app, fsum_app. cbn [map]. rewrite fsum_cons, fsum_nil. cbn. ring.
Qed.
Lemma rsum_le d f g : (forall i, (i < d)%nat -> f i <= g i) -> rsum d f <= rsum d g.
Proof.
  induction d as [|d IH]; intros H; [right; reflexivity|]. rewrite !rsum_S. apply Rplus_le_compat; [apply IH; intros; apply H; lia | apply H; lia].
Qed.
Lemma rsum_abs d f : Rabs (rsum d f) <= rsum d (fun i => Rabs (f i)).
Proof.
  induction d as [|d IH]; [unfold rsum; cbn; rewrite fsum_nil; cbn; rewrite Rabs_R0; lra|].
  rewrite !rsum_S. eapply Rle_trans; [apply Rabs_triang|]. lra.
Qed.
Lemma rsum_pick d (f : nat -> R) i : (i < d)%nat -> rsum d (fun k => (if (i =? k)%nat then 1 else 0) * f k) = f i.
Proof.
  intros Hi. rewrite <- (fsum_pick (seq 0 d) i f (seq_NoDup d 0)) by (apply in_seq; lia).
  apply fsum_map_ext. intros k _. change (eqb i k) with (i =? k)%nat. destruct (i =? k)%nat; cbn; ring.
Qed.
Lemma rsum_pick_r d (f : nat -> R) i : (i < d)%nat -> rsum d (fun k => f k * (if (k =? i)%nat then 1 else 0)) = f i.
Proof. intros Hi. rewrite <- (rsum_pick d f i Hi). apply rsum_ext. intros k _. rewrite Nat.eqb_sym. ring. Qed.
Lemma rsum_sum d (f : nat -> nat -> R) k : rsum d (fun l => sum_f_R0 (fun a => f a l) k) = sum_f_R0 (fun a => rsum d (f a)) k.
Proof. induction k as [|k IH]; cbn [sum_f_R0]; [reflexivity|]. rewrite rsum_add, IH. reflexivity. Qed.
Lemma rsum_nonneg d f : (forall i, (i < d)%nat -> 0 <= f i) -> 0 <= rsum d f.
Proof. intros H. rewrite <- (rsum_0 d). apply rsum_le. exact H. Qed.
Lemma rsum_ge1 d f i : (i < d)%nat -> (forall j, (j < d)%nat -> 0 <= f j) -> f i <= rsum d f.
Proof.
  induction d as [|d IH]; intros Hi H; [lia|]. rewrite rsum_S. destruct (Nat.eq_dec i d) as [->|Hn].
  - assert (0 <= rsum d f) by (apply rsum_nonneg; intros; apply H; lia). lra.
  - assert (f i <= rsum d f) by (apply IH; [lia | intros; apply H; lia]). assert (0 <= f d) by (apply H; lia). lra.
Qed.

Section Exp.
Variable d : nat.
Notation E := (exp_term d).

Lemma fact_neq k : INR (fact k) <> 0. Proof. apply INR_fact_neq_0. Qed.

Lemma term_S m i j k : INR (S k) * E m i j (S k) = rsum d (fun l => m i l * E m l j k).
Proof.
  unfold exp_term. cbn [mpow]. 
  replace (INR (S k) * (rsum d (fun l => m i l * mpow d m k l j) / INR (fact (S k))))
    with (rsum d (fun l => m i l * mpow d m k l j) * / INR (fact k)).
  - rewrite <- rsum_scal_r. apply rsum_ext. intros l _. unfold Rdiv. ring.
  - rewrite fact_simpl, mult_INR. field. split; [apply fact_neq | apply not_0_INR; lia].
Qed.

Lemma mpow_ext m m' k : (forall i j, (i < d)%nat -> (j < d)%nat -> m i j = m' i j) ->
  forall i j, (i < d)%nat -> (j < d)%nat -> mpow d m k i j = mpow d m' k i j.
Proof.
  intros H. induction k as [|k IH]; intros i j Hi Hj; cbn [mpow]; [reflexivity|].
  apply rsum_ext. intros l Hl. rewrite H, IH by assumption. reflexivity.
Qed.

Lemma mexp_ext m m' : (forall i j, (i < d)%nat -> (j < d)%nat -> m i j = m' i j) ->
  forall i j, (i < d)%nat -> (j < d)%nat -> mexp d m i j = mexp d m' i j.
Proof. intros H i j Hi Hj. apply Series_ext. intros k. unfold exp_term. rewrite (mpow_ext m m' k H) by assumption. reflexivity. Qed.

Definition commute (A B : nat -> nat -> R) : Prop := forall i j, (i < d)%nat -> (j < d)%nat ->
  rsum d (fun l => A i l * B l j) = rsum d (fun l => B i l * A l j).

Lemma assoc (A B C : nat -> nat -> R) i j :
  rsum d (fun l => rsum d (fun m => A i m * B m l) * C l j) = rsum d (fun m => A i m * rsum d (fun l => B m l * C l j)).
Proof.
  rewrite (rsum_ext d _ (fun l => rsum d (fun m => A i m * B m l * C l j))) by (intros; rewrite rsum_scal_r; reflexivity).
  rewrite rsum_swap. apply rsum_ext. intros m _. rewrite <- rsum_scal. apply rsum_ext. intros; ring.
Qed.

Lemma commute_pow A B k : commute A B -> commute (mpow d A k) B.
Proof.
  intros H. induction k as [|k IH]; intros i j Hi Hj; cbn [mpow].
  - rewrite rsum_pick, rsum_pick_r by assumption. reflexivity.
  - rewrite assoc. 
    rewrite (rsum_ext d _ (fun m => A i m * rsum d (fun l => B m l * mpow d A k l j))) by (intros m Hm; rewrite (IH m j Hm Hj); reflexivity).
    rewrite <- assoc. rewrite (rsum_ext d _ (fun l => rsum d (fun m => B i m * A m l) * mpow d A k l j)) by (intros l Hl; rewrite (H i l Hi Hl); reflexivity).
    apply assoc.
Qed.

Lemma commute_term A B k : commute A B -> forall i j, (i < d)%nat -> (j < d)%nat ->
  rsum d (fun l => E A i l k * B l j) = rsum d (fun l => B i l * E A l j k).
Proof.
  intros H i j Hi Hj. unfold exp_term.
  rewrite (rsum_ext d _ (fun l => (mpow d A k i l * B l j) * / INR (fact k))) by (intros; unfold Rdiv; ring).
  rewrite (rsum_ext d (fun l => B i l * _) (fun l => (B i l * mpow d A k l j) * / INR (fact k))) by (intros; unfold Rdiv; ring).
  rewrite !rsum_scal_r. f_equal. apply commute_pow; assumption.
Qed.

(** The Cauchy product of the terms. *)
Definition ctm A B k i j : R := sum_f_R0 (fun a => rsum d (fun l => E A i l a * E B l j (k - a))) k.

Lemma sum_decomp (f : nat -> R) k : sum_f_R0 f (S k) = f O + sum_f_R0 (fun a => f (S a)) k.
Proof. rewrite decomp_sum by lia. reflexivity. Qed.

Lemma ctm_S A B k i j : commute A B -> (i < d)%nat -> (j < d)%nat ->
  INR (S k) * ctm A B (S k) i j = rsum d (fun l => (A i l + B i l) * ctm A B k l j).
Proof.
  intros H Hi Hj. unfold ctm at 1.
  set (t := fun a => rsum d (fun l => E A i l a * E B l j (S k - a))).
  assert (H1 : INR (S k) * sum_f_R0 t (S k) = sum_f_R0 (fun a => INR a * t a) (S k) + sum_f_R0 (fun a => INR (S k - a) * t a) (S k)).
  { rewrite scal_sum, <- plus_sum. apply sum_eq. intros a Ha. rewrite minus_INR by exact Ha. ring. }
  rewrite H1. rewrite sum_decomp. change (INR 0) with 0. rewrite Rmult_0_l, Rplus_0_l.
  cbn [sum_f_R0]. replace (S k - S k)%nat with 0%nat by lia. change (INR 0) with 0. rewrite Rmult_0_l, Rplus_0_r.
  rewrite (rsum_ext d (fun l => (A i l + B i l) * _) (fun l => A i l * ctm A B k l j + B i l * ctm A B k l j)) by (intros; ring).
  rewrite rsum_add. f_equal.
  - unfold ctm. rewrite (rsum_ext d _ (fun l => sum_f_R0 (fun a => A i l * rsum d (fun l0 => E A l l0 a * E B l0 j (k - a))) k)).
    + rewrite rsum_sum. apply sum_eq. intros a Ha. unfold t. replace (S k - S a)%nat with (k - a)%nat by lia.
      rewrite <- rsum_scal. rewrite (rsum_ext d _ (fun l => rsum d (fun m => A i m * E A m l a) * E B l j (k - a))).
      * apply (assoc A (fun m l => E A m l a) (fun l j => E B l j (k - a)) i j).
      * intros l Hl. rewrite <- term_S. ring.
    + intros l Hl. rewrite scal_sum. apply sum_eq. intros; ring.
  - unfold ctm. rewrite (rsum_ext d _ (fun l => sum_f_R0 (fun a => B i l * rsum d (fun l0 => E A l l0 a * E B l0 j (k - a))) k)).
    + rewrite rsum_sum. apply sum_eq. intros a Ha. unfold t. replace (S k - a)%nat with (S (k - a)) by lia.
      rewrite <- rsum_scal. rewrite (rsum_ext d _ (fun l => E A i l a * rsum d (fun m => B l m * E B m j (k - a)))).
      * rewrite <- (assoc (fun i l => E A i l a) B (fun m j => E B m j (k - a)) i j). rewrite <- (assoc B (fun i l => E A i l a) (fun m j => E B m j (k - a)) i j). apply rsum_ext. intros l Hl. f_equal. apply commute_term; assumption.
      * intros l Hl. rewrite <- term_S. ring.
    + intros l Hl. rewrite scal_sum. apply sum_eq. intros; ring.
Qed.

Lemma ctm_sum A B k : commute A B -> forall i j, (i < d)%nat -> (j < d)%nat ->
  E (fun i j => A i j + B i j) i j k = ctm A B k i j.
Proof.
  intros H. induction k as [|k IH]; intros i j Hi Hj.
  - unfold ctm, exp_term. cbn [sum_f_R0 mpow fact INR Nat.sub]. 
    rewrite (rsum_ext d _ (fun l => (if (i =? l)%nat then 1 else 0) * (if (l =? j)%nat then 1 else 0))) by (intros; field).
    rewrite rsum_pick by exact Hi. field.
  - apply (Rmult_eq_reg_l (INR (S k))); [|apply not_0_INR; lia].
    rewrite ctm_S by assumption. rewrite term_S. apply rsum_ext. intros l Hl. rewrite IH by assumption. reflexivity.
Qed.

(** Convergence. *)
Definition bound (m : nat -> nat -> R) : R := rsum d (fun j => rsum d (fun i => Rabs (m i j))).
Lemma bound_nonneg m : 0 <= bound m.
Proof. apply rsum_nonneg. intros j Hj. apply rsum_nonneg. intros i Hi. apply Rabs_pos. Qed.

Lemma mpow_colsum m k : forall j, (j < d)%nat -> rsum d (fun i => Rabs (mpow d m k i j)) <= bound m ^ k.
Proof.
  induction k as [|k IH]; intros j Hj; cbn [mpow pow].
  - rewrite (rsum_ext d _ (fun i => 1 * (if (i =? j)%nat then 1 else 0))).
    + rewrite (rsum_pick_r d (fun _ => 1)) by exact Hj. lra.
    + intros i _. destruct (i =? j)%nat; rewrite ?Rabs_R1, ?Rabs_R0; ring.
  - eapply Rle_trans.
    + apply rsum_le. intros i Hi. eapply Rle_trans; [apply rsum_abs|]. right. apply rsum_ext. intros l Hl. apply Rabs_mult.
    + cbv beta. rewrite rsum_swap. eapply Rle_trans.
      * apply (rsum_le d _ (fun l => bound m * Rabs (mpow d m k l j))). intros l Hl. rewrite rsum_scal_r.
        apply Rmult_le_compat_r; [apply Rabs_pos|]. unfold bound.
        apply (rsum_ge1 d (fun j => rsum d (fun i => Rabs (m i j))) l Hl). intros j' Hj'. apply rsum_nonneg. intros; apply Rabs_pos.
      * rewrite rsum_scal. apply Rmult_le_compat_l; [apply bound_nonneg | apply IH; exact Hj].
Qed.

Lemma is_series_exp c : is_series (fun k => c ^ k / INR (fact k)) (exp c).
Proof.
  apply is_series_ext with (2 := proj1 (is_pseries_R _ _ _) (is_exp_Reals c)).
  intros n. unfold Rdiv. rring.
Qed.

Lemma term_abs m i j : (i < d)%nat -> (j < d)%nat -> ex_series (fun k => Rabs (E m i j k)).
Proof.
  intros Hi Hj. apply (ex_series_le (V := R_CompleteNormedModule)) with (b := fun k => bound m ^ k / INR (fact k)); [|eexists; apply is_series_exp].
  intros k. change (norm (Rabs (E m i j k))) with (Rabs (Rabs (E m i j k))). rewrite Rabs_Rabsolu. unfold exp_term, Rdiv. rewrite Rabs_mult.
  assert (Hf : 0 < / INR (fact k)) by (apply Rinv_0_lt_compat; apply INR_fact_lt_0).
  rewrite (Rabs_right (/ INR (fact k))) by lra. apply Rmult_le_compat_r; [lra|].
  eapply Rle_trans; [|apply mpow_colsum; exact Hj].
  apply (rsum_ge1 d (fun i => Rabs (mpow d m k i j)) i Hi). intros; apply Rabs_pos.
Qed.
Lemma mexp_series m i j : (i < d)%nat -> (j < d)%nat -> is_series (E m i j) (mexp d m i j).
Proof. intros Hi Hj. apply Series_correct. apply ex_series_Rabs. apply term_abs; assumption. Qed.

Lemma is_series_rsum (f : nat -> nat -> R) (l : nat -> R) n : (forall x, (x < n)%nat -> is_series (f x) (l x)) ->
  is_series (fun k => rsum n (fun x => f x k)) (rsum n l).
Proof.
  induction n as [|n IH]; intros H.
  - apply is_series_ext with (a := fun k => 0 * (0 ^ k / INR (fact k))).
    + intros k. unfold rsum. cbn. rewrite fsum_nil. cbn. rring.
    + replace (rsum 0 l) with (scal 0 (exp 0)) by (unfold rsum, scal; cbn; rewrite fsum_nil; cbn; unfold mult; cbn; ring).
      apply (is_series_scal_l (V := R_NormedModule) 0). apply is_series_exp.
  - rewrite rsum_S. apply is_series_ext with (a := fun k => rsum n (fun x => f x k) + f n k).
    + intros k. rewrite rsum_S. reflexivity.
    + apply (is_series_plus (V := R_NormedModule)); [apply IH; intros; apply H; lia | apply H; lia].
Qed.

Lemma mexp_add A B : commute A B -> forall i j, (i < d)%nat -> (j < d)%nat ->
  mexp d (fun i j => A i j + B i j) i j = rsum d (fun l => mexp d A i l * mexp d B l j).
Proof.
  intros H i j Hi Hj. apply is_series_unique.
  apply is_series_ext with (a := fun k => rsum d (fun l => sum_f_R0 (fun a => E A i l a * E B l j (k - a)) k)).
  - intros k. rewrite rsum_sum. symmetry. apply (ctm_sum A B k H i j Hi Hj).
  - apply (is_series_rsum (fun l k => sum_f_R0 (fun a => E A i l a * E B l j (k - a)) k) (fun l => mexp d A i l * mexp d B l j)).
    intros l Hl. apply is_series_mult; try (apply mexp_series; assumption); apply term_abs; assumption.
Qed.

Lemma mpow_scalar c k i j : (i < d)%nat -> mpow d (fun i j => c * (if (i =? j)%nat then 1 else 0)) k i j = c ^ k * (if (i =? j)%nat then 1 else 0).
Proof.
  revert i j. induction k as [|k IH]; intros i j Hi; cbn [mpow pow]; [ring|].
  rewrite (rsum_ext d _ (fun l => (if (i =? l)%nat then 1 else 0) * (c * (c ^ k * (if (l =? j)%nat then 1 else 0))))).
  - rewrite rsum_pick by exact Hi. ring.
  - intros l Hl. rewrite IH by exact Hl. ring.
Qed.

Lemma mexp_scalar c i j : (i < d)%nat -> mexp d (fun i j => c * (if (i =? j)%nat then 1 else 0)) i j = exp c * (if (i =? j)%nat then 1 else 0).
Proof.
  intros Hi. apply is_series_unique. set (e := if (i =? j)%nat then 1 else 0).
  apply is_series_ext with (a := fun k => scal e (c ^ k / INR (fact k))).
  - intros k. unfold exp_term. rewrite mpow_scalar by exact Hi. fold e. unfold scal. cbn. unfold mult. cbn. unfold Rdiv. rring.
  - rewrite Rmult_comm. apply (is_series_scal_l (V := R_NormedModule) e). apply is_series_exp.
Qed.

Lemma mexp_zero i j : (i < d)%nat -> mexp d (fun _ _ => 0) i j = if (i =? j)%nat then 1 else 0.
Proof.
  intros Hi. destruct (Nat.lt_ge_cases j d) as [Hj|Hj].
  - rewrite (mexp_ext _ (fun i j => 0 * (if (i =? j)%nat then 1 else 0))) by (intros; try assumption; ring).
    rewrite mexp_scalar by exact Hi. rewrite exp_0. ring.
  - unfold mexp. rewrite (Series_ext _ (fun k => 0 * (0 ^ k / INR (fact k)))).
    + rewrite Series_scal_l. replace (i =? j)%nat with false by (symmetry; apply Nat.eqb_neq; lia). ring.
    + intros k. unfold exp_term. destruct k as [|k]; cbn [mpow].
      * replace (i =? j)%nat with false by (symmetry; apply Nat.eqb_neq; lia). unfold Rdiv. ring.
      * rewrite (rsum_ext d _ (fun _ => 0)) by (intros; ring). rewrite rsum_0. unfold Rdiv. ring.
Qed.

(** The inverse of an exponential. *)
Lemma mexp_inverse m i j : (i < d)%nat -> (j < d)%nat ->
  rsum d (fun l => mexp d (fun i j => - m i j) i l * mexp d m l j) = if (i =? j)%nat then 1 else 0.
Proof.
  intros Hi Hj. rewrite <- (mexp_add (fun i j => - m i j) m).
  - rewrite (mexp_ext _ (fun _ _ => 0)) by (intros; try assumption; ring). apply mexp_zero. exact Hi.
  - intros i' j' _ _. apply rsum_ext. intros; ring.
  - exact Hi.
  - exact Hj.
Qed.

Lemma mpow_scal c m k i j : mpow d (fun i j => c * m i j) k i j = c ^ k * mpow d m k i j.
Proof.
  revert i j. induction k as [|k IH]; intros i j; cbn [mpow pow]; [ring|].
  rewrite (rsum_ext d _ (fun l => (c * c ^ k) * (m i l * mpow d m k l j))) by (intros; rewrite IH; ring).
  rewrite rsum_scal. ring.
Qed.

(** The signed Poisson mixture of the powers of [B] is the exponential of
    [g (I - B)]. *)
Lemma mixture g B i j : (i < d)%nat -> (j < d)%nat ->
  is_series (fun k => exp (2 * g) * poisson g k * (-1) ^ k * mpow d B k i j)
    (mexp d (fun i j => g * (if (i =? j)%nat then 1 else 0) + (- g) * B i j) i j).
Proof.
  intros Hi Hj.
  rewrite (mexp_add (fun i j => g * (if (i =? j)%nat then 1 else 0)) (fun i j => - g * B i j)).
  - rewrite (rsum_ext d _ (fun l => (if (i =? l)%nat then 1 else 0) * (exp g * mexp d (fun i j => - g * B i j) l j)))
      by (intros l Hl; rewrite mexp_scalar by exact Hi; ring).
    rewrite rsum_pick by exact Hi.
    apply is_series_ext with (a := fun k => scal (exp g) (E (fun i j => - g * B i j) i j k)).
    + intros k. unfold exp_term, poisson. rewrite mpow_scal. unfold scal. cbn. unfold mult. cbn.
      replace (exp (2 * g)) with (exp g * exp g) by (rewrite <- exp_plus; f_equal; ring).
      replace ((- g) ^ k) with ((-1) ^ k * g ^ k) by (rewrite <- Rpow_mult_distr; f_equal; ring).
      assert (Hg : exp g * exp (- g) = 1) by (rewrite <- exp_plus, Rplus_opp_r; apply exp_0).
      unfold Rdiv. transitivity (exp g * (exp g * exp (- g)) * (-1) ^ k * g ^ k * / INR (fact k) * mpow d B k i j); [rewrite Hg|]; ring.
    + apply (is_series_scal_l (V := R_NormedModule) (exp g)). apply mexp_series; assumption.
  - intros i' j' Hi' Hj'.
    rewrite (rsum_ext d _ (fun l => (if (i' =? l)%nat then 1 else 0) * (g * (- g * B l j')))) by (intros; ring).
    rewrite (rsum_ext d (fun l => - g * B i' l * _) (fun l => (- g * B i' l * g) * (if (l =? j')%nat then 1 else 0))) by (intros; ring).
    rewrite rsum_pick, (rsum_pick_r d (fun l => - g * B i' l * g)) by assumption. ring.
  - exact Hi.
  - exact Hj.
Qed.

Lemma mixture_inverts g B m p q : (forall i j, (i < d)%nat -> (j < d)%nat -> m i j = g * (B i j - if (i =? j)%nat then 1 else 0)) ->
  (forall y, (y < d)%nat -> q y = rsum d (fun x => mexp d m y x * p x)) ->
  forall z, (z < d)%nat -> is_series (fun k => exp (2 * g) * poisson g k * (-1) ^ k * rsum d (fun y => mpow d B k z y * q y)) (p z).
Proof.
  intros Hm Hq z Hz.
  set (A := fun i j => g * (if (i =? j)%nat then 1 else 0) + (- g) * B i j).
  assert (HA : forall i j, (i < d)%nat -> (j < d)%nat -> A i j = - m i j).
  { intros i j Hi Hj. unfold A. rewrite Hm by assumption. ring. }
  replace (p z) with (rsum d (fun y => mexp d A z y * q y)).
  - apply is_series_ext with (a := fun k => rsum d (fun y => (exp (2 * g) * poisson g k * (-1) ^ k * mpow d B k z y) * q y)).
    + intros k. rewrite <- rsum_scal. apply rsum_ext. intros; ring.
    + apply (is_series_rsum (fun y k => exp (2 * g) * poisson g k * (-1) ^ k * mpow d B k z y * q y) (fun y => mexp d A z y * q y)).
      intros y Hy. apply is_series_ext with (a := fun k => scal (q y) (exp (2 * g) * poisson g k * (-1) ^ k * mpow d B k z y)).
      * intros k. unfold scal. cbn. unfold mult. cbn. rring.
      * rewrite (Rmult_comm (mexp d A z y)). apply (is_series_scal_l (V := R_NormedModule) (q y)). apply mixture; assumption.
  - rewrite (rsum_ext d _ (fun y => mexp d (fun i j => - m i j) z y * rsum d (fun x => mexp d m y x * p x))).
    + rewrite (rsum_ext d _ (fun y => rsum d (fun x => mexp d (fun i j => - m i j) z y * mexp d m y x * p x))).
      * rewrite rsum_swap. rewrite (rsum_ext d _ (fun x => (if (z =? x)%nat then 1 else 0) * p x)).
        -- apply rsum_pick. exact Hz.
        -- intros x Hx. rewrite rsum_scal_r. rewrite mexp_inverse by assumption. reflexivity.
      * intros y Hy. rewrite <- rsum_scal. apply rsum_ext. intros; ring.
    + intros y Hy. rewrite <- Hq by exact Hy. f_equal. apply mexp_ext; assumption.
Qed.
End Exp.
