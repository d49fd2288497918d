(** Proofs about the coherence limit and about [twoQ_clifford_error]. *)
From Coq Require Import Reals Lra.
From Verif Require Import Base ResultFacts RBErrModel RBErrSpec RBErrProofs.
Open Scope R_scope.

Fixpoint factors (t : R) (Ts : list (R * R)) : R :=
  match Ts with [] => 1 | (T1, T2) :: Ts' => (1 + 2 * exp (- t / T2) + exp (- t / T1)) * factors t Ts' end.
Lemma rsum_app l l' : rsum (l ++ l') = rsum l + rsum l'.
Proof. unfold rsum. induction l; cbn; [lra | rewrite IHl; lra]. Qed.
Lemma rsum_scal x l : rsum (map (fun y => x * y) l) = x * rsum l.
Proof. unfold rsum. induction l; cbn; [lra | rewrite IHl; lra]. Qed.
Lemma rsum_relaxes t Ts : rsum (relaxes t Ts) = factors t Ts.
Proof.
  induction Ts as [|[T1 T2] Ts IH]; [unfold rsum; cbn; lra|]. cbn [relaxes factors relax flat_map]. rewrite !rsum_app, !rsum_scal, IH. unfold rsum at 1. cbn [fold_right]. ring.
Qed.

Lemma exp_split g x y : exp (- g * (1 / x + 1 / y)) = exp (- g / x) * exp (- g / y).
Proof. rewrite <- exp_plus. f_equal. unfold Rdiv. ring. Qed.

Lemma coherence_ok nQ T1 T2 t v : coherence_limit nQ T1 T2 t = Ok v ->
  length T1 = nQ /\ length (T2_of T1 T2) = nQ /\ (nQ = 1 \/ nQ = 2)%nat /\ v = avg_infidelity (2 ^ nQ) (relaxes t (combine T1 (T2_of T1 T2))).
Proof.
  unfold coherence_limit. fold (T2_of T1 T2). generalize (T2_of T1 T2). intros T2'. destruct (Nat.eqb_spec (length T1) nQ) as [E1|]; [|discriminate].
  destruct (Nat.eqb_spec (length T2') nQ) as [E2|]; [|discriminate]. cbn [negb orb]. intros H. split; [exact E1|]. split; [exact E2|]. unfold avg_infidelity. rewrite rsum_relaxes.
  destruct nQ as [|[|[|n]]]; try discriminate; (split; [auto|]).
  - destruct T1 as [|a [|]]; try discriminate. destruct T2' as [|b [|]]; try discriminate. unfold nthR in H. cbn [nth] in H. injection H as <-. cbn [combine factors pow]. field.
  - destruct T1 as [|a [|a' [|]]]; try discriminate. destruct T2' as [|b [|b' [|]]]; try discriminate. unfold nthR in H. cbn [nth Nat.sub] in H. injection H as <-. cbn [combine factors pow].
    rewrite !exp_split. generalize (exp (- t / a)) (exp (- t / a')) (exp (- t / b)) (exp (- t / b')). intros. field.
Qed.
Lemma coherence_defined nQ T1 T2 t : length T1 = nQ -> length (T2_of T1 T2) = nQ -> (nQ = 1 \/ nQ = 2)%nat -> exists v, coherence_limit nQ T1 T2 t = Ok v.
Proof.
  intros E1 E2 H. unfold coherence_limit. fold (T2_of T1 T2). rewrite E1, E2, Nat.eqb_refl. cbn [negb orb]. destruct H as [-> | ->]; eexists; reflexivity.
Qed.
Lemma coherence_error nQ T1 T2 t e : coherence_limit nQ T1 T2 t = Err e -> e = ValueError.
Proof. unfold coherence_limit. destruct (_ || _); [congruence|]. destruct nQ as [|[|[|]]]; congruence. Qed.

Lemma exp_range t T : 0 <= t -> 0 < T -> 0 < exp (- t / T) <= 1.
Proof.
  intros Ht HT. split; [apply exp_pos|]. rewrite <- exp_0. apply exp_le. unfold Rdiv. assert (0 < / T) by (apply Rinv_0_lt_compat, HT). nra.
Qed.
Lemma factors_range t Ts : 0 <= t -> times_ok Ts -> 1 <= factors t Ts <= 4 ^ length Ts.
Proof.
  intros Ht. induction 1 as [|[T1 T2] Ts [H1 H2] _ IH]; cbn [factors length pow]; [lra|]. cbn [fst snd] in *.
  pose proof (exp_range t T1 Ht H1). pose proof (exp_range t T2 Ht H2). set (f := 1 + 2 * exp (- t / T2) + exp (- t / T1)) in *. assert (1 <= f <= 4) by (unfold f; lra).
  split; [nra|]. apply Rmult_le_compat; lra.
Qed.
Lemma exp_mono t t' T T' : 0 <= t' <= t -> 0 < T <= T' -> exp (- t / T) <= exp (- t' / T').
Proof.
  intros Ht HT. apply exp_le. unfold Rdiv. assert (0 < / T') by (apply Rinv_0_lt_compat; lra). assert (/ T' <= / T) by (apply Rinv_le_contravar; lra).
  assert (t' * / T' <= t * / T) by (apply Rmult_le_compat; lra). lra.
Qed.
Lemma factors_mono t t' Ts Ts' : 0 <= t' <= t -> times_ok Ts -> Forall2 slower Ts Ts' -> factors t Ts <= factors t' Ts'.
Proof.
  intros Ht Hok HF. revert Hok. induction HF as [|[T1 T2] [T1' T2'] Ts Ts' [H1 H2] HF IH]; intros Hok; cbn [factors]; [lra|]. inversion Hok as [|? ? [O1 O2] Hok']; subst. cbn [fst snd] in *.
  pose proof (exp_mono t t' T1 T1' Ht ltac:(lra)). pose proof (exp_mono t t' T2 T2' Ht ltac:(lra)). pose proof (exp_pos (- t / T1)). pose proof (exp_pos (- t / T2)).
  pose proof (factors_range t Ts ltac:(lra) Hok'). apply Rmult_le_compat; [lra | lra | lra | apply IH, Hok'].
Qed.

Lemma infidelity_mono d S S' : 0 < d -> rsum S <= rsum S' -> avg_infidelity d S' <= avg_infidelity d S.
Proof.
  intros Hd H. unfold avg_infidelity. assert (0 < / (d * d)) by (apply Rinv_0_lt_compat; nra). assert (0 < / (d + 1)) by (apply Rinv_0_lt_compat; lra). unfold Rdiv.
  assert (rsum S * / (d * d) <= rsum S' * / (d * d)) by (apply Rmult_le_compat_r; lra).
  assert ((d * (rsum S * / (d * d)) + 1) * / (d + 1) <= (d * (rsum S' * / (d * d)) + 1) * / (d + 1)); [apply Rmult_le_compat_r; [lra|]; nra|]. lra.
Qed.
Lemma pow4 n : 4 ^ n = 2 ^ n * 2 ^ n.
Proof. rewrite <- Rpow_mult_distr. f_equal; lra. Qed.
Lemma infidelity_range n S : 1 <= rsum S <= 4 ^ n -> 0 <= avg_infidelity (2 ^ n) S <= (2 ^ n - 1) / 2 ^ n.
Proof.
  rewrite pow4. set (d := 2 ^ n). assert (Hd : 0 < d) by (unfold d; apply pow_lt; lra). intros [H1 H2]. unfold avg_infidelity. set (s := rsum S) in *.
  replace (1 - (d * (s / (d * d)) + 1) / (d + 1)) with ((d * d - s) / (d * (d + 1))) by (field; lra).
  assert (P : 0 < d * (d + 1)) by nra. split.
  - apply Rmult_le_pos; [lra|]. left. apply Rinv_0_lt_compat, P.
  - replace ((d - 1) / d) with ((d * d - 1) / (d * (d + 1))) by (field; lra). apply Rmult_le_compat_r; [left; apply Rinv_0_lt_compat, P | lra].
Qed.

Lemma coherence_range nQ T1 T2 t v : coherence_limit nQ T1 T2 t = Ok v -> 0 <= t -> times_ok (combine T1 (T2_of T1 T2)) ->
  0 <= v <= (2 ^ nQ - 1) / 2 ^ nQ.
Proof.
  intros H Ht Hok. apply coherence_ok in H as (E1 & E2 & _ & ->). apply infidelity_range. rewrite rsum_relaxes. pose proof (factors_range t _ Ht Hok) as R.
  rewrite combine_length, E1, E2, Nat.min_id in R. exact R.
Qed.
Lemma coherence_mono nQ T1 T2 t v T1' T2' t' v' : coherence_limit nQ T1 T2 t = Ok v -> coherence_limit nQ T1' T2' t' = Ok v' -> 0 <= t' <= t ->
  times_ok (combine T1 (T2_of T1 T2)) -> Forall2 slower (combine T1 (T2_of T1 T2)) (combine T1' (T2_of T1' T2')) -> v' <= v.
Proof.
  intros H H' Ht Hok Hs. apply coherence_ok in H as (_ & _ & _ & ->). apply coherence_ok in H' as (_ & _ & _ & ->). apply infidelity_mono; [apply pow_lt; lra|].
  rewrite !rsum_relaxes. apply factors_mono; assumption.
Qed.
Lemma coherence_zero nQ T1 T2 v : coherence_limit nQ T1 T2 0 = Ok v -> v = 0.
Proof.
  intros H. apply coherence_ok in H as (E1 & E2 & Hn & ->). unfold avg_infidelity. rewrite rsum_relaxes.
  assert (X : forall Ts, factors 0 Ts = 4 ^ length Ts).
  { induction Ts as [|[a b] Ts IH]; cbn [factors length pow]; [reflexivity|]. rewrite IH. unfold Rdiv. rewrite Ropp_0, !Rmult_0_l, exp_0. ring. }
  rewrite X, combine_length, E1, E2, Nat.min_id, pow4. assert (0 < 2 ^ nQ) by (apply pow_lt; lra). field. lra.
Qed.

Lemma two_ways k0 k1 (g0 g1 : gates) e1 e2 e3 f1 f2 f3 ec : k0 <> k1 -> 0 < get0 g0 (str "cx") ->
  physical 2 (counts_of g0 (u_epgs e1 e2 e3)) -> physical 2 (counts_of g1 (u_epgs f1 f2 f3)) -> ec <= 3 / 4 ->
  forall ng, (k0 < k1)%nat -> ng = [(k0, g0); (k1, g1)] \/ ng = [(k1, g1); (k0, g0)] ->
  twoQ_clifford_error ng [0; 0; 0; 1; 1; 1; -1]%Z [e1; e2; e3; f1; f2; f3; ec] =
  calculate_2q_epc ng ec [k0; k1] [u_epgs e1 e2 e3; u_epgs f1 f2 f3] (str "cx").
Proof.
  intros Hk Hcx P0 P1 Hec ng Hlt Hng.
  assert (D0 : dget ng k0 = Some g0 /\ dget ng k1 = Some g1).
  { destruct Hng as [-> | ->]; cbn [dget fst snd]; repeat match goal with |- context [eqb ?x ?y] => destruct (eqb_spec x y) end; try congruence; auto. }
  destruct D0 as [D0 D1].
  assert (S2 : sorted2 ng = [(k0, g0); (k1, g1)]).
  { destruct Hng as [-> | ->]; unfold sorted2; cbn [fst]; [destruct (Nat.leb_spec k0 k1); [reflexivity | lia] | destruct (Nat.leb_spec k1 k0); [lia | reflexivity]]. }
  rewrite (epc_2q_ok ng ec k0 k1 _ (str "cx") g0 D0 Hcx Hec).
  2: { intros i q e Eq Ee. destruct i as [|[|i]]; cbn [nth_error] in *; [| |destruct i; discriminate]; injection Eq as <-; injection Ee as <-; [exists g0 | exists g1]; auto. }
  unfold twoQ_clifford_error. rewrite S2. unfold qubit_alpha. cbn [nth_error]. rewrite D0, D1. cbn [counts_of u_epgs map fst snd survive].
  unfold physical in P0, P1. cbn [counts_of u_epgs map fst snd] in P0, P1.
  repeat match goal with H : Forall _ (_ :: _) |- _ => apply Forall_cons_iff in H as [[? ?] H]; cbn [fst snd] in * end.
  unfold seven. cbn [seq combine foldM].
  repeat (cbn [acc_gate fst snd]; unfold index_e; cbn [nth_error bind Z.eqb Z.compare Pos.eqb Pos.compare Pos.compare_cont orb]; rewrite pypow_ok by lra; cbn [bind]).
  cbn [bind]. f_equal. unfold error_of_alpha, clifford_alpha. field.
Qed.
