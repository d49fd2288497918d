(** Hoeffding's lemma for one run that is accepted with probability [p] (C84). *)
From Coq Require Import Reals Lra Lia.
From Coquelicot Require Import Coquelicot.
Open Scope R_scope.

Lemma mass_pos p s : 0 <= p -> p <= 1 -> 0 < 1 - p + p * exp s.
Proof. intros H0 H1. pose proof (exp_pos s). destruct (Req_dec p 1) as [->|]; [lra|]. assert (0 <= p * exp s) by (apply Rmult_le_pos; lra). lra. Qed.
Lemma slope_pos p s : 0 <= p -> p <= 1 -> 0 <= s -> 0 <= s / 4 + p - p * exp s / (1 - p + p * exp s).
Proof.
  intros H0 H1 [Hs|<-]; [|rewrite exp_0; apply Req_le; field; lra].
  destruct (MVT_cor2 (fun s => s / 4 + p - p * exp s / (1 - p + p * exp s)) (fun s => / 4 - (1 - p) * (p * exp s) / (1 - p + p * exp s) ^ 2) 0 s Hs) as (c & E & _).
  - intros c _. apply is_derive_Reals. pose proof (mass_pos p c H0 H1). auto_derive; [lra|]. field. lra.
  - pose proof (mass_pos p c H0 H1) as M. assert (D : 0 <= / 4 - (1 - p) * (p * exp c) / (1 - p + p * exp c) ^ 2).
    { replace (/ 4 - (1 - p) * (p * exp c) / (1 - p + p * exp c) ^ 2) with (((1 - p) - p * exp c) ^ 2 / (4 * (1 - p + p * exp c) ^ 2)) by (field; lra). apply Rmult_le_pos; [apply pow2_ge_0|]. apply Rlt_le, Rinv_0_lt_compat. assert (0 < (1 - p + p * exp c) ^ 2) by (apply pow_lt; lra). lra. }
    cbv beta in E. rewrite exp_0 in E. replace (0 / 4 + p - p * 1 / (1 - p + p * 1)) with 0 in E by (field; lra). assert (0 <= (/ 4 - (1 - p) * (p * exp c) / (1 - p + p * exp c) ^ 2) * (s - 0)) by (apply Rmult_le_pos; lra). lra.
Qed.
Lemma hoeffding_lemma p s : 0 <= p -> p <= 1 -> 0 <= s -> (1 - p + p * exp s) <= exp (s * p + s ^ 2 / 8).
Proof.
  intros H0 H1 [Hs|<-]; [|rewrite exp_0; replace (0 * p + 0 ^ 2 / 8) with 0 by field; rewrite exp_0; lra].
  pose proof (mass_pos p s H0 H1) as M. rewrite <- (exp_ln _ M) at 1. assert (L : ln (1 - p + p * exp s) <= s * p + s ^ 2 / 8); [|destruct L as [L|L]; [left; apply exp_increasing, L|right; rewrite L; reflexivity]].
  destruct (MVT_cor2 (fun s => s * p + s ^ 2 / 8 - ln (1 - p + p * exp s)) (fun s => s / 4 + p - p * exp s / (1 - p + p * exp s)) 0 s Hs) as (c & E & Hc).
  - intros c _. apply is_derive_Reals. pose proof (mass_pos p c H0 H1). auto_derive; [lra|]. field. lra.
  - cbv beta in E. rewrite exp_0 in E. replace (1 - p + p * 1) with 1 in E by ring. rewrite ln_1 in E. replace (0 * p + 0 ^ 2 / 8 - 0) with 0 in E by field. assert (0 <= (c / 4 + p - p * exp c / (1 - p + p * exp c)) * (s - 0)) by (apply Rmult_le_pos; [apply slope_pos|]; lra). lra.
Qed.
