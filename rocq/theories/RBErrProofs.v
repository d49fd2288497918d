(** Proofs about error conversions. *)
From Coq Require Import Reals Lra.
From Verif Require Import Base ResultFacts RBErrModel RBErrSpec.
Open Scope R_scope.

(** ** Powers *)
Lemma pypow_ok b n : 0 <= b -> 0 <= n -> pypow b n = Ok (rpow b n).
Proof.
  intros Hb Hn. unfold pypow, rpow. destruct (Rlt_dec 0 b) as [H|H].
  - destruct (Req_EM_T b 0); [lra | reflexivity].
  - destruct (Req_EM_T b 0) as [->|]; [|lra]. destruct (Req_EM_T n 0); [reflexivity|]. destruct (Rlt_dec 0 n); [reflexivity | lra].
Qed.
Lemma rpow_1 n : rpow 1 n = 1.
Proof. unfold rpow. destruct (Req_EM_T 1 0); [lra|]. unfold Rpower. rewrite ln_1, Rmult_0_r. apply exp_0. Qed.
Lemma pypow_1 n : pypow 1 n = Ok 1.
Proof. unfold pypow. destruct (Rlt_dec 0 1); [|lra]. unfold Rpower. rewrite ln_1, Rmult_0_r, exp_0. reflexivity. Qed.
Lemma rpow_pos b n : 0 < b -> 0 < rpow b n.
Proof. intros H. unfold rpow. destruct (Req_EM_T b 0); [lra|]. apply exp_pos. Qed.
Lemma rpow_nonneg b n : 0 <= b -> 0 <= rpow b n.
Proof. intros H. unfold rpow. destruct (Req_EM_T b 0); [destruct (Req_EM_T n 0); lra|]. left. apply exp_pos. Qed.
Lemma ln_le_0 b : 0 < b -> b <= 1 -> ln b <= 0.
Proof. intros H H1. destruct (Req_EM_T b 1) as [->|Hn]; [rewrite ln_1; lra|]. left. rewrite <- ln_1. apply ln_increasing; lra. Qed.
Lemma exp_le a b : a <= b -> exp a <= exp b.
Proof. intros [H| ->]; [left; apply exp_increasing, H | right; reflexivity]. Qed.
Lemma rpow_le_1 b n : 0 <= b <= 1 -> 0 <= n -> rpow b n <= 1.
Proof.
  intros [H0 H1] Hn. unfold rpow. destruct (Req_EM_T b 0) as [|Hb]; [destruct (Req_EM_T n 0); lra|]. unfold Rpower. rewrite <- exp_0. apply exp_le.
  pose proof (ln_le_0 b ltac:(lra) H1). nra.
Qed.
Lemma rpow_exp1 b : 0 <= b -> rpow b 1 = b.
Proof. intros H. unfold rpow. destruct (Req_EM_T b 0) as [->|]; [destruct (Req_EM_T 1 0); lra|]. apply Rpower_1. lra. Qed.
Lemma rpow_exp0 b : 0 <= b -> rpow b 0 = 1.
Proof. intros H. unfold rpow. destruct (Req_EM_T b 0) as [->|]; [destruct (Req_EM_T 0 0); lra|]. apply Rpower_O. lra. Qed.
Lemma rpow_exp2 b : 0 <= b -> rpow b 2 = b * b.
Proof.
  intros H. unfold rpow. destruct (Req_EM_T b 0) as [->|]; [destruct (Req_EM_T 2 0); lra|]. replace 2 with (1 + 1) by lra. rewrite Rpower_plus, Rpower_1; lra.
Qed.
(** Bernoulli's inequality. *)
Lemma bernoulli x n : 0 <= x -> x <= 1 -> 1 <= n -> 1 - n * x <= rpow (1 - x) n.
Proof.
  intros H0 H1 Hn. destruct (Rle_dec (1 - n * x) 0) as [Hle|Hgt]; [pose proof (rpow_nonneg (1 - x) n ltac:(lra)); lra|].
  assert (Hx : 0 < 1 - x) by nra. unfold rpow. destruct (Req_EM_T (1 - x) 0); [lra|].
  set (u := ln (1 - n * x)). set (a := / n). assert (Ha : 0 < a <= 1).
  { unfold a. split; [apply Rinv_0_lt_compat; lra|]. rewrite <- Rinv_1. apply Rinv_le_contravar; lra. }
  assert (Hna : n * a = 1) by (unfold a; apply Rinv_r; lra).
  assert (Hc : exp (a * u) <= 1 - x).
  { pose proof (exp_ineq1_le (u - a * u)) as E1. pose proof (exp_ineq1_le (0 - a * u)) as E2.
    assert (P : 0 < exp (a * u)) by apply exp_pos.
    assert (F1 : exp (a * u) * (1 + (u - a * u)) <= exp u).
    { replace (exp u) with (exp (a * u) * exp (u - a * u)); [nra|]. rewrite <- exp_plus. f_equal. lra. }
    assert (F2 : exp (a * u) * (1 + (0 - a * u)) <= 1).
    { replace 1 with (exp (a * u) * exp (0 - a * u)) at 2; [nra|]. rewrite <- exp_plus. rewrite <- exp_0. f_equal. lra. }
    assert (E : exp u = 1 - n * x) by (apply exp_ln; lra). rewrite E in F1.
    assert (G1 : a * (exp (a * u) * (1 + (u - a * u))) <= a * (1 - n * x)) by (apply Rmult_le_compat_l; lra).
    assert (G2 : (1 - a) * (exp (a * u) * (1 + (0 - a * u))) <= (1 - a) * 1) by (apply Rmult_le_compat_l; lra).
    assert (Q : a * (1 - n * x) = a - x) by (rewrite Rmult_minus_distr_l, Rmult_1_r, <- Rmult_assoc, (Rmult_comm a n), Hna; lra). rewrite Q in G1.
    replace (exp (a * u)) with (a * (exp (a * u) * (1 + (u - a * u))) + (1 - a) * (exp (a * u) * (1 + (0 - a * u)))) at 1 by ring. lra. }
  unfold Rpower. assert (L : a * u <= ln (1 - x)).
  { rewrite <- (ln_exp (a * u)). destruct Hc as [Hc| ->]; [left; apply ln_increasing; [apply exp_pos | exact Hc] | right; reflexivity]. }
  rewrite <- (exp_ln (1 - n * x)) by lra. apply exp_le. fold u. replace u with (n * (a * u)) by (rewrite <- Rmult_assoc, Hna; lra). apply Rmult_le_compat_l; lra.
Qed.


Lemma alphas_ok c row epgs : physical c (counts_of row epgs) -> alphas c row epgs = Ok (survive c (counts_of row epgs)).
Proof.
  unfold alphas. intros H.
  assert (X : forall acc, foldM (fun acc p => do v <- pypow (1 - c * snd p) (get0 row (fst p)); Ok (acc * v)) epgs acc = Ok (acc * survive c (counts_of row epgs))).
  { induction epgs as [|[g e] epgs IH]; intros acc; cbn [foldM counts_of map survive fst snd]; [f_equal; lra|].
    inversion H as [|? ? [H1 H2] H3]; subst. cbn [fst snd] in *. rewrite pypow_ok by assumption. cbn [bind]. rewrite (IH H3). f_equal. unfold counts_of. ring. }
  rewrite X. f_equal. lra.
Qed.
Lemma prod_le_1 x y : 0 <= x <= 1 -> 0 <= y <= 1 -> x * y <= 1.
Proof. intros. nra. Qed.
Lemma survive_range c l : Forall (fun p => 0 <= 1 - c * fst p <= 1 /\ 0 <= snd p) l -> 0 <= survive c l <= 1.
Proof.
  induction 1 as [|[e n] l [H1 H2] _ IH]; cbn [survive]; [lra|]. cbn [fst snd] in *. pose proof (rpow_nonneg (1 - c * e) n ltac:(lra)). pose proof (rpow_le_1 (1 - c * e) n H1 H2).
  split; [apply Rmult_le_pos; lra|]. apply prod_le_1; lra.
Qed.
Lemma survive_pos c l : Forall (fun p => 0 < 1 - c * fst p) l -> 0 < survive c l.
Proof. induction 1 as [|[e n] l H _ IH]; cbn [survive]; [lra|]. cbn in H. apply Rmult_lt_0_compat; [apply rpow_pos, H | exact IH]. Qed.
Lemma survive_zero c l : Forall (fun p => fst p = 0) l -> survive c l = 1.
Proof. induction 1 as [|[e n] l H _ IH]; cbn [survive]; [reflexivity|]. cbn in H. subst e. rewrite Rmult_0_r, Rminus_0_r, rpow_1, IH. lra. Qed.
Lemma alphas_zero c row epgs : Forall (fun p => snd p = 0) epgs -> alphas c row epgs = Ok 1.
Proof.
  unfold alphas. induction 1 as [|[g e] epgs H _ IH]; [reflexivity|]. cbn [foldM fst snd] in *. rewrite H, Rmult_0_r, Rminus_0_r, pypow_1. cbn [bind]. rewrite Rmult_1_r. exact IH.
Qed.

(** ** One qubit *)
Lemma epc_1q_ok gpc epgs qubit row : dget gpc qubit = Some row -> physical 1 (counts_of row epgs) ->
  calculate_1q_epc gpc epgs qubit = Ok (1 - survive 1 (counts_of row epgs)).
Proof. intros E H. unfold calculate_1q_epc. rewrite E, (alphas_ok _ _ _ H). reflexivity. Qed.

Lemma clifford_eq a b a2 : 1 / 5 * (a + b + 3 * a * b) * a2 = clifford_alpha a b a2.
Proof. unfold clifford_alpha. field. Qed.
Lemma clifford_range a b a2 : 0 <= a <= 1 -> 0 <= b <= 1 -> 0 <= a2 <= 1 -> 0 <= clifford_alpha a b a2 <= 1.
Proof.
  intros Ha Hb H2. unfold clifford_alpha. assert (0 <= a * b <= 1) by nra. set (x := (3 * a + 3 * b + 9 * (a * b)) / 15).
  assert (0 <= x <= 1) by (unfold x; lra). split; [apply Rmult_le_pos; lra|]. apply prod_le_1; lra.
Qed.


Lemma alpha_1q_ok gpc q0 q1 epgs : known gpc [q0; q1] epgs ->
  alpha_1q gpc [q0; q1] epgs = Ok (qubit_alpha gpc [q0; q1] epgs 0, qubit_alpha gpc [q0; q1] epgs 1).
Proof.
  intros K. unfold alpha_1q, qubit_alpha. destruct epgs as [|e0 [|e1 epgs]]; cbn [combine nth_error]; [reflexivity| |].
  - destruct (K 0%nat q0 e0 eq_refl eq_refl) as (r & E & P). unfold alpha_qubit. cbn [fst snd]. rewrite E, (alphas_ok _ _ _ P). reflexivity.
  - destruct (K 0%nat q0 e0 eq_refl eq_refl) as (r & E & P). destruct (K 1%nat q1 e1 eq_refl eq_refl) as (r' & E' & P').
    unfold alpha_qubit. cbn [fst snd]. rewrite E, E', (alphas_ok _ _ _ P). cbn [bind]. rewrite (alphas_ok _ _ _ P'). reflexivity.
Qed.

Lemma epc_2q_ok gpc epg q0 q1 epgs name row : dget gpc q0 = Some row -> 0 < get0 row name -> epg <= 3 / 4 -> known gpc [q0; q1] epgs ->
  calculate_2q_epc gpc epg [q0; q1] epgs name =
  Ok (error_of_alpha 4 (clifford_alpha (qubit_alpha gpc [q0; q1] epgs 0) (qubit_alpha gpc [q0; q1] epgs 1) (rpow (1 - 4 / 3 * epg) (get0 row name)))).
Proof.
  intros E Hn He K. unfold calculate_2q_epc. cbn [length Nat.eqb negb]. change (index_e [q0; q1] 0) with (Ok q0 : result nat). cbn [bind]. unfold dget_e. rewrite E. cbn [bind].
  destruct (Req_EM_T (get0 row name) 0); [lra|]. rewrite pypow_ok by lra. cbn [bind]. rewrite (alpha_1q_ok _ _ _ _ K). cbn [bind]. rewrite clifford_eq. unfold error_of_alpha. f_equal. lra.
Qed.

Lemma epg_2q_ok gpc epc q0 q1 epgs name row : dget gpc q0 = Some row -> 0 < get0 row name -> known gpc [q0; q1] epgs ->
  clifford_alpha (qubit_alpha gpc [q0; q1] epgs 0) (qubit_alpha gpc [q0; q1] epgs 1) 1 <> 0 ->
  calculate_2q_epg gpc epc [q0; q1] epgs name =
  Ok (3 / 4 * (1 - (1 - 4 / 3 * epc) / clifford_alpha (qubit_alpha gpc [q0; q1] epgs 0) (qubit_alpha gpc [q0; q1] epgs 1) 1) / get0 row name).
Proof.
  intros E Hn K Hc. unfold calculate_2q_epg. cbn [length Nat.eqb negb]. rewrite (alpha_1q_ok _ _ _ _ K). cbn [bind].
  rewrite <- (Rmult_1_r (1 / 5 * _)), clifford_eq. unfold pydiv at 1. destruct (Req_EM_T _ 0); [contradiction|]. cbn [bind].
  change (index_e [q0; q1] 0) with (Ok q0 : result nat). cbn [bind]. unfold dget_e. rewrite E. cbn [bind].
  destruct (Rlt_dec 0 (get0 row name)); [|contradiction]. unfold pydiv. destruct (Req_EM_T (get0 row name) 0); [lra|]. reflexivity.
Qed.

Lemma qubit_alpha_pos gpc pair epgs i : positive gpc pair epgs -> 0 < qubit_alpha gpc pair epgs i.
Proof.
  intros P. unfold qubit_alpha. destruct (nth_error pair i) as [q|] eqn:E1; [|lra]. destruct (nth_error epgs i) as [e|] eqn:E2; [|lra].
  destruct (dget gpc q) as [row|] eqn:E3; [|lra]. apply survive_pos. eapply P; eassumption.
Qed.
Lemma clifford_mult a b a2 : clifford_alpha a b a2 = clifford_alpha a b 1 * a2.
Proof. unfold clifford_alpha. field. Qed.
Lemma clifford_pos a b : 0 < a -> 0 < b -> 0 < clifford_alpha a b 1.
Proof. intros Ha Hb. unfold clifford_alpha. assert (0 < a * b) by nra. lra. Qed.

Lemma roundtrip_2q gpc epg q0 q1 epgs name row : dget gpc q0 = Some row -> 0 < get0 row name -> epg <= 3 / 4 -> known gpc [q0; q1] epgs -> positive gpc [q0; q1] epgs ->
  exists epc, calculate_2q_epc gpc epg [q0; q1] epgs name = Ok epc /\
    calculate_2q_epg gpc epc [q0; q1] epgs name = Ok (3 / 4 * (1 - rpow (1 - 4 / 3 * epg) (get0 row name)) / get0 row name).
Proof.
  intros E Hn He K P. eexists. split; [apply (epc_2q_ok _ _ _ _ _ _ row); assumption|].
  set (a := qubit_alpha gpc [q0; q1] epgs 0) in *. set (b := qubit_alpha gpc [q0; q1] epgs 1) in *.
  assert (Hc : 0 < clifford_alpha a b 1) by (apply clifford_pos; apply qubit_alpha_pos, P).
  rewrite (epg_2q_ok _ _ _ _ _ _ row E Hn K) by (fold a; fold b; lra). fold a. fold b. f_equal. rewrite (clifford_mult a b (rpow _ _)). unfold error_of_alpha. field. split; lra.
Qed.

Lemma shrink_le n e : 1 <= n -> 0 <= e <= 3 / 4 -> shrink n e <= e.
Proof.
  intros Hn He. unfold shrink. pose proof (bernoulli (4 / 3 * e) n ltac:(lra) ltac:(lra) Hn) as B.
  apply (Rmult_le_reg_r n); [lra|]. unfold Rdiv. rewrite Rmult_assoc, Rinv_l by lra. lra.
Qed.
Lemma shrink_1 e : e <= 3 / 4 -> shrink 1 e = e.
Proof. intros He. unfold shrink. rewrite rpow_exp1 by lra. field. Qed.

Lemma rpow_deriv (c n x : R) : 1 - c * x > 0 -> derivable_pt_lim (fun e => Rpower (1 - c * e) n) x (n * Rpower (1 - c * x) (n - 1) * (- c)).
Proof.
  intros H. apply (derivable_pt_lim_comp (fun e => 1 - c * e) (fun y => Rpower y n)).
  - replace (- c) with (0 - c * 1) by ring. apply derivable_pt_lim_minus; [apply derivable_pt_lim_const|].
    apply (derivable_pt_lim_scal (fun e => e) c x 1). apply derivable_pt_lim_id.
  - apply derivable_pt_lim_power. exact H.
Qed.
Lemma deriv_ext f g x l (eps : posreal) : (forall y, Rabs (y - x) < eps -> f y = g y) -> derivable_pt_lim g x l -> derivable_pt_lim f x l.
Proof.
  intros He Hg e He0. destruct (Hg e He0) as [[d Hd] Hd']. assert (Hm : 0 < Rmin d eps) by (apply Rmin_pos; [exact Hd | apply cond_pos]).
  exists (mkposreal _ Hm). intros h Hh0 Hh. cbn in Hh. rewrite (He (x + h)), (He x).
  - apply Hd'; [exact Hh0|]. cbn. eapply Rlt_le_trans; [exact Hh | apply Rmin_l].
  - rewrite Rminus_diag_eq by reflexivity. rewrite Rabs_R0. apply cond_pos.
  - replace (x + h - x) with h by ring. eapply Rlt_le_trans; [exact Hh | apply Rmin_r].
Qed.
Lemma deriv_eq f x l l' : derivable_pt_lim f x l -> l = l' -> derivable_pt_lim f x l'.
Proof. intros H <-. exact H. Qed.
Lemma Rpower_1_l n : Rpower 1 n = 1.
Proof. unfold Rpower. rewrite ln_1, Rmult_0_r. apply exp_0. Qed.
Lemma quarter_pos : 0 < / 4. Proof. lra. Qed.
Lemma shrink_deriv n : n <> 0 -> derivable_pt_lim (shrink n) 0 1.
Proof.
  intros Hn. apply (deriv_ext _ (fun e => 3 / 4 / n * (1 - Rpower (1 - 4 / 3 * e) n)) 0 1 (mkposreal _ quarter_pos)).
  - cbn. intros y Hy. rewrite Rminus_0_r in Hy. apply Rabs_def2 in Hy. unfold shrink, rpow. destruct (Req_EM_T (1 - 4 / 3 * y) 0); [lra|]. field. exact Hn.
  - apply (deriv_eq _ _ (3 / 4 / n * (0 - n * Rpower (1 - 4 / 3 * 0) (n - 1) * - (4 / 3)))).
    2: { rewrite Rmult_0_r, Rminus_0_r, Rpower_1_l. field. exact Hn. }
    apply (derivable_pt_lim_scal (fun e => 1 - Rpower (1 - 4 / 3 * e) n)). apply derivable_pt_lim_minus; [apply derivable_pt_lim_const|]. apply rpow_deriv. lra.
Qed.

Lemma epg_1q_ok (gpc : dict nat gates) epc qubit (row : gates) n2 n3 : dget gpc qubit = Some row -> dget row (str "u2") = Some n2 -> dget row (str "u3") = Some n3 ->
  get0 row (str "cx") <= 0 -> n2 + 2 * n3 <> 0 ->
  calculate_1q_epg gpc epc qubit = Ok [(str "u1", 0); (str "u2", epc / (n2 + 2 * n3)); (str "u3", 2 * epc / (n2 + 2 * n3))].
Proof.
  intros E E2 E3 Hc Hn. unfold calculate_1q_epg. rewrite E, E2, E3. destruct (Rlt_dec 0 (get0 row (str "cx"))); [lra|]. unfold pydiv.
  destruct (Req_EM_T (n2 + 2 * n3) 0); [contradiction|]. reflexivity.
Qed.
Lemma epg_1q_zero_div (gpc : dict nat gates) epc qubit (row : gates) n2 n3 : dget gpc qubit = Some row -> dget row (str "u2") = Some n2 -> dget row (str "u3") = Some n3 ->
  get0 row (str "cx") <= 0 -> n2 + 2 * n3 = 0 -> calculate_1q_epg gpc epc qubit = Err ZeroDivisionError.
Proof.
  intros E E2 E3 Hc Hn. unfold calculate_1q_epg. rewrite E, E2, E3. destruct (Rlt_dec 0 (get0 row (str "cx"))); [lra|]. unfold pydiv.
  destruct (Req_EM_T (n2 + 2 * n3) 0); [reflexivity | contradiction].
Qed.
Lemma roundtrip_1q (gpc : dict nat gates) epc qubit (row : gates) n2 n3 : dget gpc qubit = Some row -> dget row (str "u2") = Some n2 -> dget row (str "u3") = Some n3 ->
  get0 row (str "cx") <= 0 -> 0 <= n2 -> 0 <= n3 -> 0 < n2 + 2 * n3 -> 2 * epc <= n2 + 2 * n3 -> epc <= n2 + 2 * n3 -> 0 <= get0 row (str "u1") ->
  exists epgs, calculate_1q_epg gpc epc qubit = Ok epgs /\ calculate_1q_epc gpc epgs qubit = Ok (back_1q n2 n3 epc).
Proof.
  intros E E2 E3 Hc H2 H3 Hn He He' H1. eexists. split; [apply (epg_1q_ok _ _ _ row n2 n3); auto; lra|]. rewrite (epc_1q_ok _ _ _ row E).
  - cbn [counts_of map fst snd survive]. unfold get0 in *. rewrite E2, E3. cbn [survive]. rewrite Rmult_0_r, Rminus_0_r, rpow_1. unfold back_1q. rewrite !Rmult_1_l, Rmult_1_r. reflexivity.
  - assert (0 < / (n2 + 2 * n3)) by (apply Rinv_0_lt_compat; lra). assert (I : / (n2 + 2 * n3) * (n2 + 2 * n3) = 1) by (apply Rinv_l; lra).
    unfold physical, counts_of. cbn [map fst snd]. unfold get0 in *. rewrite E2, E3.
    apply Forall_cons; [|apply Forall_cons; [|apply Forall_cons; [|apply Forall_nil]]]; cbn [fst snd]; (split; [|assumption || lra]); unfold Rdiv; nra.
Qed.
Lemma back_1q_exact_u2 x : x <= 1 -> back_1q 1 0 x = x.
Proof. intros H. unfold back_1q. replace (1 - x / (1 + 2 * 0)) with (1 - x) by field. rewrite rpow_exp1 by lra. replace (rpow (1 - 2 * x / (1 + 2 * 0)) 0) with 1; [lra|].
  unfold rpow. destruct (Req_EM_T _ 0); [destruct (Req_EM_T 0 0); lra|]. unfold Rpower. rewrite Rmult_0_l, exp_0. reflexivity. Qed.
Lemma back_1q_exact_u3 x : x <= 1 -> back_1q 0 1 x = x.
Proof. intros H. unfold back_1q. replace (1 - 2 * x / (0 + 2 * 1)) with (1 - x) by field. rewrite rpow_exp1 by lra. replace (rpow (1 - x / (0 + 2 * 1)) 0) with 1; [lra|].
  unfold rpow. destruct (Req_EM_T _ 0); [destruct (Req_EM_T 0 0); lra|]. unfold Rpower. rewrite Rmult_0_l, exp_0. reflexivity. Qed.
Lemma back_1q_deriv n2 n3 : 0 < n2 + 2 * n3 -> derivable_pt_lim (back_1q n2 n3) 0 1.
Proof.
  intros Hn. set (s := n2 + 2 * n3) in *. assert (Hi : 0 < / s) by (apply Rinv_0_lt_compat, Hn).
  assert (Hp : 0 < s * / 4) by (apply Rmult_lt_0_compat; lra).
  apply (deriv_ext _ (fun x => 1 - Rpower (1 - / s * x) n2 * Rpower (1 - (2 * / s) * x) n3) 0 1 (mkposreal _ Hp)).
  - cbn. intros y Hy. rewrite Rminus_0_r in Hy. apply Rabs_def2 in Hy. assert (I : / s * s = 1) by (apply Rinv_l; lra).
    assert (Hy' : - / 4 < / s * y < / 4) by nra. unfold back_1q, rpow. fold s. unfold Rdiv. replace (2 * y * / s) with (2 * / s * y) by ring. rewrite (Rmult_comm y).
    destruct (Req_EM_T (1 - / s * y) 0); [lra|]. destruct (Req_EM_T (1 - 2 * / s * y) 0); [lra|]. reflexivity.
  - apply (deriv_eq _ _ (0 - (n2 * Rpower (1 - / s * 0) (n2 - 1) * (- / s) * Rpower (1 - 2 * / s * 0) n3 + Rpower (1 - / s * 0) n2 * (n3 * Rpower (1 - 2 * / s * 0) (n3 - 1) * (- (2 * / s)))))).
    2: { rewrite !Rmult_0_r, !Rminus_0_r, !Rpower_1_l. unfold s. field. fold s. lra. }
    apply derivable_pt_lim_minus; [apply derivable_pt_lim_const|].
    apply (derivable_pt_lim_mult (fun x => Rpower (1 - / s * x) n2) (fun x => Rpower (1 - 2 * / s * x) n3)); apply rpow_deriv; lra.
Qed.

(** ** Ranges *)
Lemma counts_range c row epgs m : counts_ok row -> errors_within m epgs -> 0 <= c -> c * m <= 1 ->
  Forall (fun p => 0 <= 1 - c * fst p <= 1 /\ 0 <= snd p) (counts_of row epgs).
Proof.
  intros Hc He H0 Hm. unfold counts_of. apply Forall_forall. intros [e n] Hi. apply in_map_iff in Hi as ([g x] & E & Hi). injection E as <- <-. cbn [fst snd].
  unfold errors_within in He. rewrite Forall_forall in He. specialize (He _ Hi). cbn in He. split; [nra | apply Hc].
Qed.
Lemma range_physical c l : Forall (fun p => 0 <= 1 - c * fst p <= 1 /\ 0 <= snd p) l -> physical c l.
Proof. apply Forall_impl. intros p H. split; apply H. Qed.

Lemma epc_1q_range gpc epgs qubit row : dget gpc qubit = Some row -> counts_ok row -> errors_within 1 epgs ->
  exists v, calculate_1q_epc gpc epgs qubit = Ok v /\ 0 <= v <= 1.
Proof.
  intros E Hc He. pose proof (counts_range 1 row epgs 1 Hc He ltac:(lra) ltac:(lra)) as R. eexists. split; [apply (epc_1q_ok _ _ _ row E), range_physical, R|].
  pose proof (survive_range _ _ R). lra.
Qed.
Lemma qubit_alpha_range gpc pair epgs i : (forall q row, dget gpc q = Some row -> counts_ok row) -> Forall (errors_within (/ 2)) epgs -> 0 <= qubit_alpha gpc pair epgs i <= 1.
Proof.
  intros Hc He. unfold qubit_alpha. destruct (nth_error pair i) as [q|]; [|lra]. destruct (nth_error epgs i) as [e|] eqn:Ee; [|lra]. destruct (dget gpc q) as [row|] eqn:Er; [|lra].
  apply survive_range, (counts_range _ _ _ (/ 2)); [eapply Hc, Er | rewrite Forall_forall in He; apply He, (nth_error_In _ _ Ee) | lra | lra].
Qed.
Lemma epc_2q_range gpc epg q0 q1 epgs name row : dget gpc q0 = Some row -> dget gpc q1 <> None -> 0 < get0 row name -> 0 <= epg <= 3 / 4 ->
  (forall q row, dget gpc q = Some row -> counts_ok row) -> Forall (errors_within (/ 2)) epgs ->
  exists v, calculate_2q_epc gpc epg [q0; q1] epgs name = Ok v /\ 0 <= v <= 3 / 4.
Proof.
  intros E E1 Hn He Hc Hes. assert (K : known gpc [q0; q1] epgs).
  { intros i q e Eq Ee. assert (X : forall r, dget gpc q = Some r -> exists row0, dget gpc q = Some row0 /\ physical 2 (counts_of row0 e)).
    { intros r Er. exists r. split; [exact Er|]. apply range_physical, (counts_range _ _ _ (/ 2)); [eapply Hc, Er | rewrite Forall_forall in Hes; apply Hes, (nth_error_In _ _ Ee) | lra | lra]. }
    destruct i as [|[|i]]; cbn [nth_error] in Eq; [| |destruct i; discriminate]; injection Eq as <-; [apply (X row), E|]. destruct (dget gpc q1) as [r|]; [apply (X r); reflexivity | contradiction]. }
  eexists. split; [apply (epc_2q_ok _ _ _ _ _ _ row E Hn); [lra | exact K]|].
  match goal with |- context [clifford_alpha ?a ?b ?c] => pose proof (clifford_range a b c) as R end.
  destruct R; try (apply qubit_alpha_range; assumption); [split; [apply rpow_nonneg; lra | apply rpow_le_1; lra]|]. unfold error_of_alpha. lra.
Qed.
Lemma epc_1q_zero gpc epgs qubit : dget gpc qubit <> None -> Forall (fun p => snd p = 0) epgs -> calculate_1q_epc gpc epgs qubit = Ok 0.
Proof.
  intros E H. unfold calculate_1q_epc. destruct (dget gpc qubit) as [row|]; [|contradiction]. rewrite (alphas_zero _ _ _ H). cbn [bind]. f_equal. lra.
Qed.
Lemma epc_2q_zero gpc q0 q1 epgs name row : dget gpc q0 = Some row -> dget gpc q1 <> None -> get0 row name <> 0 -> Forall (Forall (fun p => snd p = 0)) epgs ->
  calculate_2q_epc gpc 0 [q0; q1] epgs name = Ok 0.
Proof.
  intros E E1 Hn H. unfold calculate_2q_epc. cbn [length Nat.eqb negb]. change (index_e [q0; q1] 0) with (Ok q0 : result nat). cbn [bind]. unfold dget_e. rewrite E. cbn [bind].
  destruct (Req_EM_T (get0 row name) 0); [contradiction|]. rewrite Rmult_0_r, Rminus_0_r, pypow_1. cbn [bind].
  assert (A : alpha_1q gpc [q0; q1] epgs = Ok (1, 1)).
  { unfold alpha_1q. destruct epgs as [|e0 [|e1 epgs]]; cbn [combine]; [reflexivity| |]; unfold alpha_qubit; cbn [fst snd]; rewrite E.
    - inversion H; subst. rewrite alphas_zero by assumption. reflexivity.
    - inversion H as [|? ? H0 H']; subst. inversion H'; subst. rewrite alphas_zero by assumption. destruct (dget gpc q1); [|contradiction]. cbn [bind]. rewrite alphas_zero by assumption. reflexivity. }
  rewrite A. cbn [bind]. f_equal. lra.
Qed.
