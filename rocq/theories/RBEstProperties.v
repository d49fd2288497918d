(** C71: what the fits of randomized benchmarking report. *)
From Coq Require Import QArith Qreals Reals Lra.
From Coquelicot Require Import Coquelicot.
From Verif Require Import LinAlg Base PyStr ResultFacts CountsModel MeasCalModel RBSeqModel RBFitModel CtmpSpec EntSpec GstOptSpec IQSpec RBEstModel RBEstSpec RBNoiseProofs RBEstProofs RBEst2Proofs.
Local Open Scope list_scope.
Local Open Scope nat_scope.

(** Exact data: every pattern is fitted, and the parameters are those of the data. *)
Theorem C71_fit cf f ms a alpha : exact_fits cf f ms a alpha ->
  exists l, fit_data cf f = Ok l /\ length l = length (f_pattern f) /\
  forall i, i < length (f_pattern f) -> exists t, nth_error l i = Some t /\ let d := size (pattern f i) in
    t_params t = [a i; alpha i; (/ d)%R] /\ length (t_errs t) = 3 /\ t_epc t = ((d - 1) / d * (1 - alpha i))%R.
Proof.
  intros H. destruct (fit_data_exact cf f ms a alpha H) as (l & E & L & Hl). exists l. split; [exact E|]. split; [exact L|]. intros i Hi. destruct (Hl i Hi) as (t & Et & A & B & D & _). exists t. repeat split; assumption.
Qed.
Print Assumptions C71_fit.

(** Sequences of [m] gates and an inverting gate with depolarising noise: the reported
    error per Clifford is the infidelity of the noise. *)
Theorem C71_benchmark cf f ms p : (forall i, i < length (f_pattern f) -> let d := 2 ^ length (pattern f i) in
    pattern f i <> [] /\ benchmarked f i (ms i) d (prob0 d) (fun m => standard m (p i)) /\ enough (ms i) /\ (0 < p i < 1)%R /\ fits cf f i) ->
  exists l, fit_data cf f = Ok l /\ length l = length (f_pattern f) /\
  forall i psi, i < length (f_pattern f) -> let d := 2 ^ length (pattern f i) in normalised d psi -> exists t, nth_error l i = Some t /\
    nth 1 (t_params t) 0%R = p i /\ RtoC (t_epc t) = infidelity d (depolarise d (p i)) psi.
Proof.
  intros H. destruct (C71_fit cf f ms (fun i => (1 - / size (pattern f i)) * p i)%R p) as (l & E & L & Hl).
  - intros i Hi. destruct (H i Hi) as (Hq & B & En & Hp & Hf). split; [apply standard_decay; exact B|]. split; [exact En|]. split; [apply amplitude; [exact Hq|lra]|]. split; assumption.
  - exists l. split; [exact E|]. split; [exact L|]. intros i psi Hi d Hpsi. destruct (Hl i Hi) as (t & Et & A & _ & D). exists t. split; [exact Et|]. split; [rewrite A; reflexivity|]. rewrite D. symmetry. apply depolarise_infidelity; [apply pow2_gt|exact Hpsi].
Qed.
Print Assumptions C71_benchmark.

(** Interleaved: the estimate is the infidelity of the interleaved gate's noise, it lies
    between the reported bounds, and its error is propagated from those of the fits. *)
Theorem C71_interleaved cf f f' ms ms' p pg : f_pattern f' = f_pattern f ->
  (forall i, i < length (f_pattern f) -> let d := 2 ^ length (pattern f i) in
    pattern f i <> [] /\ benchmarked f i (ms i) d (prob0 d) (fun m => standard m (p i)) /\ benchmarked f' i (ms' i) d (prob0 d) (fun m => interleaving m (p i) (pg i)) /\
    enough (ms i) /\ enough (ms' i) /\ (0 < p i < 1)%R /\ (0 < pg i <= 1)%R /\ fits cf f i /\ fits cf f' i) ->
  exists l l' r, interleaved_fit cf (f, f') = Ok (l, l', r) /\ length r = length (f_pattern f) /\
  forall i psi, i < length (f_pattern f) -> let d := 2 ^ length (pattern f i) in normalised d psi -> exists v, nth_error r i = Some v /\
    i_alpha v = p i /\ i_alpha_c v = (p i * pg i)%R /\ RtoC (i_epc_est v) = infidelity d (depolarise d (pg i)) psi /\ (i_sys_l v <= i_epc_est v <= i_sys_r v)%R /\
    propagated (fun u w => (INR d - 1) / INR d * (1 - w / u))%R (i_alpha v) (i_alpha_c v) (i_alpha_err v) (i_alpha_c_err v) (i_epc_est_err v).
Proof.
  intros Hp H. destruct (interleaved_exact cf f f' ms ms' (fun i => (1 - / size (pattern f i)) * p i)%R p (fun i => (1 - / size (pattern f i)) * p i)%R (fun i => p i * pg i)%R) as (l & l' & r & E & L & Hr).
  - intros i Hi. destruct (H i Hi) as (Hq & B & B' & En & En' & Hpi & Hg & Hf & Hf'). split; [apply standard_decay; exact B|]. split; [exact En|]. split; [apply amplitude; [exact Hq|lra]|]. split; assumption.
  - intros i Hi. rewrite Hp in Hi. assert (EP : pattern f' i = pattern f i) by (unfold pattern; rewrite Hp; reflexivity). rewrite EP. destruct (H i Hi) as (Hq & B & B' & En & En' & Hpi & Hg & Hf & Hf').
    split; [apply interleaving_decay; exact B'|]. split; [exact En'|]. split; [apply amplitude; [exact Hq|lra]|]. split; [|exact Hf']. split; [apply Rmult_lt_0_compat; lra|]. nra.
  - exact Hp.
  - exists l, l', r. split; [exact E|]. split; [exact L|]. intros i psi Hi d Hpsi. destruct (Hr i Hi) as (t & t' & _ & _ & _ & _ & Ev). destruct (H i Hi) as (Hq & _ & _ & _ & _ & Hpi & Hg & _).
    eexists. split; [exact Ev|]. pose proof (size_at_least _ Hq) as S. split; [reflexivity|]. split; [reflexivity|]. split; [|split].
    + rewrite (depolarise_infidelity d (pow2_gt _) (pg i) psi Hpsi). f_equal. cbn [interleaved i_epc_est]. change (INR d) with (size (pattern f i)). field. lra.
    + exact (interleaved_bounds (size (pattern f i)) (p i) (p i * pg i) S Hpi).
    + apply (interleaved_propagated (size (pattern f i)) (p i) (nth 1 (t_errs t) 0%R) (p i * pg i) (nth 1 (t_errs t') 0%R)); [exact S|lra|apply Rmult_lt_0_compat; lra].
Qed.
Print Assumptions C71_interleaved.

(** Purity: the purity error per Clifford is the infidelity of the noise, when all
    patterns have the size of the first. *)
Theorem C71_purity cf f ms p : f_pattern f <> [] ->
  (forall i, i < length (f_pattern f) -> let d := 2 ^ length (pattern f i) in
    pattern f i <> [] /\ length (pattern f i) = length (pattern f 0) /\ benchmarked f i (ms i) d (final_purity d) (fun m => standard m (p i)) /\ enough (ms i) /\ (0 < p i < 1)%R /\ fits cf f i) ->
  exists l, purity_fit cf f = Ok l /\ length l = length (f_pattern f) /\
  forall i psi, i < length (f_pattern f) -> let d := 2 ^ length (pattern f i) in normalised d psi -> exists u, nth_error l i = Some u /\
    nth 1 (t_params (u_fit u)) 0%R = p i /\ RtoC (u_pepc u) = infidelity d (depolarise d (p i)) psi.
Proof.
  intros Hne H. destruct (purity_exact cf f ms (fun i => (1 - / size (pattern f i)) * p i ^ 2)%R p) as (l & E & L & Hl).
  - intros i Hi. destruct (H i Hi) as (Hq & _ & B & En & Hp & Hf). split; [apply purity_decay; exact B|]. split; [exact En|]. assert (P2 : (0 < p i ^ 2 < 1)%R) by (cbn; nra). split; [apply amplitude; [exact Hq|lra]|]. split; [exact P2|exact Hf].
  - exact Hne.
  - intros i Hi. apply (H i Hi).
  - exists l. split; [exact E|]. split; [exact L|]. intros i psi Hi d Hpsi. destruct (Hl i Hi) as (u & Eu & e & A & B & _). exists u. split; [exact Eu|]. split; [rewrite A; reflexivity|]. rewrite B.
    destruct (H i Hi) as (_ & Hs & _). unfold size. rewrite <- Hs. symmetry. apply depolarise_infidelity; [apply pow2_gt|exact Hpsi].
Qed.
Print Assumptions C71_purity.
(** The entry 'epc' beside it is not: it is always larger. *)
Theorem C71_purity_epc_refuted cf f ms p : f_pattern f <> [] ->
  (forall i, i < length (f_pattern f) -> let d := 2 ^ length (pattern f i) in
    pattern f i <> [] /\ benchmarked f i (ms i) d (final_purity d) (fun m => standard m (p i)) /\ enough (ms i) /\ (0 < p i < 1)%R /\ fits cf f i) ->
  exists l, purity_fit cf f = Ok l /\
  forall i psi, i < length (f_pattern f) -> let d := 2 ^ length (pattern f i) in normalised d psi -> exists u, nth_error l i = Some u /\
    (Re (infidelity d (depolarise d (p i)) psi) < t_epc (u_fit u))%R.
Proof.
  intros Hne H. destruct (purity_exact cf f ms (fun i => (1 - / size (pattern f i)) * p i ^ 2)%R p) as (l & E & L & Hl).
  - intros i Hi. destruct (H i Hi) as (Hq & B & En & Hp & Hf). split; [apply purity_decay; exact B|]. split; [exact En|]. assert (P2 : (0 < p i ^ 2 < 1)%R) by (cbn; nra). split; [apply amplitude; [exact Hq|lra]|]. split; [exact P2|exact Hf].
  - exact Hne.
  - intros i Hi. apply (H i Hi).
  - exists l. split; [exact E|]. intros i psi Hi d Hpsi. destruct (Hl i Hi) as (u & Eu & e & _ & _ & A & _). exists u. split; [exact Eu|]. rewrite A. destruct (H i Hi) as (Hq & _ & _ & Hp & _). pose proof (size_at_least _ Hq) as S.
    rewrite (depolarise_infidelity d (pow2_gt _) (p i) psi Hpsi). cbn [Re RtoC fst]. change (INR d) with (size (pattern f i)). apply Rmult_lt_compat_l; [apply Rdiv_lt_0_compat; lra|]. cbn. nra.
Qed.
Print Assumptions C71_purity_epc_refuted.

(** CNOT-dihedral: the estimate is the average infidelity of the Pauli channel with the
    two fitted decays. *)
Theorem C71_dihedral cf f f' ms ms' a z a' r : exact_fits cf f ms a z -> exact_fits cf f' ms' a' r -> f_pattern f' = f_pattern f ->
  exists l l' v, dihedral_fit cf (f, f') = Ok (l, l', v) /\ length v = length (f_pattern f) /\
  forall i, i < length (f_pattern f) -> exists w, nth_error v i = Some w /\ let n := length (pattern f i) in
    d_alpha w = ((z i + 2 ^ n * r i) / (2 ^ n + 1))%R /\ d_epg w = pauli_infidelity n (shrink (z i) (r i)).
Proof.
  intros H H' Hp. destruct (dihedral_exact cf f f' ms ms' a z a' r H H' Hp) as (l & l' & v & E & L & Hv). exists l, l', v. split; [exact E|]. split; [exact L|]. intros i Hi. destruct (Hv i Hi) as (t & t' & _ & _ & _ & _ & Ew).
  eexists. split; [exact Ew|]. split; [|apply dihedral_infidelity]. cbn [dihedral d_alpha]. unfold size. rewrite pow_INR. reflexivity.
Qed.
Print Assumptions C71_dihedral.

(** Reported errors that are not the propagated ones, whenever the fit has any error. *)
Theorem C71_epc_err_refuted cf f ms a alpha : exact_fits cf f ms a alpha -> (forall i, i < length (f_pattern f) -> pattern f i <> []) ->
  exists l, fit_data cf f = Ok l /\ forall i, i < length (f_pattern f) -> exists t, nth_error l i = Some t /\ let d := size (pattern f i) in
    t_epc t = (fun x => (d - 1) / d * (1 - x))%R (alpha i) /\
    (nth 1 (t_errs t) 0%R <> 0%R -> ~ propagated1 (fun x => (d - 1) / d * (1 - x))%R (alpha i) (nth 1 (t_errs t) 0%R) (t_epc_err t)).
Proof.
  intros H Hq. destruct (fit_data_exact cf f ms a alpha H) as (l & E & L & Hl). exists l. split; [exact E|]. intros i Hi. destruct (Hl i Hi) as (t & Et & _ & _ & D & G). exists t. split; [exact Et|]. split; [exact D|]. intros He. rewrite G.
  pose proof (size_at_least _ (Hq i Hi)) as S. destruct (H i Hi) as (_ & _ & _ & Hx & _). apply divided_error; [apply Rdiv_lt_0_compat; lra|exact Hx|exact He].
Qed.
Print Assumptions C71_epc_err_refuted.
Theorem C71_purity_err_refuted cf f ms a p : exact_fits cf f ms a (fun i => p i ^ 2)%R -> f_pattern f <> [] -> (forall i, i < length (f_pattern f) -> (0 < p i)%R) -> (forall i, i < length (f_pattern f) -> pattern f i <> []) ->
  exists l l', fit_data cf f = Ok l /\ purity_fit cf f = Ok l' /\
  forall i, i < length (f_pattern f) -> exists t u, nth_error l i = Some t /\ nth_error l' i = Some u /\ let d := size (pattern f 0) in
    nth 1 (t_params (u_fit u)) 0%R = sqrt (nth 1 (t_params t) 0%R) /\ u_pepc u = ((d - 1) / d * (1 - p i))%R /\
    (nth 1 (t_errs t) 0%R <> 0%R -> ~ propagated1 sqrt (nth 1 (t_params t) 0%R) (nth 1 (t_errs t) 0%R) (nth 1 (t_errs (u_fit u)) 0%R) /\
      ~ propagated1 (fun x => (d - 1) / d * (1 - x))%R (p i) (nth 1 (t_errs (u_fit u)) 0%R) (u_pepc_err u)).
Proof.
  intros H Hne Hp Hq. destruct (fit_data_exact cf f ms a _ H) as (l & E & L & Hl). destruct (purity_exact cf f ms a p H Hne Hp) as (l' & E' & L' & Hl'). exists l, l'. split; [exact E|]. split; [exact E'|].
  intros i Hi. destruct (Hl i Hi) as (t & Et & A & B & D & G). destruct (Hl' i Hi) as (u & Eu & e & A' & B' & D' & G' & J & K). exists t, u. split; [exact Et|]. split; [exact Eu|].
  pose proof (Hp i Hi) as Pi. destruct (H i Hi) as (_ & _ & _ & Hx & _). assert (Px : (0 < p i < 1)%R) by (cbn in Hx; nra).
  rewrite A, A'. cbn [nth]. rewrite sqrt_pow2 by lra. split; [reflexivity|]. split; [exact B'|]. intros He.
  (* the error the purity fit starts from is the one of the fit *)
  assert (Ee : e = nth 1 (t_errs t) 0%R).
  { assert (KK : t_epc_err (u_fit u) = t_epc_err t).
    { unfold purity_fit in E'. rewrite E in E'. cbn [bind] in E'. apply bind_inv in E'. destruct E' as (q0 & Eq0 & E'). apply mapM_inv in E'. pose proof (Forall2_nth _ _ _ i i u E') as F2.
      rewrite Nat.min_r in F2 by exact (exact_lengths _ _ _ _ _ H). specialize (F2 ltac:(rewrite (nth_error_nth' _ 0) by (rewrite seq_length; exact Hi); rewrite seq_nth by exact Hi; reflexivity) Eu). cbn beta in F2.
      rewrite (index_ok _ _ _ Et) in F2. cbn [bind] in F2. rewrite A, second_three, (second_errs _ B) in F2. cbn [bind] in F2. injection F2 as <-. reflexivity. }
    rewrite K, G in KK. pose proof (size_at_least _ (Hq i Hi)) as S. assert (PP : (0 < p i ^ 2)%R) by lra.
    apply Rmult_eq_reg_l with ((size (pattern f i) - 1) / size (pattern f i) / p i ^ 2)%R; [|apply Rgt_not_eq; repeat apply Rdiv_lt_0_compat; lra].
    replace ((size (pattern f i) - 1) / size (pattern f i) / p i ^ 2 * e)%R with ((size (pattern f i) - 1) / size (pattern f i) * e / p i ^ 2)%R by (unfold Rdiv; ring). rewrite KK. unfold Rdiv. ring. }
  subst e. rewrite J, G'. split; [apply root_error; assumption|].
  assert (S0 : (2 <= size (pattern f 0))%R) by (apply size_at_least, Hq; lia). apply divided_error; [apply Rdiv_lt_0_compat; lra|exact Px|].
  apply Rmult_integral_contrapositive. split; [exact He|]. apply Rinv_neq_0_compat. pose proof (sqrt_lt_R0 (p i) ltac:(lra)). lra.
Qed.
Print Assumptions C71_purity_err_refuted.
Theorem C71_dihedral_err_refuted cf f f' ms ms' a z a' r : exact_fits cf f ms a z -> exact_fits cf f' ms' a' r -> f_pattern f' = f_pattern f ->
  exists l l' v, dihedral_fit cf (f, f') = Ok (l, l', v) /\
  forall i, i < length (f_pattern f) -> exists t t' w, nth_error l i = Some t /\ nth_error l' i = Some t' /\ nth_error v i = Some w /\ let d := size (pattern f i) in
    d_alpha w = ((z i + d * r i) / (d + 1))%R /\
    (nth 1 (t_errs t) 0%R <> 0%R \/ nth 1 (t_errs t') 0%R <> 0%R -> ~ propagated (fun x y => (x + d * y) / (d + 1))%R (z i) (r i) (nth 1 (t_errs t) 0%R) (nth 1 (t_errs t') 0%R) (d_alpha_err w)).
Proof.
  intros H H' Hp. destruct (dihedral_exact cf f f' ms ms' a z a' r H H' Hp) as (l & l' & v & E & L & Hv). exists l, l', v. split; [exact E|]. intros i Hi. destruct (Hv i Hi) as (t & t' & Et & Et' & _ & _ & Ew).
  exists t, t'. eexists. split; [exact Et|]. split; [exact Et'|]. split; [exact Ew|]. split; [reflexivity|]. intros He. destruct (H i Hi) as (_ & _ & _ & Hz & _). destruct (H' i) as (_ & _ & _ & Hr & _); [rewrite Hp; exact Hi|].
  apply dihedral_error; try assumption. unfold size. apply lt_0_INR, pow2_gt.
Qed.
Print Assumptions C71_dihedral_err_refuted.

(** Data that fall towards [1/2^n]: the fit fails with a ValueError exactly when the
    exponential through the first two points exceeds 1 + 1/2^n at length 0. *)
Theorem C71_guess cf f q m0 m1 ms y0 y1 ys rows x :
  f_pattern f = [q] -> f_lengths f = [map (fun m => inject_Z (Z.of_nat m)) (m0 :: m1 :: ms)] -> f_raw f = [rows] -> length (hd [] rows) = S (S (length ms)) -> f_mean f = [y0 :: y1 :: ys] -> fits cf f 0 ->
  m0 < m1 -> (/ size q < Q2R y1 < Q2R y0)%R -> (0 < x)%R -> ((Q2R y0 - / size q) * x ^ (m1 - m0) = Q2R y1 - / size q)%R ->
  (fit_data cf f = Err ValueError <-> (x ^ m0 < Q2R y0 - / size q)%R) /\ ((Q2R y0 - / size q <= x ^ m0)%R -> exists t, fit_data cf f = Ok [t]).
Proof. exact (rejected cf f q m0 m1 ms y0 y1 ys rows x). Qed.
Print Assumptions C71_guess.

(** ** Cases *)
(** One qubit, lengths 1, 2, 3. *)
Definition data3 (y0 y1 y2 : Q) : rbfitter :=
  {| f_lengths := [[1; 2; 3]%Q]; f_pattern := [[0]]; f_results := []; f_seeds := [0%Z]; f_raw := [[[y0; y1; y2]]]; f_mean := [[y0; y1; y2]] |}.
(** A fit that knows the answer. *)
Definition known (ps : list R) : fitter := fun _ _ _ _ _ _ => Ok (ps, [1; 1; 1])%R.
Lemma known_fits f i ms a x b : decay f i ms a x b -> (0 <= a <= 1)%R -> (0 <= x <= 1)%R -> (0 <= b <= 1)%R -> fits (known [a; x; b]) f i.
Proof.
  intros (rows & ys' & _ & _ & Hy' & Hl' & E) Ha Hx Hb g sigma p0 lens ys Hg Hl Hy Hs Hp0. rewrite Hl' in Hl. injection Hl as <-. rewrite Hy' in Hy. injection Hy as <-.
  exists [a; x; b], [1; 1; 1]%R. split; [reflexivity|]. split; [reflexivity|]. split; [apply cube_intro; assumption|]. intros ps' _. rewrite (misfit_exact _ _ _ _ [a; x; b]).
  - apply IQFitProofs.misfit_nonneg.
  - rewrite E, !map_map. apply map_ext. intros m. rewrite Q2R_nat. apply Hg. lra.
Qed.
(** Data that are exactly [(1/2)^m + 3/10], a curve within the bounds, are rejected. *)
Theorem C71_guess_refuted : exists f, decay f 0 [1; 2; 3] 1 (1 / 2) (3 / 10) /\ enough [1; 2; 3] /\ pattern f 0 = [0] /\ (exists cf, fits cf f 0) /\ forall cf, fit_data cf f = Err ValueError.
Proof.
  exists (data3 (4 # 5) (11 # 20) (17 # 40)). assert (D : decay (data3 (4 # 5) (11 # 20) (17 # 40)) 0 [1; 2; 3] 1 (1 / 2) (3 / 10)).
  { exists [[4 # 5; 11 # 20; 17 # 40]]%Q, [4 # 5; 11 # 20; 17 # 40]%Q. repeat split. cbn [map]. unfold Q2R. cbn. f_equal; [lra|f_equal; [lra|f_equal; lra]]. }
  split; [exact D|]. split; [split; [cbn; lia|exists 1, 2, 3; cbn; lia]|]. split; [reflexivity|]. split; [exists (known [1; 1 / 2; 3 / 10]%R); apply (known_fits _ _ _ _ _ _ D); lra|].
  intros cf. assert (G : guess_of 1 (map (fun m => inject_Z (Z.of_nat m)) [1; 2; 3]) [4 # 5; 11 # 20; 17 # 40]%Q = Ok [Fin (9 / 5); Fin (1 / 6); Fin (/ 2 ^ 1)]).
  { apply guess_exact; [lia|lra|lra|unfold Q2R; cbn; lra|unfold Q2R; cbn; lra]. }
  unfold fit_data, data3. cbn [f_pattern length seq mapM index_e nth_error bind f_mean f_lengths].
  change [1; 2; 3]%Q with (map (fun m => inject_Z (Z.of_nat m)) [1; 2; 3]). rewrite G. cbn [bind]. unfold fit_pattern. cbn [f_pattern f_mean f_lengths f_raw index_e nth_error bind].
  unfold feasible. cbn [mapM bind]. destruct (Rle_dec 0 (9 / 5)); [|lra]. destruct (Rle_dec (9 / 5) 1); [lra|]. reflexivity.
Qed.
Print Assumptions C71_guess_refuted.

(** Idle gates with depolarising noise 1/2. *)
Definition idle (noise : list R) : list (op * R) := map (fun p => (identity, p)) noise.
Lemma idle_closes d noise : closes d (idle noise).
Proof.
  assert (U : unitary d identity).
  { assert (ED : same d (dagger identity) identity) by (intros k l _ _; unfold dagger, identity; rewrite Nat.eqb_sym; destruct (k =? l); apply injective_projections; cbn; lra).
    split; [eapply same_trans; [apply product_id_r|exact ED]|eapply same_trans; [apply product_id_l|exact ED]]. }
  split; [intros up Hu; apply in_map_iff in Hu; destruct Hu as (p & <- & _); exact U|]. exists f1. split; [toC; apply injective_projections; cbn; lra|].
  assert (G : forall V, same d V identity -> same d (fold_left (fun V up => product d (fst up) V) (idle noise) V) identity).
  { induction noise as [|p noise IH]; intros V HV; [exact HV|]. cbn [idle map fold_left fst]. apply IH. eapply same_trans; [apply product_id_l|exact HV]. }
  intros i j Hi Hj. unfold ideal. rewrite (G identity (same_refl d identity) i j Hi Hj). toC. ring.
Qed.
Example C71_case_benchmark : benchmarked (data3 (5 # 8) (9 # 16) (17 # 32)) 0 [1; 2; 3] 2 (prob0 2) (fun m => standard m (1 / 2)) /\ enough [1; 2; 3] /\
  fits (known [1 / 4; 1 / 2; 1 / 2]%R) (data3 (5 # 8) (9 # 16) (17 # 32)) 0.
Proof.
  assert (B : benchmarked (data3 (5 # 8) (9 # 16) (17 # 32)) 0 [1; 2; 3] 2 (prob0 2) (fun m => standard m (1 / 2))).
  { exists [[5 # 8; 9 # 16; 17 # 32]]%Q, [5 # 8; 9 # 16; 17 # 32]%Q. repeat split. intros k Hk. exists [idle (standard (nth k [1; 2; 3] 0) (1 / 2))]. split; [discriminate|]. split.
    - intros ops [<-|[]]. split; [apply idle_closes|]. unfold strengths, idle. rewrite map_map. apply map_id.
    - cbn [map length INR]. rewrite fsum_cons, fsum_nil. rewrite (prob0_standard 2 (1 / 2) (nth k [1; 2; 3] 0) _ ltac:(lia) (idle_closes 2 _)) by (unfold strengths, idle; rewrite map_map; apply map_id).
      toC. rewrite Cplus_0_r. f_equal. cbn in Hk. destruct k as [|[|[|]]]; [| | |lia]; cbn [nth]; unfold Q2R; cbn; lra. }
  split; [exact B|]. split.
  - split; [cbn; lia|]. exists 1, 2, 3. cbn. lia.
  - pose proof (standard_decay _ 0 [1; 2; 3] [0] (1 / 2) B) as D. assert (S : size [0] = 2%R) by (unfold size; cbn; lra). rewrite S in D.
    replace ((1 - / 2) * (1 / 2))%R with (1 / 4)%R in D by lra. replace (/ 2)%R with (1 / 2)%R in D by lra. apply (known_fits _ _ _ _ _ _ D); lra.
Qed.
Example C71_case_fits : exact_fits (known [1 / 4; 1 / 2; / 2]%R) (data3 (5 # 8) (9 # 16) (17 # 32)) (fun _ => [1; 2; 3]) (fun _ => 1 / 4)%R (fun _ => 1 / 2)%R.
Proof.
  intros i Hi. cbn in Hi. assert (i = 0) by lia. subst i. change (pattern (data3 (5 # 8) (9 # 16) (17 # 32)) 0) with [0]. destruct C71_case_benchmark as (B & E & _). pose proof (standard_decay _ 0 [1; 2; 3] [0] (1 / 2) B) as D.
  assert (S : size [0] = 2%R) by (unfold size; cbn; lra). rewrite S in *. replace ((1 - / 2) * (1 / 2))%R with (1 / 4)%R in D by lra. split; [exact D|]. split; [exact E|]. split; [lra|]. split; [lra|]. apply (known_fits _ _ _ _ _ _ D); lra.
Qed.
