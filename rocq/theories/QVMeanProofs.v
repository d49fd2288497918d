(** Proofs about the means and the verdict of the quantum-volume fitter. *)
From Coq Require Import QArith Lqa Reals Lra Qreals.
From Coquelicot Require Import Coquelicot.
From Verif Require Import Base ResultFacts PyStr CountsModel CountsSpec CountsProofs MeasCalModel RBSeqModel RBFitModel RBFitSpec RBFitProofs QVModel QVSpec QVHeavyProofs QVFitProofs.
Open Scope nat_scope.

(** ** The counts computed *)
Lemma calc_circuit_ok f name f' : calc_circuit f name = (f', None) -> exists heavy,
  dget (v_heavy f) name = Some heavy /\ zsum (dvals (build_counts (count_list (v_results f) name))) <> 0%Z /\
  v_results f' = v_results f /\ v_ntrials f' = v_ntrials f /\ same_ideal f f' /\
  v_heavy_counts f' = dset (v_heavy_counts f) name (subset_counts heavy (build_counts (count_list (v_results f) name))) /\
  v_shots f' = dset (v_shots f) name (zsum (dvals (build_counts (count_list (v_results f) name)))).
Proof.
  unfold calc_circuit. cbn [set_exp v_heavy v_counts v_shots v_heavy_counts v_heavy_exp].
  destruct (dget (v_heavy f) name) as [heavy|] eqn:E; [|discriminate]. unfold ratio.
  destruct (Z.eqb_spec (zsum (dvals (build_counts (count_list (v_results f) name)))) 0) as [Ez|Ez]; [discriminate|].
  intros H. injection H as <-. exists heavy. repeat split; auto.
Qed.

Definition computed (f : qv) (name : pystr) : Prop := exists heavy,
  dget (v_heavy f) name = Some heavy /\ zsum (dvals (build_counts (count_list (v_results f) name))) <> 0%Z /\
  dget (v_heavy_counts f) name = Some (subset_counts heavy (build_counts (count_list (v_results f) name))) /\
  dget (v_shots f) name = Some (zsum (dvals (build_counts (count_list (v_results f) name)))).

Lemma calc_loop_ok names : forall f f' done, (forall n, In n done -> computed f n) -> loop calc_circuit f names = (f', None) ->
  v_results f' = v_results f /\ v_ntrials f' = v_ntrials f /\ same_ideal f f' /\ forall n, In n (done ++ names) -> computed f' n.
Proof.
  induction names as [|name names IH]; intros f f' done Hd H; cbn [loop] in H.
  - injection H as <-. rewrite app_nil_r. repeat split; auto.
  - destruct (calc_circuit f name) as [f1 [x|]] eqn:E; [discriminate|].
    destruct (calc_circuit_ok _ _ _ E) as (heavy & Hh & Hz & Er & En & Es & Ehc & Esh).
    assert (Hd1 : forall n, In n (done ++ [name]) -> computed f1 n).
    { destruct Es as (_ & _ & S3 & _). intros n Hn. unfold computed. rewrite Er, Ehc, Esh, S3.
      destruct (eqb_spec n name) as [Enn|Hne].
      - subst n. exists heavy. rewrite !dget_dset, eqb_refl. repeat split; auto.
      - apply in_app_iff in Hn. destruct Hn as [Hn|[Hn|[]]]; [|congruence]. destruct (Hd n Hn) as (h & A & B & C & D). exists h.
        rewrite !dget_dset. destruct (eqb_spec n name) as [|_]; [congruence|]. repeat split; auto. }
    destruct (IH f1 f' (done ++ [name]) Hd1 H) as (R & N & S & C). split; [congruence|]. split; [congruence|].
    split; [eapply same_ideal_trans; eauto|]. rewrite <- app_assoc in C. exact C.
Qed.

Lemma loop_results rs : forall f f', loop note_result f rs = (f', None) -> v_results f' = v_results f ++ rs.
Proof.
  induction rs as [|r rs IH]; intros f f' H; cbn [loop] in H; [injection H as <-; rewrite app_nil_r; reflexivity|].
  pose proof (note_result_data f r) as (A & _). destruct (note_result f r) as [f1 [x|]]; [discriminate|]. cbn [fst] in A.
  rewrite (IH f1 f' H), A, <- app_assoc. reflexivity.
Qed.

Lemma fill_ok f ds : forall y, fill_ydata f ds = (y, None) -> Forall2 (fun d p => depth_stats f d = Ok p) ds y.
Proof.
  induction ds as [|d ds IH]; intros y H; cbn [fill_ydata] in H; [injection H as <-; constructor|].
  destruct (depth_stats f d) eqn:E; [|discriminate]. destruct (fill_ydata f ds) as [ys err]. injection H as <- ->. constructor; auto.
Qed.

Lemma add_data_ok f rs f' : add_data f (Some rs) true = (f', None) ->
  v_results f' = v_results f ++ rs /\ same_ideal f f' /\ (forall n, In n (qv_names f') -> computed f' n) /\
  Forall2 (fun d p => depth_stats f' d = Ok p) (v_depths f') (v_ydata f').
Proof.
  unfold add_data. intros H. destruct (loop note_result f rs) as [f1 [x|]] eqn:E1; [discriminate|].
  pose proof (loop_results _ _ _ E1) as R1. pose proof (loop_same note_result rs note_result_same f) as S1. rewrite E1 in S1. cbn [fst] in S1.
  destruct (calc_data f1) as [f2 [x|]] eqn:E2; [discriminate|].
  destruct (calc_loop_ok _ _ _ [] (fun n (Hn : In n []) => match Hn with end) E2) as (R2 & N2 & S2 & C2). cbn [app] in C2.
  unfold calc_statistics in H. destruct (fill_ydata f2 (v_depths f2)) as [y err] eqn:E3. injection H as <- ->.
  cbn [set_ydata v_results v_depths v_ydata]. split; [congruence|]. split; [|split].
  - eapply same_ideal_trans; [exact S1|]. eapply same_ideal_trans; [exact S2|]. repeat split.
  - unfold qv_names. cbn [set_ydata v_ntrials v_depths]. unfold qv_names in C2. destruct S2 as (S21 & _). rewrite N2, S21. exact C2.
  - apply fill_ok in E3. exact E3.
Qed.

(** ** The pooled counts *)
Lemma recorded_pool rs name : (forall r, In r rs -> proper r) -> count_list rs name = recorded rs name.
Proof.
  intros H. unfold count_list, recorded. induction rs as [|r rs IH]; [reflexivity|]. cbn [flat_map].
  rewrite get_counts_recorded by (apply (H r); left; reflexivity). rewrite IH; auto. intros r' Hr'. apply H. right; exact Hr'.
Qed.
Lemma pooled_shots rs name : (forall r, In r rs -> proper r) -> zsum (dvals (build_counts (count_list rs name))) = shots_with always (recorded rs name).
Proof.
  intros H. rewrite <- recorded_pool by exact H. rewrite <- wsum_build. unfold wsum, dvals, always. reflexivity.
Qed.
Lemma pooled_heavy rs name heavy : (forall r, In r rs -> proper r) -> NoDup heavy ->
  subset_counts heavy (build_counts (count_list rs name)) = shots_with (fun k => mem k heavy) (recorded rs name).
Proof.
  intros H Hn. rewrite subset_wsum by (auto; apply pooled_fine; exact H). rewrite wsum_build, recorded_pool by exact H. reflexivity.
Qed.

Lemma in_qv_names f d t : In d (v_depths f) -> t < v_ntrials f -> In (qv_name d t) (qv_names f).
Proof.
  intros Hd Ht. unfold qv_names. apply in_flat_map. exists t. split; [apply in_seq; lia|]. apply in_map_iff. exists d; auto.
Qed.

Lemma zsum_pos l : l <> [] -> (forall z, In z l -> (0 < z)%Z) -> (0 < zsum l)%Z.
Proof.
  induction l as [|a l IH]; intros Hne H; [congruence|]. cbn [zsum]. pose proof (H a (or_introl eq_refl)).
  destruct l as [|b l]; [cbn; lia|]. assert (0 < zsum (b :: l))%Z by (apply IH; [congruence | intros z Hz; apply H; right; exact Hz]). lia.
Qed.
Lemma zsum_le {A} (f g : A -> Z) l : (forall a, In a l -> (f a <= g a)%Z) -> (zsum (map f l) <= zsum (map g l))%Z.
Proof. induction l as [|a l IH]; intros H; cbn [map zsum]; [lia|]. pose proof (H a (or_introl eq_refl)). pose proof (IH (fun b Hb => H b (or_intror Hb))). lia. Qed.

Lemma mean_lemma gi f rs f' i d : inv_ideal gi f -> (forall r, In r (v_results f ++ rs) -> proper r) -> add_data f (Some rs) true = (f', None) ->
  nth_error (v_depths f') i = Some d -> 0 < v_ntrials f' ->
  exists hs mean ideal, (forall t, t < v_ntrials f' -> dget (v_heavy f') (qv_name d t) = Some (hs t)) /\
    nth_error (v_ydata f') i = Some (Some mean, Some ideal) /\ (0 < all_shots f' d)%Z /\ (0 <= heavy_shots f' hs d <= all_shots f' d)%Z /\
    (mean == inject_Z (heavy_shots f' hs d) / inject_Z (all_shots f' d))%Q /\
    (ideal == sumq (map (fun t => match dget (v_heavy_ideal f') (qv_name d t) with Some p => p | None => 0%Q end) (seq 0 (v_ntrials f'))) / inject_Z (Z.of_nat (v_ntrials f')))%Q.
Proof.
  intros Hi Hp H Hd Hn. destruct (add_data_ok _ _ _ H) as (R & Sm & C & Y). rewrite <- R in Hp.
  assert (Hi' : inv_ideal gi f') by (apply (inv_ideal_same _ f); auto).
  set (hs := fun t => match dget (v_heavy f') (qv_name d t) with Some h => h | None => [] end).
  assert (Hdi : In d (v_depths f')) by (apply nth_error_In in Hd; exact Hd).
  assert (Ht : forall t, t < v_ntrials f' -> dget (v_heavy f') (qv_name d t) = Some (hs t) /\
     dget (v_heavy_counts f') (qv_name d t) = Some (shots_with (fun k => mem k (hs t)) (recorded (v_results f') (qv_name d t))) /\
     dget (v_shots f') (qv_name d t) = Some (shots_with always (recorded (v_results f') (qv_name d t))) /\
     (0 <= shots_with (fun k => mem k (hs t)) (recorded (v_results f') (qv_name d t)) <= shots_with always (recorded (v_results f') (qv_name d t)))%Z /\
     (0 < shots_with always (recorded (v_results f') (qv_name d t)))%Z).
  { intros t Ht. destruct (C (qv_name d t) (in_qv_names f' d t Hdi Ht)) as (h & A & B & D & E). unfold hs. rewrite A.
    pose proof (heavy_nodup _ _ _ _ Hi' A) as Hnd. rewrite pooled_heavy in D by auto. rewrite pooled_shots in B, E by auto.
    pose proof (pooled_fine (v_results f') (qv_name d t) Hp) as [Hk Hnn]. pose proof (wsum_le (fun k => mem k h) _ Hnn) as Hw.
    rewrite wsum_build, recorded_pool in Hw by auto. rewrite <- recorded_pool, pooled_shots in Hw by auto. rewrite recorded_pool in Hw by auto.
    repeat split; auto; lia. }
  assert (Hlen : length (v_ydata f') = length (v_depths f')) by (symmetry; apply (Forall2_length' _ _ _ Y)).
  destruct (nth_error (v_ydata f') i) as [p|] eqn:Ey.
  2: { apply nth_error_None in Ey. assert (i < length (v_depths f')) by (apply nth_error_Some; congruence). lia. }
  pose proof (Forall2_nth _ _ _ _ _ _ Y Hd Ey) as Es. unfold depth_stats in Es. inv_bind Es. injection Es as Ep.
  rewrite (mapM_ok _ (fun name => (match dget (v_heavy_counts f') name with Some h => h | None => 0%Z end, match dget (v_shots f') name with Some s => s | None => 0%Z end,
     match dget (v_heavy_ideal f') name with Some q => q | None => 0%Q end))) in E.
  2: { intros name Hname. apply in_map_iff in Hname. destruct Hname as (t & <- & Hti). apply in_seq in Hti. destruct (Ht t ltac:(lia)) as (A & B & D & _).
       unfold dget_e. rewrite B, D. cbn [bind]. destruct (proj2 Hi' _ _ A) as (e & dd & dist & _ & _ & _ & _ & _ & _ & Eh). rewrite Eh. reflexivity. }
  injection E as Ev. subst v. rewrite !map_map in Ep. cbn [fst snd] in Ep.
  rewrite (map_ext_in _ (fun t => shots_with (fun k => mem k (hs t)) (recorded (v_results f') (qv_name d t)))) in Ep.
  2: { intros t Hti. apply in_seq in Hti. destruct (Ht t ltac:(lia)) as (A & B & D & _). rewrite B. reflexivity. }
  rewrite (map_ext_in (fun x => match dget (v_shots f') (qv_name d x) with Some s => s | None => 0%Z end) (fun t => shots_with always (recorded (v_results f') (qv_name d t)))) in Ep.
  2: { intros t Hti. apply in_seq in Hti. destruct (Ht t ltac:(lia)) as (A & B & D & _). rewrite D. reflexivity. }
  fold (heavy_shots f' hs d) in Ep. fold (all_shots f' d) in Ep.
  assert (Hpos : (0 < all_shots f' d)%Z).
  { unfold all_shots. apply zsum_pos; [destruct (v_ntrials f'); [lia | discriminate]|]. intros z Hz. apply in_map_iff in Hz. destruct Hz as (t & <- & Hti). apply in_seq in Hti. apply (Ht t). lia. }
  assert (Hle : (0 <= heavy_shots f' hs d <= all_shots f' d)%Z).
  { split; [apply zsum_nonneg; intros z Hz; apply in_map_iff in Hz; destruct Hz as (t & <- & Hti); apply in_seq in Hti; apply (Ht t); lia|].
    apply zsum_le. intros t Hti. apply in_seq in Hti. apply (Ht t). lia. }
  unfold np_div in Ep.
  destruct (Qeq_bool (inject_Z (all_shots f' d)) 0) eqn:E1; [apply Qeq_bool_iff in E1; unfold Qeq in E1; cbn in E1; lia|].
  destruct (Qeq_bool (inject_Z (Z.of_nat (v_ntrials f'))) 0) eqn:E2; [apply Qeq_bool_iff in E2; unfold Qeq in E2; cbn in E2; lia|].
  exists hs. eexists. eexists. split; [intros t Ht0; apply (Ht t Ht0)|]. split; [rewrite <- Ep; reflexivity|]. split; [exact Hpos|]. split; [exact Hle|].
  split; reflexivity.
Qed.

(** ** The verdict *)
Local Open Scope R_scope.
Lemma gauss_continuous x : continuous (fun t => exp (- (t * t))) x.
Proof. apply (ex_derive_continuous (fun t => exp (- (t * t)))). auto_derive. exact I. Qed.
Lemma gauss_int a b : ex_RInt (fun t => exp (- (t * t))) a b.
Proof. apply (ex_RInt_continuous (V := R_CompleteNormedModule)). intros z _. apply gauss_continuous. Qed.
Lemma erf_increasing : increasing erf.
Proof.
  intros x y H. unfold erf.
  rewrite <- (RInt_Chasles (V := R_CompleteNormedModule) (fun t => exp (- (t * t))) 0 x y) by apply gauss_int.
  assert (0 < RInt (fun t => exp (- (t * t))) x y).
  { apply RInt_gt_0; auto; intros t _; [apply exp_pos | apply gauss_continuous]. }
  match goal with |- context [plus ?a ?b] => change (plus a b) with (a + b) end. assert (0 < 2 / sqrt PI) by (apply Rdiv_lt_0_compat; [lra | apply sqrt_lt_R0, PI_RGT_0]).
  rewrite Rmult_plus_distr_l. assert (0 < 2 / sqrt PI * RInt (fun t => exp (- (t * t))) x y) by (apply Rmult_lt_0_compat; assumption). lra.
Qed.

Lemma conf_lt e a b : increasing e -> (calc_confidence_level e a < calc_confidence_level e b <-> a < b).
Proof.
  intros He. unfold calc_confidence_level. assert (H2 : 0 < sqrt 2) by (apply sqrt_lt_R0; lra).
  assert (X : forall a b, a < b -> 1 / 2 * (1 + e (a / sqrt 2)) < 1 / 2 * (1 + e (b / sqrt 2))).
  { intros u v H. assert (e (u / sqrt 2) < e (v / sqrt 2)); [|lra]. apply He. unfold Rdiv. apply Rmult_lt_compat_r; [apply Rinv_0_lt_compat; exact H2 | exact H]. }
  split; [|apply X]. intros H. destruct (Rlt_dec a b) as [L|L]; auto. exfalso.
  destruct (Req_dec a b) as [->|Hne]; [lra|]. assert (b < a) as L' by lra. apply X in L'. lra.
Qed.

Lemma z_above x n : 0 <= x <= 1 -> 0 < n ->
  (2 / 3 < x /\ 2 < calc_z_value x (sqrt (x * (1 - x) / n))) <-> 2 * sqrt (x * (1 - x) / n) < x - 2 / 3.
Proof.
  intros Hx Hn. unfold calc_z_value. set (s := sqrt (x * (1 - x) / n)).
  assert (Hs : 0 <= s) by apply sqrt_pos.
  destruct (Req_EM_T s 0) as [E|E].
  - rewrite E. split; [intros [H _]; lra|]. intros H. split; [lra|].
    assert (Hx1 : x = 1).
    { unfold s in E. apply sqrt_eq_0 in E; [|apply Rmult_le_pos; [apply Rmult_le_pos; lra | left; apply Rinv_0_lt_compat; exact Hn]].
      unfold Rdiv in E. apply Rmult_integral in E. destruct E as [E|E].
      - apply Rmult_integral in E. destruct E; lra.
      - exfalso. apply (Rinv_neq_0_compat n); [lra | exact E]. }
    subst x. replace (1 - 2 / 3) with (1 / 3) by lra. unfold Rdiv. rewrite Rmult_1_l, Rinv_mult, Rinv_1, Rinv_inv, !Rmult_1_l by (try (apply Rgt_not_eq, pow_lt); lra).
    assert (1 <= 10 ^ 10 * / 10). 
    { replace (10 ^ 10 * / 10) with (10 ^ 9) by (field; lra). apply pow_R1_Rle. lra. }
    assert (10 <= 10 ^ 10) by lra. lra.
  - assert (Hs' : 0 < s) by lra. split.
    + intros [_ H]. apply (Rmult_lt_compat_r s) in H; auto. replace ((x - 2 / 3) / s * s) with (x - 2 / 3) in H by (field; lra). exact H.
    + intros H. split; [lra|]. apply (Rmult_lt_reg_r s); auto. replace ((x - 2 / 3) / s * s) with (x - 2 / 3) by (field; lra). exact H.
Qed.

Local Open Scope nat_scope.
Lemma success_lemma e f i mean ideal : increasing e -> nth_error (v_ydata f) i = Some (Some mean, ideal) -> (0 <= mean <= 1)%Q -> 0 < v_ntrials f ->
  exists b, qv_success1 e f i = Ok (b, Some (calc_confidence_level e (calc_z_value (Q2R mean) (sigma mean (v_ntrials f))))) /\
    (b = true <-> (2 * sqrt (Q2R mean * (1 - Q2R mean) / INR (v_ntrials f)) < Q2R mean - 2 / 3)%R).
Proof.
  intros He Hy Hm Hn. unfold qv_success1. rewrite (index_ok _ _ _ Hy). cbn [bind fst]. eexists. split; [reflexivity|].
  assert (Hx : (0 <= Q2R mean <= 1)%R).
  { destruct Hm as [H0 H1]. apply Qle_Rle in H0, H1. rewrite RMicromega.Q2R_0 in H0. rewrite RMicromega.Q2R_1 in H1. split; assumption. }
  rewrite <- (z_above (Q2R mean) (INR (v_ntrials f)) Hx) by (apply lt_0_INR; exact Hn).
  fold (sigma mean (v_ntrials f)). rewrite <- (conf_lt e 2 _ He).
  repeat match goal with |- context [Rlt_dec ?a ?b] => destruct (Rlt_dec a b) end; split; intros H; try tauto; try discriminate.
Qed.

Lemma mean_real mean h s : (0 < s)%Z -> (0 <= h <= s)%Z -> (mean == inject_Z h / inject_Z s)%Q -> (0 <= mean <= 1)%Q /\ Q2R mean = (IZR h / IZR s)%R.
Proof.
  intros Hs Hh E. assert (Hs' : (0 < inject_Z s)%Q) by (unfold Qlt; cbn; lia). split.
  - rewrite E. split; [apply Qle_shift_div_l; auto; rewrite Qmult_0_l | apply Qle_shift_div_r; auto; rewrite Qmult_1_l]; unfold Qle; cbn; lia.
  - rewrite (Qeq_eqR _ _ E), Q2R_div by (intros E0; rewrite E0 in Hs'; apply Qlt_irrefl in Hs'; exact Hs'). unfold Q2R, inject_Z. cbn [Qnum Qden]. rewrite !Rinv_1, !Rmult_1_r. reflexivity.
Qed.

Lemma nth_seq_error n i : i < n -> nth_error (seq 0 n) i = Some i.
Proof. intros H. rewrite (nth_error_nth' _ 0) by (rewrite seq_length; exact H). rewrite seq_nth by exact H. reflexivity. Qed.

Lemma verdict_lemma gi f rs f' e : increasing e -> inv_ideal gi f -> (forall r, In r (v_results f ++ rs) -> proper r) ->
  add_data f (Some rs) true = (f', None) -> 0 < v_ntrials f' ->
  exists l, qv_success e f' = Ok l /\ length l = length (v_depths f') /\
    forall i d, nth_error (v_depths f') i = Some d -> exists hs b, (forall t, t < v_ntrials f' -> dget (v_heavy f') (qv_name d t) = Some (hs t)) /\
      let x := (IZR (heavy_shots f' hs d) / IZR (all_shots f' d))%R in
      let sd := sqrt (x * (1 - x) / INR (v_ntrials f'))%R in
      nth_error l i = Some (b, Some (calc_confidence_level e (calc_z_value x sd))) /\ (b = true <-> (2 * sd < x - 2 / 3)%R) /\
      (b = true <-> (2 / 3 < x)%R /\ (calc_confidence_level e 2 < calc_confidence_level e (calc_z_value x sd))%R) /\ (0 < all_shots f' d)%Z.
Proof.
  intros He Hi Hp H Hn.
  assert (X : forall i d, nth_error (v_depths f') i = Some d -> exists hs b, (forall t, t < v_ntrials f' -> dget (v_heavy f') (qv_name d t) = Some (hs t)) /\
      let x := (IZR (heavy_shots f' hs d) / IZR (all_shots f' d))%R in
      let sd := sqrt (x * (1 - x) / INR (v_ntrials f'))%R in
      qv_success1 e f' i = Ok (b, Some (calc_confidence_level e (calc_z_value x sd))) /\ (b = true <-> (2 * sd < x - 2 / 3)%R) /\
      (b = true <-> (2 / 3 < x)%R /\ (calc_confidence_level e 2 < calc_confidence_level e (calc_z_value x sd))%R) /\ (0 < all_shots f' d)%Z).
  { intros i d Hd. destruct (mean_lemma gi f rs f' i d Hi Hp H Hd Hn) as (hs & mean & ideal & Hhs & Hy & Hpos & Hle & Em & _).
    destruct (mean_real mean _ _ Hpos Hle Em) as [Hm Er]. destruct (success_lemma e f' i mean _ He Hy Hm Hn) as (b & Hs & Hb).
    exists hs, b. split; [exact Hhs|]. cbn zeta. unfold sigma in Hs. rewrite Er in *. split; [exact Hs|]. split; [exact Hb|]. split; [|exact Hpos].
    rewrite Hb. assert (Hx : (0 <= IZR (heavy_shots f' hs d) / IZR (all_shots f' d) <= 1)%R).
    { rewrite <- Er. destruct Hm as [H0 H1]. apply Qle_Rle in H0, H1. rewrite RMicromega.Q2R_0 in H0. rewrite RMicromega.Q2R_1 in H1. split; assumption. }
    rewrite <- (z_above _ (INR (v_ntrials f')) Hx) by (apply lt_0_INR; exact Hn). rewrite (conf_lt e 2 _ He). reflexivity. }
  assert (Y : forall i, In i (seq 0 (length (v_depths f'))) -> exists o, qv_success1 e f' i = Ok o).
  { intros i Hin. apply in_seq in Hin. destruct (nth_error (v_depths f') i) as [d|] eqn:Ed; [|apply nth_error_None in Ed; lia].
    destruct (X i d Ed) as (hs & b & _ & E & _). eexists. exact E. }
  destruct (mapM_total (qv_success1 e f') (fun _ _ => True) (seq 0 (length (v_depths f')))) as (l & El & _); [intros i Hin; destruct (Y i Hin) as [o Eo]; exists o; auto|]. exists l. split; [exact El|]. apply mapM_inv in El. split; [rewrite <- (Forall2_length' _ _ _ El), seq_length; reflexivity|].
  intros i d Hd. destruct (X i d Hd) as (hs & b & Hhs & E & Hb). exists hs, b. split; [exact Hhs|]. cbn zeta in *. split; [|exact Hb].
  assert (Hi' : i < length (v_depths f')) by (apply nth_error_Some; congruence).
  destruct (nth_error l i) as [o|] eqn:Eo; [|apply nth_error_None in Eo; rewrite <- (Forall2_length' _ _ _ El), seq_length in Eo; lia].
  pose proof (Forall2_nth _ _ _ _ _ _ El (nth_seq_error _ _ Hi') Eo) as Ho. cbn beta in Ho. rewrite Ho in E. congruence.
Qed.
