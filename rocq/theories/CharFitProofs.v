(** The calibration experiments and the curves fitted to them; missing data. *)
From Coq Require Import QArith Qreals Reals Lra.
From Coquelicot Require Import Coquelicot.
From Verif Require Import Base LinAlg QSem PyStr DihedralModel RBSeqModel RBSeqSpec StdGates AccSpec EntSpec CtmpSpec ResultFacts EntMqcProofs.
From Verif Require Import CountsModel MeasCalModel CharModel CharSpec CharProdProofs CharCircProofs CharIdealProofs CharCalProofs CharDataProofs CharEndProofs.
Local Open Scope string_scope.
Local Open Scope list_scope.
Local Open Scope nat_scope.

Lemma sin_nPI n : sin (INR n * PI) = 0%R.
Proof. induction n; [cbn; rewrite Rmult_0_l; apply sin_0|]. rewrite S_INR. replace ((INR n + 1) * PI)%R with (INR n * PI + PI)%R by ring. rewrite neg_sin, IHn. ring. Qed.
Lemma sin_nPI_flip n y : (- sin (INR n * PI - y))%R = sin (INR n * PI + y).
Proof. rewrite sin_minus, sin_plus, sin_nPI. ring. Qed.
Lemma cos_shift y : cos (y + PI / 2) = (- sin y)%R.
Proof. rewrite cos_plus, cos_PI2, sin_PI2. ring. Qed.

Lemma ampcal_curve x e : ((1 - cos (INR (x + 1) * (PI / 2 + e))) / 2)%R = amp_cal_fit (INR x) e (1 / 2).
Proof. unfold amp_cal_fit, cal_fit. rewrite plus_INR. cbn [INR]. replace ((PI / 2 + e) * INR x + PI / 2 + e)%R with ((INR x + 1) * (PI / 2 + e))%R by ring. field. Qed.
Lemma anglecal_curve reps ax : ((1 - sin (INR reps * (PI - 2 * ax - 4 * (PI * Q2R 0)) - PI * Q2R 0 - ax)) / 2)%R = angle_cal_fit (INR (reps * 2)) ax (1 / 2).
Proof.
  unfold angle_cal_fit, cal_fit. assert (E0 : Q2R 0 = 0%R) by (unfold Q2R; cbn; field). rewrite E0.
  replace (INR reps * (PI - 2 * ax - 4 * (PI * 0)) - PI * 0 - ax)%R with (INR reps * PI - (2 * INR reps + 1) * ax)%R by ring.
  rewrite mult_INR. cbn [INR].
  replace ((PI / 2 + ax) * (INR reps * (1 + 1)) + PI / 2 + ax)%R with ((INR reps * PI + (2 * INR reps + 1) * ax) + PI / 2)%R by field.
  rewrite cos_shift, <- sin_nPI_flip. field.
Qed.
Lemma ampcx_curve reps e : ((1 - cos (PI / 2 + INR reps * (PI + e))) / 2)%R = amp_calcx_fit (INR reps) e (1 / 2).
Proof. unfold amp_calcx_fit, cal_fit. replace ((PI + e) * INR reps + PI / 2 + 0)%R with (PI / 2 + INR reps * (PI + e))%R by ring. field. Qed.
Lemma anglecx_curve reps a : ((1 - sin (INR reps * (PI - 2 * a) - 0)) / 2)%R = angle_calcx_fit (INR reps) (2 * a) (1 / 2).
Proof.
  unfold angle_calcx_fit, cal_fit. replace (INR reps * (PI - 2 * a) - 0)%R with (INR reps * PI - 2 * INR reps * a)%R by ring.
  replace ((PI + 2 * a) * INR reps + PI / 2 + 0)%R with (INR reps * PI + 2 * INR reps * a + PI / 2)%R by ring. rewrite cos_shift, <- sin_nPI_flip. field.
Qed.

Lemma nth_seq0 n i : i < n -> nth_error (seq 0 n) i = Some i.
Proof. intros H. rewrite (nth_error_nth' _ 0) by (rewrite seq_length; exact H). rewrite seq_nth by exact H. reflexivity. Qed.

Lemma ampcal_summary gmat e tx ax tc ac N reps qs : cal_gates gmat (PI / 2 + e) tx ax tc ac -> qs <> [] -> qubits_ok N qs ->
  exists circs xs, ampcal_1Q_circuits reps qs = Ok (circs, xs) /\ length circs = reps /\ xs = map (fun k => 2 * k) (seq 0 reps) /\
  (forall i c, nth_error circs i = Some c -> outcome_law gmat N qs (cbody c) (bernoulli (amp_cal_fit (INR (2 * i)) e (1 / 2)))) /\
  forall rs, exact_runs gmat N (length qs) rs circs -> exists ys, calc_data (ampcal_fitter (length xs) (length qs) rs) = Ok ys /\
    forall j i x, j < length qs -> nth_error xs i = Some x -> mean_is ys 0 j i (amp_cal_fit (INR x) e (1 / 2)).
Proof.
  intros G Hq Hok. destruct (maxq_ok qs Hq) as [m Em]. unfold ampcal_1Q_circuits. rewrite Em. cbn [bind].
  assert (Ex : map (fun k => k * 2) (seq 0 reps) = map (fun k => 2 * k) (seq 0 reps)) by (apply map_ext; intros; lia). rewrite Ex.
  set (xs := map (fun k => 2 * k) (seq 0 reps)). assert (Hlx : length xs = reps) by (unfold xs; rewrite map_length, seq_length; reflexivity).
  eexists _, _. split; [reflexivity|]. split; [rewrite length_series; exact Hlx|]. split; [reflexivity|].
  assert (HL : forall x, outcome_law gmat N qs (ampcal_1Q_body qs x) (bernoulli (amp_cal_fit (INR x) e (1 / 2)))).
  { intros x. rewrite <- ampcal_curve. apply (ampcal_law gmat _ _ _ _ _ G). exact Hok. }
  split.
  - intros i c Hc. rewrite nth_series in Hc. destruct (nth_error xs i) as [x|] eqn:Hx; [|discriminate]. injection Hc as <-. cbn [cbody].
    assert (x = 2 * i). { unfold xs in Hx. assert (i < reps) by (rewrite <- Hlx; apply nth_error_Some; unfold xs; congruence). rewrite nth_error_map, nth_seq0 in Hx by assumption. cbn [option_map] in Hx. congruence. }
    subst x. apply HL.
  - intros rs Hr.
    destruct (one_series gmat N qs "ampcal1Qcircuit_" "0" true xs rs (fun _ x => ampcal_1Q_body qs x) (fun _ x => bernoulli (amp_cal_fit (INR x) e (1 / 2)))) as (ys & E & H); auto.
    + intros i x. apply bernoulli_sum.
    + exists ys. split; [exact E|]. intros j i x Hj Hx. exact (H j i x Hj Hx).
Qed.

Lemma anglecal_summary gmat ax tc ac N reps qs err : cal_gates gmat (PI / 2) (PI / 2) ax tc ac -> qs <> [] -> qubits_ok N qs ->
  exists circs xs, anglecal_1Q_circuits reps qs err = Ok (circs, xs) /\ length circs = reps /\ xs = map (fun k => 2 * k) (seq 0 reps) /\
  (forall i c, nth_error circs i = Some c -> outcome_law gmat N qs (cbody c) (bernoulli ((1 + sin (INR i * PI + (2 * INR i + 1) * ax + (4 * INR i + 1) * (PI * Q2R err))) / 2))) /\
  forall rs, exact_runs gmat N (length qs) rs circs -> exists ys, calc_data (anglecal_fitter (length xs) (length qs) rs) = Ok ys /\
    forall j i, j < length qs -> i < reps -> mean_is ys 0 j i ((1 + sin (INR i * PI + (2 * INR i + 1) * ax + (4 * INR i + 1) * (PI * Q2R err))) / 2).
Proof.
  intros G Hq Hok. destruct (maxq_ok qs Hq) as [m Em]. unfold anglecal_1Q_circuits. rewrite Em. cbn [bind].
  assert (Ex : map (fun k => k * 2) (seq 0 reps) = map (fun k => 2 * k) (seq 0 reps)) by (apply map_ext; intros; lia). rewrite Ex.
  eexists _, _. split; [reflexivity|]. split; [rewrite length_series; apply seq_length|]. split; [reflexivity|].
  assert (HL : forall i, outcome_law gmat N qs (anglecal_1Q_body qs i err) (bernoulli ((1 + sin (INR i * PI + (2 * INR i + 1) * ax + (4 * INR i + 1) * (PI * Q2R err))) / 2))).
  { intros i. replace (INR i * PI + (2 * INR i + 1) * ax + (4 * INR i + 1) * (PI * Q2R err))%R with (INR i * PI + ((2 * INR i + 1) * ax + (4 * INR i + 1) * (PI * Q2R err)))%R by ring.
    rewrite <- sin_nPI_flip.
    replace (INR i * PI - ((2 * INR i + 1) * ax + (4 * INR i + 1) * (PI * Q2R err)))%R with (angle_end ax i err - ax)%R by (unfold angle_end; ring).
    apply (anglecal_law gmat _ _ _ _ _ G); auto. }
  split.
  - intros i c Hc. assert (Hi : i < reps) by (rewrite <- (seq_length reps 0), <- (length_series "anglecal1Qcircuit_" "0" (seq 0 reps) (fun _ r => anglecal_1Q_body qs r err)); apply nth_error_Some; congruence).
    rewrite nth_series, nth_seq0 in Hc by exact Hi. injection Hc as <-. apply HL.
  - intros rs Hr. rewrite map_length. 
    destruct (one_series gmat N qs "anglecal1Qcircuit_" "0" true (seq 0 reps) rs (fun _ i => anglecal_1Q_body qs i err) (fun _ i => bernoulli ((1 + sin (INR i * PI + (2 * INR i + 1) * ax + (4 * INR i + 1) * (PI * Q2R err))) / 2))) as (ys & E & H); auto.
    + intros i x. apply bernoulli_sum.
    + exists ys. split; [exact E|]. intros j i Hj Hi. exact (H j i i Hj (nth_seq0 reps i Hi)).
Qed.
Lemma anglecal_fit_eq i ax : ((1 + sin (INR i * PI + (2 * INR i + 1) * ax + (4 * INR i + 1) * (PI * Q2R 0))) / 2)%R = angle_cal_fit (INR (2 * i)) ax (1 / 2).
Proof.
  rewrite Nat.mul_comm, <- anglecal_curve. assert (E0 : Q2R 0 = 0%R) by (unfold Q2R; cbn; field). rewrite E0.
  replace (INR i * (PI - 2 * ax - 4 * (PI * 0)) - PI * 0 - ax)%R with (INR i * PI - (2 * INR i + 1) * ax)%R by ring.
  replace (INR i * PI + (2 * INR i + 1) * ax + (4 * INR i + 1) * (PI * 0))%R with (INR i * PI + (2 * INR i + 1) * ax)%R by ring. rewrite <- sin_nPI_flip. field.
Qed.

Lemma cx_series gmat base reps qs cs body N (v : nat -> R) : (forall i, outcome_law gmat N qs (body (combine qs cs) i) (bernoulli (v i))) -> qs <> [] -> length cs = length qs ->
  exists circs xs, cx_circuits base reps qs cs body = Ok (circs, xs) /\ length circs = reps /\ xs = seq 0 reps /\
  (forall i c, nth_error circs i = Some c -> outcome_law gmat N qs (cbody c) (bernoulli (v i))) /\
  forall rs, exact_runs gmat N (length qs) rs circs -> exists ys, calc_data (fitter_of base ["0"] "1" (length xs) (length qs) rs) = Ok ys /\
    forall j i, j < length qs -> i < reps -> mean_is ys 0 j i (v i).
Proof.
  intros HL Hq Hlen. destruct (maxq_ok qs Hq) as [m Em]. destruct (maxq_ok cs) as [mc Emc]. { intros ->. destruct qs; [congruence|discriminate]. }
  unfold cx_circuits. rewrite Em, Emc. cbn [bind]. rewrite Hlen, Nat.ltb_irrefl. cbn [andb].
  eexists _, _. split; [reflexivity|]. split; [rewrite length_series; apply seq_length|]. split; [reflexivity|]. split.
  - intros i c Hc. assert (Hi : i < reps) by (rewrite <- (seq_length reps 0), <- (length_series base "0" (seq 0 reps) (fun _ r => body (combine qs cs) r)); apply nth_error_Some; congruence).
    rewrite nth_series, nth_seq0 in Hc by exact Hi. injection Hc as <-. apply HL.
  - intros rs Hr.
    destruct (one_series gmat N qs base "0" true (seq 0 reps) rs (fun _ i => body (combine qs cs) i) (fun _ i => bernoulli (v i))) as (ys & E & H); auto.
    + intros i x. apply bernoulli_sum.
    + exists ys. split; [exact E|]. intros j i Hj Hi. exact (H j i i Hj (nth_seq0 reps i Hi)).
Qed.
Lemma fst_combine {A B} (l : list A) (l' : list B) : length l' = length l -> map fst (combine l l') = l.
Proof. revert l'; induction l as [|a l IH]; intros [|b l']; cbn; intros H; try discriminate; [reflexivity|]. rewrite IH by lia. reflexivity. Qed.
Lemma snd_combine {A B} (l : list A) (l' : list B) : length l' = length l -> map snd (combine l l') = l'.
Proof. revert l'; induction l as [|a l IH]; intros [|b l']; cbn; intros H; try discriminate; [reflexivity|]. rewrite IH by lia. reflexivity. Qed.

Lemma ampcx_summary gmat ty e N reps qs cs : cal_gates gmat ty (PI / 2) 0 (PI + e) 0 -> qs <> [] -> length cs = length qs -> qubits_ok N (qs ++ cs) ->
  exists circs xs, ampcal_cx_circuits reps qs cs = Ok (circs, xs) /\ length circs = reps /\ xs = seq 0 reps /\
  (forall i c, nth_error circs i = Some c -> outcome_law gmat N qs (cbody c) (bernoulli (amp_calcx_fit (INR i) e (1 / 2)))) /\
  forall rs, exact_runs gmat N (length qs) rs circs -> exists ys, calc_data (ampcalcx_fitter (length xs) (length qs) rs) = Ok ys /\
    forall j i, j < length qs -> i < reps -> mean_is ys 0 j i (amp_calcx_fit (INR i) e (1 / 2)).
Proof.
  intros G Hq Hlen Hok. apply cx_series; auto. intros i. rewrite <- ampcx_curve.
  pose proof (ampcx_law gmat _ _ _ _ _ G N (combine qs cs) i) as L. rewrite fst_combine, snd_combine in L by exact Hlen. apply L; auto.
Qed.
Lemma anglecx_summary gmat ac N reps qs cs err : cal_gates gmat (PI / 2) (PI / 2) 0 PI ac -> qs <> [] -> length cs = length qs -> qubits_ok N (qs ++ cs) ->
  exists circs xs, anglecal_cx_circuits reps qs cs err = Ok (circs, xs) /\ length circs = reps /\ xs = seq 0 reps /\
  (forall i c, nth_error circs i = Some c -> outcome_law gmat N qs (cbody c) (bernoulli (angle_calcx_fit (INR i) (2 * (ac + PI * Q2R err)) (1 / 2)))) /\
  forall rs, exact_runs gmat N (length qs) rs circs -> exists ys, calc_data (anglecalcx_fitter (length xs) (length qs) rs) = Ok ys /\
    forall j i, j < length qs -> i < reps -> mean_is ys 0 j i (angle_calcx_fit (INR i) (2 * (ac + PI * Q2R err)) (1 / 2)).
Proof.
  intros G Hq Hlen Hok. apply (cx_series gmat "anglecalcxcircuit_" reps qs cs (fun qcs reps => anglecal_cx_body qcs reps err)); auto. intros i. rewrite <- anglecx_curve.
  pose proof (anglecx_law gmat _ _ _ _ _ G N (combine qs cs) i err) as L. rewrite fst_combine, snd_combine in L by exact Hlen. apply L; auto.
Qed.

(** No curve fits the angle calibration with an artificial error of pi/6. *)
Lemma sin5 t : sin (5 * t) = (5 * sin t - 20 * sin t ^ 3 + 16 * sin t ^ 5)%R.
Proof.
  replace (5 * t)%R with (t + t + (t + t) + t)%R by ring. rewrite !sin_plus, !cos_plus. rewrite !sin_plus.
  pose proof (sin2_cos2 t) as H. unfold Rsqr in H. assert (E : (cos t * cos t = 1 - sin t * sin t)%R) by lra.
  set (s := sin t) in *. set (c := cos t) in *.
  transitivity (5 * (c * c) * (c * c) * s - 10 * (c * c) * (s * s * s) + s ^ 5)%R; [ring|]. rewrite E. ring.
Qed.
Lemma sin3 t : sin (3 * t) = (3 * sin t - 4 * sin t ^ 3)%R.
Proof.
  replace (3 * t)%R with (t + t + t)%R by ring. rewrite !sin_plus, !cos_plus.
  pose proof (sin2_cos2 t) as H. unfold Rsqr in H. assert (E : (cos t * cos t = 1 - sin t * sin t)%R) by lra.
  set (s := sin t) in *. set (c := cos t) in *.
  transitivity (3 * (c * c) * s - s ^ 3)%R; [ring|]. rewrite E. ring.
Qed.
Lemma no_angle_fit thetaerr c :
  ~ (forall i, i < 3 -> ((1 + sin (INR i * PI + (2 * INR i + 1) * 0 + (4 * INR i + 1) * (PI * Q2R (1 # 6)))) / 2)%R = angle_cal_fit (INR (2 * i)) thetaerr c).
Proof.
  intros H.
  assert (E6 : (PI * Q2R (1 # 6))%R = (PI / 6)%R) by (unfold Q2R; cbn; field).
  assert (F : forall i, angle_cal_fit (INR (2 * i)) thetaerr c = (1 / 2 * sin (INR i * PI + (2 * INR i + 1) * thetaerr) + c)%R).
  { intros i. unfold angle_cal_fit, cal_fit. rewrite mult_INR. cbn [INR].
    replace ((PI / 2 + thetaerr) * ((1 + 1) * INR i) + PI / 2 + thetaerr)%R with (INR i * PI + (2 * INR i + 1) * thetaerr + PI / 2)%R by field. rewrite cos_shift. field. }
  pose proof (H 0 ltac:(lia)) as H0. pose proof (H 1 ltac:(lia)) as H1. pose proof (H 2 ltac:(lia)) as H2. rewrite F, E6 in H0, H1, H2. cbn [INR] in H0, H1, H2.
  replace (0 * PI + (2 * 0 + 1) * 0 + (4 * 0 + 1) * (PI / 6))%R with (PI / 6)%R in H0 by ring.
  replace (0 * PI + (2 * 0 + 1) * thetaerr)%R with thetaerr in H0 by ring.
  replace (1 * PI + (2 * 1 + 1) * 0 + (4 * 1 + 1) * (PI / 6))%R with (PI - PI / 6 + PI)%R in H1 by field.
  replace (1 * PI + (2 * 1 + 1) * thetaerr)%R with (3 * thetaerr + PI)%R in H1 by ring.
  replace ((1 + 1) * PI + (2 * (1 + 1) + 1) * 0 + (4 * (1 + 1) + 1) * (PI / 6))%R with (PI / 2 + PI + 2 * PI)%R in H2 by field.
  replace ((1 + 1) * PI + (2 * (1 + 1) + 1) * thetaerr)%R with (5 * thetaerr + 2 * PI)%R in H2 by ring.
  assert (S5 : sin (PI - PI / 6) = (1 / 2)%R) by (rewrite sin_minus, sin_PI, cos_PI, sin_PI6; ring).
  assert (P2 : forall y, sin (y + 2 * PI) = sin y) by (intros y; rewrite sin_plus, cos_2PI, sin_2PI; ring).
  rewrite sin_PI6 in H0. rewrite !neg_sin, S5, sin3 in H1. rewrite !P2, neg_sin, sin_PI2, sin5 in H2.
  set (s := sin thetaerr) in *.
  assert (A : (4 * s ^ 3 = 4 * s - 1)%R) by lra.
  assert (B : (16 * s ^ 5 = 16 * s - 4 - 4 * (s * s))%R). { transitivity (4 * (s * s) * (4 * s ^ 3))%R; [ring|]. rewrite A. transitivity (4 * (4 * s ^ 3) - 4 * (s * s))%R; [ring|]. rewrite A. ring. }
  assert (D : (s * s = 5 / 8)%R) by lra.
  assert (E : (4 * s ^ 3 = 4 * s * (s * s))%R) by ring. rewrite D in E. assert (s = (2 / 3)%R) by lra. subst. rewrite H3 in D. lra.
Qed.

(** Missing circuits: the data cannot be computed. *)
Lemma point_missing rs name o j : found rs name = [] -> point (build_counts (found rs name)) o j = Err StopIteration.
Proof. intros ->. reflexivity. Qed.
Lemma mapM_err {A B} (g : A -> result B) l x e : In x l -> g x = Err e -> forall ys, mapM g l <> Ok ys.
Proof.
  induction l as [|a l IH]; [intros []|]. intros [->|H] E ys; cbn [mapM bind].
  - rewrite E. discriminate.
  - destruct (g a); cbn [bind]; [|discriminate]. destruct (mapM g l) as [v|] eqn:Em; cbn [bind]; [|discriminate]. destruct (IH H E v). reflexivity.
Qed.
Lemma calc_missing f s i n : In s (f_series f) -> i < f_npts f -> nth_error (f_names f) i = Some n -> 0 < f_nq f -> found (f_results f) (n ++ s) = [] -> forall ys, calc_data f <> Ok ys.
Proof.
  intros Hs Hi Hn Hq Hf ys. unfold calc_data. destruct (mapM _ (f_series f)) as [v|e] at 1; cbn [bind]; [|discriminate].
  assert (Hp : forall ys, mapM (fun i0 => do n0 <- index_e (f_names f) i0; point (build_counts (found (f_results f) (n0 ++ s))) (f_expected f) 0) (seq 0 (f_npts f)) <> Ok ys).
  { apply (mapM_err _ _ i StopIteration); [apply in_seq; lia|]. unfold index_e. rewrite Hn. cbn [bind]. apply point_missing. exact Hf. }
  assert (Hqs : forall ys, mapM (fun qind => mapM (fun i0 => do n0 <- index_e (f_names f) i0; point (build_counts (found (f_results f) (n0 ++ s))) (f_expected f) qind) (seq 0 (f_npts f))) (seq 0 (f_nq f)) <> Ok ys).
  { destruct (mapM (fun i0 => do n0 <- index_e (f_names f) i0; point (build_counts (found (f_results f) (n0 ++ s))) (f_expected f) 0) (seq 0 (f_npts f))) as [w|e] eqn:E; [destruct (Hp w); reflexivity|].
    apply (mapM_err _ _ 0 e); [apply in_seq; lia|exact E]. }
  match goal with |- mapM ?g _ <> _ => destruct (g s) as [w|e] eqn:E end.
  - cbn beta in E. inv_bind E. destruct (Hqs _ E0).
  - exact (mapM_err _ _ s e Hs E ys).
Qed.

(** ** Which controls are accepted *)
Lemma maxq_some : forall l, l <> [] -> exists m, maxq l = Ok m.
Proof. intros [|a l] H; [congruence|]. eexists. reflexivity. Qed.
Lemma cx_outcome : forall base n qs cs body,
  let r := cx_circuits base n qs cs body in
  ((qs = [] \/ cs = []) -> r = Err ValueError) /\
  (qs <> [] -> cs <> [] -> length cs < length qs -> 0 < n -> r = Err IndexError) /\
  (qs <> [] -> cs <> [] -> length qs <= length cs \/ n = 0 -> exists circs, r = Ok (circs, seq 0 n) /\ length circs = n).
Proof.
  intros base n qs cs body r. unfold r, cx_circuits. split; [|split].
  - intros [->| ->]; [reflexivity|]. destruct qs; reflexivity.
  - intros Hq Hc L N. destruct (maxq_some _ Hq) as [a ->]. destruct (maxq_some _ Hc) as [b ->]. cbn [bind].
    apply Nat.ltb_lt in L, N. rewrite L, N. reflexivity.
  - intros Hq Hc L. destruct (maxq_some _ Hq) as [a ->]. destruct (maxq_some _ Hc) as [b ->]. cbn [bind].
    assert (E : (length cs <? length qs) && (0 <? n) = false)
      by (destruct L as [L| ->]; [apply Nat.ltb_ge in L; rewrite L; reflexivity|apply andb_false_r]).
    rewrite E. eexists. split; [reflexivity|]. unfold series_circuits. rewrite map_length, combine_length, !seq_length. lia.
Qed.
Lemma combine_more : forall (l l' m : list nat), length l' = length l -> combine l (l' ++ m) = combine l l'.
Proof. induction l; intros [|b l'] m H; try discriminate; cbn; [destruct m; reflexivity|]. rewrite IHl by (cbn in H; lia). reflexivity. Qed.
Lemma cx_more : forall base n qs cs body more, length cs = length qs -> cx_circuits base n qs (cs ++ more) body = cx_circuits base n qs cs body.
Proof.
  intros base n qs cs body more L. unfold cx_circuits. rewrite combine_more by exact L. rewrite app_length.
  replace (length cs + length more <? length qs) with false by (symmetry; apply Nat.ltb_ge; lia).
  replace (length cs <? length qs) with false by (symmetry; apply Nat.ltb_ge; lia).
  destruct qs as [|q qs]; [reflexivity|]. destruct cs as [|c cs]; [discriminate|]. reflexivity.
Qed.
