(** The calibration circuits (C63). *)
From Coq Require Import QArith Qreals Reals Lra.
From Coquelicot Require Import Coquelicot.
From Verif Require Import Base LinAlg QSem PyStr DihedralModel RBSeqModel RBSeqSpec StdGates AccSpec AccLayerProofs EmbedProofs TomoFitSpec TomoLayerProofs.
From Verif Require Import EntSpec CtmpSpec EntMqcProofs CharModel CharSpec CharProdProofs CharCircProofs CharIdealProofs.
Local Open Scope list_scope.
Local Open Scope nat_scope.

(** Rotations of the ground state about the y and the x axis. *)
Definition ryv (t : R) (b : bool) : C := RtoC (if b then sin (t / 2) else cos (t / 2)).
Definition rxv (t : R) (b : bool) : C := if b then Cmult (Copp Ci) (RtoC (sin (t / 2))) else RtoC (cos (t / 2)).
Lemma half_sin t : (sin (t / 2) * sin (t / 2) = (1 - cos t) / 2)%R.
Proof. pose proof (cos_2a_sin (t / 2)) as E. replace (2 * (t / 2))%R with t in E by field. lra. Qed.
Lemma half_cos t : (cos (t / 2) * cos (t / 2) = 1 - (1 - cos t) / 2)%R.
Proof. pose proof (sin2_cos2 (t / 2)) as E. unfold Rsqr in E. rewrite half_sin in E. lra. Qed.
Lemma sqmod_ryv t b : sqmod (ryv t b) = bernoulli ((1 - cos t) / 2) b.
Proof. unfold sqmod, ryv, bernoulli. destruct b; cbn; rewrite ?half_sin, ?half_cos; ring. Qed.
Lemma sqmod_rxv t b : sqmod (rxv t b) = bernoulli ((1 - cos t) / 2) b.
Proof. unfold sqmod, rxv, bernoulli. destruct b; cbn; [transitivity (sin (t / 2) * sin (t / 2))%R; [ring|apply half_sin]|rewrite half_cos; ring]. Qed.

(** Rotations about the same axis add up. *)
Lemma rot_add s t al a b : mul2 (rot s al) (rot t al) a b = rot (s + t) al a b.
Proof.
  pose proof (expi_inv al) as E. unfold mul2, rot. replace ((s + t) / 2)%R with (s / 2 + t / 2)%R by field. rewrite cos_plus, sin_plus.
  assert (Ei : Cmult (Copp Ci) (Copp Ci) = Copp (RtoC 1)) by (apply injective_projections; cbn; ring).
  rewrite RtoC_minus, !RtoC_mult. rewrite RtoC_plus, !RtoC_mult. destruct a, b; cbn.
  - transitivity (Cplus (Cmult (Cmult (Cmult (Copp Ci) (Copp Ci)) (Cmult (expi al) (expi (- al)))) (Cmult (RtoC (sin (s / 2))) (RtoC (sin (t / 2))))) (Cmult (RtoC (cos (s / 2))) (RtoC (cos (t / 2))))); [ring|]. rewrite E, Ei. ring.
  - ring.
  - ring.
  - transitivity (Cplus (Cmult (RtoC (cos (s / 2))) (RtoC (cos (t / 2)))) (Cmult (Cmult (Cmult (Copp Ci) (Copp Ci)) (Cmult (expi al) (expi (- al)))) (Cmult (RtoC (sin (s / 2))) (RtoC (sin (t / 2)))))); [ring|]. rewrite E, Ei. ring.
Qed.
(** Half a turn about an equatorial axis reflects the azimuth. *)
Lemma rot_half al p b : Cplus (Cmult (rot PI al b false) (eqv p false)) (Cmult (rot PI al b true) (eqv p true)) = Cmult (Cmult (Copp Ci) (expi (p - al))) (eqv (2 * al - p) b).
Proof.
  unfold rot, eqv. rewrite cos_PI2, sin_PI2.
  assert (E1 : expi (p - al) = Cmult (expi p) (expi (- al))) by (rewrite <- expi_add; reflexivity).
  assert (E2 : Cmult (expi (p - al)) (expi (2 * al - p)) = expi al) by (rewrite <- expi_add; f_equal; ring).
  destruct b.
  - transitivity (Cmult (Copp Ci) (Cmult hs (expi al))); [ring|]. rewrite <- E2. ring.
  - rewrite E1. ring.
Qed.
(** A quarter turn, then the squared moduli. *)
Definition qv (al p : R) (b : bool) : C := Cplus (Cmult (rot (PI / 2) al b false) (eqv p false)) (Cmult (rot (PI / 2) al b true) (eqv p true)).
Lemma sqmod_qv al p b : sqmod (qv al p b) = bernoulli ((1 - sin (p - al)) / 2) b.
Proof.
  assert (Ef : qv al p false = Cmult (RtoC (/ 2)) (Cminus (RtoC 1) (Cmult Ci (expi (p - al))))).
  { rewrite <- hs_sq. unfold qv, rot, eqv. rewrite cos_PI4', sin_PI4'. fold hs. assert (E1 : expi (p - al) = Cmult (expi p) (expi (- al))) by (rewrite <- expi_add; reflexivity). rewrite E1. ring. }
  assert (Et : qv al p true = Cmult (expi al) (Cmult (RtoC (/ 2)) (Cminus (expi (p - al)) Ci))).
  { rewrite <- hs_sq. unfold qv, rot, eqv. rewrite cos_PI4', sin_PI4'. fold hs. assert (E1 : expi p = Cmult (expi al) (expi (p - al))) by (rewrite <- expi_add; f_equal; ring). rewrite E1. ring. }
  pose proof (sin2_cos2 (p - al)) as E. unfold Rsqr in E. set (t := (p - al)%R) in *. destruct b.
  - rewrite Et, sqmod_mul, sqmod_expi. unfold sqmod, expi. cbn. transitivity (/ 4 * (1 - 2 * sin t + (sin t * sin t + cos t * cos t)))%R; [field|]. rewrite E. field.
  - rewrite Ef. unfold sqmod, expi. cbn. transitivity (/ 4 * (1 + 2 * sin t + (sin t * sin t + cos t * cos t)))%R; [field|]. rewrite E. field.
Qed.

Lemma q2r_m2 : Q2R (-2) = (-2)%R. Proof. unfold Q2R. cbn. field. Qed.
Lemma q2r_2 : Q2R 2 = 2%R. Proof. unfold Q2R. cbn. field. Qed.
Lemma q2r_m1 : Q2R (-1) = (-1)%R. Proof. unfold Q2R. cbn. field. Qed.
Lemma q2r_1 : Q2R 1 = 1%R. Proof. unfold Q2R. cbn. field. Qed.

Section Cal.
Variable gmat : pystr -> list Q -> bits -> bits -> C.
Notation moves := (moves gmat).
Variables ty tx ax tc ac : R.
Hypothesis G : cal_gates gmat ty tx ax tc ac.

(** Amplitude of the single-qubit pulse. *)
Lemma mv_ry q t : moves [y90 q] q (ryv t) (ryv (t + ty)).
Proof.
  apply (moves_gate gmat _ _ _ _ _ (RtoC 1)); [apply sqmod_1|]. intros b. rewrite !(kg_y90 _ _ _ _ _ _ G). unfold rot, ryv. rewrite expi_PI2.
  assert (En : expi (- (PI / 2)) = Copp Ci). { unfold expi. rewrite cos_neg, sin_neg, cos_PI2, sin_PI2. apply injective_projections; cbn; ring. }
  rewrite En. replace ((t + ty) / 2)%R with (t / 2 + ty / 2)%R by field. rewrite cos_plus, sin_plus. assert (Ei : Cmult (Copp Ci) (Copp Ci) = Copp (RtoC 1)) by (apply injective_projections; cbn; ring).
  destruct b; apply injective_projections; cbn; ring.
Qed.
Lemma ampcal_block q x : moves (y90 q :: times x [CBarrier [q]; y90 q]) q ket0 (ryv (INR (x + 1) * ty)).
Proof.
  eapply moves_cons.
  - eapply moves_ext; [|reflexivity|apply (mv_ry q 0)]. intros b. unfold ryv, ket0. replace (0 / 2)%R with 0%R by field. rewrite sin_0, cos_0. destruct b; reflexivity.
  - eapply moves_ext; [| |apply (moves_times gmat x _ q (fun k => ryv (INR (k + 1) * ty)))].
    + intros b. f_equal. cbn. ring.
    + reflexivity.
    + intros k. apply moves_bar. eapply moves_ext; [reflexivity| |apply mv_ry]. intros b. f_equal. rewrite !plus_INR, (S_INR k). ring.
Qed.
Lemma ampcal_law N qs x : qubits_ok N qs -> outcome_law gmat N qs (ampcal_1Q_body qs x) (bernoulli ((1 - cos (INR (x + 1) * ty)) / 2)).
Proof.
  intros Hq. unfold ampcal_1Q_body.
  apply (block_law gmat N qs [] [] [] (fun q => y90 q :: times x [CBarrier [q]; y90 q]) (ryv (INR (x + 1) * ty)) _ (fun _ => ket0)); auto.
  - constructor.
  - constructor.
  - constructor.
  - intros q _. apply nm_cons; [reflexivity|]. apply nm_times. repeat constructor.
  - apply prod_ground.
  - intros q _. apply ket0_norm.
  - intros q _. apply ampcal_block.
  - intros b. apply sqmod_ryv.
  - unfold bernoulli. ring.
Qed.

(** Angles. *)
Lemma mv_eq0 q : ty = (PI / 2)%R -> moves [y90 q] q ket0 (eqv 0).
Proof.
  intros E. apply (moves_gate gmat _ _ _ _ _ (RtoC 1)); [apply sqmod_1|]. intros b. rewrite !(kg_y90 _ _ _ _ _ _ G), E. unfold rot, eqv. rewrite cos_PI4', sin_PI4', expi_0. fold hs. rewrite expi_PI2.
  assert (Ei : Cmult (Copp Ci) Ci = RtoC 1) by (apply injective_projections; cbn; ring).
  destruct b; cbn [ket0].
  - transitivity (Cmult (Cmult (Copp Ci) Ci) hs); [cbn; ring|]. rewrite Ei. ring.
  - cbn. ring.
Qed.
Lemma mv_u1 q p t : moves [gate1 "u1" [t] q] q (eqv p) (eqv (p + PI * Q2R t)).
Proof.
  apply (moves_gate gmat _ _ _ _ _ (RtoC 1)); [apply sqmod_1|]. intros b. rewrite !(kg_u1 _ _ _ _ _ _ G). unfold phase, eqv. destruct b; cbn [Bool.eqb]; rewrite ?expi_add; ring.
Qed.
Lemma mv_err q p err k : moves (u1_err err k q) q (eqv p) (eqv (p + Q2R k * (PI * Q2R err))).
Proof.
  unfold u1_err. destruct (Qeq_bool err 0) eqn:E.
  - apply Qeq_bool_iff in E. apply Qeq_eqR in E. eapply moves_ext; [reflexivity| |apply moves_nil]. intros b. f_equal. rewrite E. unfold Q2R. cbn. ring.
  - eapply moves_ext; [reflexivity| |apply mv_u1]. intros b. f_equal. rewrite Q2R_mult. ring.
Qed.
Lemma mv_twice q name ps th al p : (forall a b, gmat (str name) ps [a] [b] = rot th al a b) -> th = (PI / 2)%R ->
  moves (times 2 [CBarrier [q]; gate1 name ps q]) q (eqv p) (eqv (2 * al - p)).
Proof.
  intros H ->. exists (mul2 (rot (PI / 2) al) (rot (PI / 2) al)), (Cmult (Copp Ci) (expi (p - al))). split; [|split].
  - cbn. change ([op_of gmat {| gname := str name; gparams := ps; gqubits := [q] |}; op_of gmat {| gname := str name; gparams := ps; gqubits := [q] |}]) with
      ([op_of gmat {| gname := str name; gparams := ps; gqubits := [q] |}] ++ [op_of gmat {| gname := str name; gparams := ps; gqubits := [q] |}]).
    apply acts_app; eapply acts_ext; try apply acts_gate; intros a b; cbv beta; apply H.
  - rewrite sqmod_mul, sqmod_Ci, sqmod_expi. ring.
  - intros b. unfold col. rewrite !rot_add. replace (PI / 2 + PI / 2)%R with PI by field. apply rot_half.
Qed.
Lemma mv_last q p : tx = (PI / 2)%R -> moves [x90 q] q (eqv p) (qv ax p).
Proof.
  intros E. apply (moves_gate gmat _ _ _ _ _ (RtoC 1)); [apply sqmod_1|]. intros b. rewrite !(kg_x90 _ _ _ _ _ _ G), E. unfold qv. ring.
Qed.
Definition angle_end (reps : nat) (err : Q) : R := (INR reps * (PI - 2 * ax - 4 * (PI * Q2R err)) - PI * Q2R err)%R.
Lemma anglecal_block q reps err : ty = (PI / 2)%R -> tx = (PI / 2)%R ->
  moves (y90 q :: times reps (u1_err err (-2) q ++ times 2 [CBarrier [q]; x90 q] ++ u1_err err 2 q ++ times 2 [CBarrier [q]; y90 q]) ++ u1_err err (-1) q ++ [x90 q]) q
    ket0 (qv ax (angle_end reps err)).
Proof.
  intros Ey Ex. eapply moves_cons; [apply mv_eq0, Ey|]. eapply moves_app.
  - eapply moves_ext; [|reflexivity|apply (moves_times gmat reps _ q (fun k => eqv (INR k * (PI - 2 * ax - 4 * (PI * Q2R err)))))].
    + intros b. f_equal. cbn. ring.
    + intros k. eapply moves_app; [apply mv_err|]. eapply moves_app; [apply (mv_twice q "u2" _ tx ax _ (kg_x90 _ _ _ _ _ _ G) Ex)|].
      eapply moves_app; [apply mv_err|]. eapply moves_ext; [reflexivity| |apply (mv_twice q "u2" _ ty (PI / 2) _ (kg_y90 _ _ _ _ _ _ G) Ey)].
      intros b. f_equal. rewrite S_INR, q2r_m2, q2r_2. field.
  - eapply moves_app; [apply mv_err|]. eapply moves_ext; [reflexivity| |apply mv_last, Ex]. intros b. f_equal. unfold angle_end. rewrite q2r_m1. field.
Qed.
Lemma nm_err err k q : no_meas (u1_err err k q).
Proof. unfold u1_err. destruct (Qeq_bool _ _); repeat constructor. Qed.
Lemma anglecal_law N qs reps err : qubits_ok N qs -> ty = (PI / 2)%R -> tx = (PI / 2)%R ->
  outcome_law gmat N qs (anglecal_1Q_body qs reps err) (bernoulli ((1 - sin (angle_end reps err - ax)) / 2)).
Proof.
  intros Hq Ey Ex. unfold anglecal_1Q_body.
  match goal with |- context[flat_map ?b qs] => apply (block_law gmat N qs [] [] [] b (qv ax (angle_end reps err)) _ (fun _ => ket0)); auto end.
  - constructor.
  - constructor.
  - constructor.
  - intros q _. apply nm_cons; [reflexivity|]. apply nm_app; [apply nm_times|apply nm_app; [apply nm_err|repeat constructor]].
    apply nm_app; [apply nm_err|]. apply nm_app; [apply nm_times; repeat constructor|]. apply nm_app; [apply nm_err|apply nm_times; repeat constructor].
  - apply prod_ground.
  - intros q _. apply ket0_norm.
  - intros q _. apply anglecal_block; assumption.
  - intros b. apply sqmod_qv.
  - unfold bernoulli. ring.
Qed.

(** ** Two qubits: the control has been set to 1 *)
Notation ops body := (map (op_of gmat) (gates body)).
(** A block on the target [t] and the control [c], as long as [c] is surely 1. *)
Definition moves2 (body : list cinstr) (c t : nat) (u v : bool -> C) : Prop :=
  forall N psi f, c < N -> t < N -> c <> t -> f c = ket1 -> up_to_phase (f t) u -> is_prod N psi f ->
  exists g, up_to_phase g v /\ is_prod N (run (ops body) psi) (upd f t g).
Lemma moves2_one body c t u v : moves body t u v -> moves2 body c t u v.
Proof. intros H N psi f Hc Ht Hct Hf Hu Hp. apply (utp_move gmat body t f u v N psi); assumption. Qed.
Lemma upd_upd {A} (f : nat -> A) q g h j : upd (upd f q g) q h j = upd f q h j.
Proof. unfold upd. destruct (j =? q); reflexivity. Qed.
Lemma is_prod_ext N (psi : amp C) f g : (forall q b, q < N -> f q b = g q b) -> is_prod N psi f -> is_prod N psi g.
Proof. intros E H x Hx. rewrite (H x Hx). apply pst_ext. intros q b Hq. apply E. lia. Qed.
Lemma moves2_app b1 b2 c t u v w : moves2 b1 c t u v -> moves2 b2 c t v w -> moves2 (b1 ++ b2) c t u w.
Proof.
  intros H1 H2 N psi f Hc Ht Hct Hf Hu Hp. destruct (H1 N psi f Hc Ht Hct Hf Hu Hp) as (g & Hg & Hp1).
  destruct (H2 N _ _ Hc Ht Hct (eq_trans (upd_ne f t c g Hct) Hf) (eq_ind_r (fun z => up_to_phase z v) Hg (upd_eq f t g)) Hp1) as (g2 & Hg2 & Hp2).
  exists g2. split; [exact Hg2|]. rewrite gates_app, map_app, run_app. apply (is_prod_ext N _ (upd (upd f t g) t g2)); [|exact Hp2]. intros q b _. rewrite upd_upd. reflexivity.
Qed.
Lemma moves2_ext body c t u v u' v' : (forall b, u b = u' b) -> (forall b, v b = v' b) -> moves2 body c t u v -> moves2 body c t u' v'.
Proof.
  intros Eu Ev H N psi f Hc Ht Hct Hf (k & Hk & E) Hp. destruct (H N psi f Hc Ht Hct Hf) as (g & (k' & Hk' & Hg) & A); auto; [exists k; split; auto; intros b; rewrite E, Eu; reflexivity|].
  exists g. split; [|exact A]. exists k'. split; [exact Hk'|]. intros b. rewrite Hg, Ev. reflexivity.
Qed.
Lemma moves2_times n body c t (v : nat -> bool -> C) : (forall k, moves2 body c t (v k) (v (S k))) -> moves2 (times n body) c t (v 0) (v n).
Proof.
  intros H. assert (K : forall n k, moves2 (times n body) c t (v k) (v (k + n))); [|apply (K n 0)].
  induction n0 as [|m IH]; intros k; [rewrite Nat.add_0_r; apply moves2_one, moves_nil|]. unfold times. cbn [repeat concat]. apply (moves2_app _ _ _ _ _ (v (S k))); [apply H|].
  replace (k + S m) with (S k + m) by lia. apply IH.
Qed.
Lemma moves2_cx c t k u v : sqmod k = 1%R -> (forall b, Cmult Ci (Cplus (Cmult (rot tc ac b false) (u false)) (Cmult (rot tc ac b true) (u true))) = Cmult k (v b)) ->
  moves2 [CBarrier [c; t]; gate2 "cx" c t] c t u v.
Proof.
  intros Hk E N psi f Hc Ht Hct Hf (k' & Hk' & E') Hp. exists (col (fun a b => Cmult Ci (rot tc ac a b)) (f t)). split.
  - exists (Cmult k' k). split; [rewrite sqmod_mul, Hk, Hk'; ring|]. intros b. unfold col. cbn. rewrite !E'. transitivity (Cmult k' (Cmult k (v b))); [rewrite <- E; ring|ring].
  - cbn [gates flat_map app map run]. apply (prod_control N psi f gmat (str "cx") c t (fun a b => Cmult Ci (rot tc ac a b))); auto. apply (kg_cx _ _ _ _ _ _ G).
Qed.
Lemma mv_cx01 c : moves [gate1 "x" [] c] c ket0 ket1.
Proof. apply (moves_gate gmat _ _ _ _ _ (RtoC 1)); [apply sqmod_1|]. intros b. rewrite !(kg_x _ _ _ _ _ _ G). destruct b; cbn; ring. Qed.

(** The state after the blocks of all the pairs. *)
Lemma pairs_prod N (tb : nat -> nat -> list cinstr) v qcs :
  NoDup (map fst qcs ++ map snd qcs) -> Forall (fun q => q < N) (map fst qcs ++ map snd qcs) -> (forall q c, moves2 (tb q c) c q ket0 v) ->
  forall psi f, is_prod N psi f -> (forall q, In q (map fst qcs ++ map snd qcs) -> f q = ket0) ->
  exists f', is_prod N (run (ops (flat_map (fun qc => gate1 "x" [] (snd qc) :: tb (fst qc) (snd qc)) qcs)) psi) f' /\
    (forall q, In q (map fst qcs) -> up_to_phase (f' q) v) /\ (forall c, In c (map snd qcs) -> f' c = ket1) /\
    forall q, ~ In q (map fst qcs ++ map snd qcs) -> f' q = f q.
Proof.
  induction qcs as [|[q c] qcs IH]; intros Hn Hlt Hm psi f Hp Hf; cbn [map fst snd flat_map].
  - exists f. split; [exact Hp|]. split; [intros q []|]. split; [intros c []|reflexivity].
  - cbn [map fst snd app] in Hn, Hlt. assert (Hcin : In c (map fst qcs ++ c :: map snd qcs)) by (apply in_app_iff; right; left; reflexivity).
    apply NoDup_cons_iff in Hn. destruct Hn as [Hq Hn]. assert (Hqc : c <> q) by (intros ->; contradiction).
    apply NoDup_remove in Hn. destruct Hn as [Hn Hc].
    assert (Lq : q < N) by (inversion Hlt; assumption). assert (Lc : c < N). { rewrite Forall_forall in Hlt. apply Hlt. right. exact Hcin. }
    assert (Hlt' : Forall (fun q => q < N) (map fst qcs ++ map snd qcs)). { rewrite Forall_forall in Hlt |- *. intros j Hj. apply Hlt. right. apply in_app_iff in Hj. apply in_app_iff. destruct Hj; [left|right; right]; assumption. }
    assert (Hsub : forall j, In j (map fst qcs ++ map snd qcs) -> In j (map fst ((q, c) :: qcs) ++ map snd ((q, c) :: qcs))).
    { intros j Hj. cbn [map fst snd app]. right. apply in_app_iff in Hj. apply in_app_iff. destruct Hj; [left|right; right]; assumption. }
    assert (Hq' : ~ In q (map fst qcs ++ map snd qcs)). { intros Hi. apply Hq. apply in_app_iff in Hi. apply in_app_iff. destruct Hi; [left|right; right]; assumption. }
    cbn [app]. change (gate1 "x" [] c :: tb q c ++ flat_map (fun qc => gate1 "x" [] (snd qc) :: tb (fst qc) (snd qc)) qcs) with ([gate1 "x" [] c] ++ tb q c ++ flat_map (fun qc => gate1 "x" [] (snd qc) :: tb (fst qc) (snd qc)) qcs).
    rewrite !gates_app, !map_app, !run_app.
    assert (P1 : is_prod N (run (ops [gate1 "x" [] c]) psi) (upd f c ket1)).
    { pose proof (prod_acts N psi f c (ops [gate1 "x" [] c]) (fun a b => gmat (str "x") [] [a] [b]) Lc (acts_gate gmat (str "x") [] c) Hp) as P. apply (is_prod_ext N _ (upd f c (col (fun a b => gmat (str "x") [] [a] [b]) (f c)))); [|exact P].
      intros j b _. unfold upd. destruct (j =? c); [|reflexivity]. rewrite (Hf c) by (cbn [map fst snd app]; right; exact Hcin). unfold col. rewrite !(kg_x _ _ _ _ _ _ G). destruct b; cbn; ring. }
    destruct (Hm q c N (run (ops [gate1 "x" [] c]) psi) (upd f c ket1) Lc Lq Hqc) as (g & Hg & P2); [apply upd_eq| |exact P1|].
    { rewrite upd_ne by congruence. rewrite Hf by (cbn; left; reflexivity). apply utp_refl. }
    destruct (IH Hn Hlt' Hm _ _ P2) as (f' & A & B & D & E).
    { intros j Hj. rewrite upd_ne by (intros ->; contradiction). rewrite upd_ne by (intros ->; contradiction). apply Hf, Hsub, Hj. }
    exists f'. split; [exact A|]. split; [|split].
    + intros j [<-|Hj]; [|apply B; exact Hj]. rewrite E by exact Hq'. rewrite upd_eq. exact Hg.
    + intros j [<-|Hj]; [|apply D; exact Hj]. rewrite E by exact Hc. rewrite upd_ne by exact Hqc. apply upd_eq.
    + intros j Hj. rewrite E by (intros Hi; apply Hj; apply in_app_iff in Hi; right; apply in_app_iff; destruct Hi; [left|right; right]; assumption).
      rewrite upd_ne by (intros ->; apply Hj; left; reflexivity). apply upd_ne. intros ->. apply Hj. right. exact Hcin.
Qed.
Lemma pairs_law N (tb : nat -> nat -> list cinstr) v w qcs :
  qubits_ok N (map fst qcs ++ map snd qcs) -> (forall q c, moves2 (tb q c) c q ket0 v) -> (forall q c, no_meas (tb q c)) ->
  (forall b, sqmod (v b) = w b) -> (w false + w true = 1)%R ->
  outcome_law gmat N (map fst qcs) (flat_map (fun qc => gate1 "x" [] (snd qc) :: tb (fst qc) (snd qc)) qcs ++ measure_list (map fst qcs)) w.
Proof.
  intros [Hn Hlt] Hm Hnm Hw Hw1. destruct (pairs_prod N tb v qcs Hn Hlt Hm _ (fun _ => ket0) (prod_ground N)) as (f & A & B & D & E); [reflexivity|].
  apply (law_of gmat N (map fst qcs) _ f v w); auto.
  - split; [|apply Forall_app in Hlt; apply Hlt]. clear - Hn. induction (map fst qcs) as [|q l IH]; [constructor|]. cbn in Hn. apply NoDup_cons_iff in Hn. destruct Hn as [H1 H2]. constructor; [|apply IH; exact H2]. intros Hi. apply H1. apply in_app_iff. left. exact Hi.
  - apply Forall_forall. intros i Hi. apply in_flat_map in Hi. destruct Hi as ([q c] & _ & [<-|Hi]); [reflexivity|]. specialize (Hnm q c). unfold no_meas in Hnm. rewrite Forall_forall in Hnm. apply Hnm. exact Hi.
  - intros q Hq. destruct (in_dec Nat.eq_dec q (map fst qcs)) as [Hi|Hi].
    + rewrite (utp_sqmod (f q) v false), (utp_sqmod (f q) v true) by (apply B; exact Hi). rewrite !Hw. exact Hw1.
    + destruct (in_dec Nat.eq_dec q (map snd qcs)) as [Hi'|Hi']; [rewrite D by exact Hi'; apply ket1_norm|]. rewrite E by (rewrite in_app_iff; tauto). apply ket0_norm.
Qed.

(** Amplitude of cx. *)
Lemma mv_rx0 q : tx = (PI / 2)%R -> ax = 0%R -> moves [x90 q] q ket0 (rxv (PI / 2)).
Proof.
  intros Ex Ea. apply (moves_gate gmat _ _ _ _ _ (RtoC 1)); [apply sqmod_1|]. intros b. rewrite !(kg_x90 _ _ _ _ _ _ G), Ex, Ea. unfold rot, rxv. rewrite expi_0. destruct b; cbn; ring.
Qed.
Lemma ampcx_block q c reps : tx = (PI / 2)%R -> ax = 0%R -> ac = 0%R ->
  moves2 (x90 q :: times reps [CBarrier [c; q]; gate2 "cx" c q]) c q ket0 (rxv (PI / 2 + INR reps * tc)).
Proof.
  intros Ex Ea Ec. apply (moves2_app [x90 q] _ c q _ (rxv (PI / 2))); [apply moves2_one, mv_rx0; assumption|].
  eapply moves2_ext; [| |apply (moves2_times reps _ c q (fun k => rxv (PI / 2 + INR k * tc)))].
  - intros b. f_equal. cbn. ring.
  - reflexivity.
  - intros k. apply (moves2_cx c q Ci); [apply sqmod_Ci'|]. intros b. rewrite Ec. unfold rot, rxv. rewrite Ropp_0, expi_0. rewrite S_INR.
    replace ((PI / 2 + (INR k + 1) * tc) / 2)%R with ((PI / 2 + INR k * tc) / 2 + tc / 2)%R by field. rewrite cos_plus, sin_plus. destruct b; apply injective_projections; cbn; ring.
Qed.
Lemma ampcx_law N qcs reps : qubits_ok N (map fst qcs ++ map snd qcs) -> tx = (PI / 2)%R -> ax = 0%R -> ac = 0%R ->
  outcome_law gmat N (map fst qcs) (ampcal_cx_body qcs reps) (bernoulli ((1 - cos (PI / 2 + INR reps * tc)) / 2)).
Proof.
  intros Hq Ex Ea Ec. unfold ampcal_cx_body.
  replace (flat_map (fun qc : nat * nat => let (q, c) := qc in gate1 "x" [] c :: x90 q :: times reps [CBarrier [c; q]; gate2 "cx" c q]) qcs)
    with (flat_map (fun qc : nat * nat => gate1 "x" [] (snd qc) :: (x90 (fst qc) :: times reps [CBarrier [snd qc; fst qc]; gate2 "cx" (snd qc) (fst qc)])) qcs)
    by (apply flat_map_ext; intros [q c]; reflexivity).
  apply (pairs_law N (fun q c => x90 q :: times reps [CBarrier [c; q]; gate2 "cx" c q]) (rxv (PI / 2 + INR reps * tc))); auto.
  - intros q c. apply ampcx_block; assumption.
  - intros q c. apply nm_cons; [reflexivity|]. apply nm_times. repeat constructor.
  - intros b. apply sqmod_rxv.
  - unfold bernoulli. ring.
Qed.

(** Angle of cx. *)
Lemma mv_yy q p : moves [gate1 "y" [] q] q (eqv p) (eqv (PI - p)).
Proof.
  apply (moves_gate gmat _ _ _ _ _ (Cmult (Copp Ci) (expi p))); [rewrite sqmod_mul, sqmod_Ci, sqmod_expi; ring|]. intros b. rewrite !(kg_y _ _ _ _ _ _ G). unfold eqv.
  assert (E : Cmult (expi p) (expi (PI - p)) = Copp (RtoC 1)) by (rewrite <- expi_add; replace (p + (PI - p))%R with PI by ring; apply expi_PI).
  destruct b; cbn [Bool.eqb].
  - transitivity (Cmult (Copp Ci) (Cmult hs (Cmult (expi p) (expi (PI - p))))); [rewrite E|]; ring.
  - ring.
Qed.
Definition cx_end (reps : nat) (err : Q) : R := (INR reps * (PI - 2 * (ac + PI * Q2R err)))%R.
Lemma anglecx_block q c reps err : ty = (PI / 2)%R -> tx = (PI / 2)%R -> tc = PI ->
  moves2 (y90 q :: times reps (u1_err err (-1) q ++ [CBarrier [c; q]; gate2 "cx" c q] ++ u1_err err 1 q ++ [gate1 "y" [] q]) ++ [x90 q]) c q
    ket0 (qv ax (cx_end reps err)).
Proof.
  intros Ey Ex Ec. apply (moves2_app [y90 q] _ c q _ (eqv 0)); [apply moves2_one, mv_eq0, Ey|]. apply (moves2_app _ _ c q _ (eqv (cx_end reps err))); [|apply moves2_one, mv_last, Ex].
  eapply moves2_ext; [| |apply (moves2_times reps _ c q (fun k => eqv (cx_end k err)))].
  - intros b. f_equal. unfold cx_end. cbn. ring.
  - reflexivity.
  - intros k. eapply moves2_app; [apply moves2_one, mv_err|]. eapply moves2_app.
    { eapply (moves2_cx c q (Cmult Ci (Cmult (Copp Ci) (expi (cx_end k err + Q2R (-1) * (PI * Q2R err) - ac))))); [rewrite !sqmod_mul, sqmod_Ci, sqmod_Ci', sqmod_expi; ring|].
      intros b. rewrite Ec, rot_half. rewrite Cmult_assoc. reflexivity. }
    eapply moves2_app; [apply moves2_one, mv_err|]. apply moves2_one. eapply moves_ext; [reflexivity| |apply mv_yy]. intros b. f_equal. unfold cx_end. rewrite S_INR. rewrite q2r_m1, q2r_1. field.
Qed.
Lemma anglecx_law N qcs reps err : qubits_ok N (map fst qcs ++ map snd qcs) -> ty = (PI / 2)%R -> tx = (PI / 2)%R -> tc = PI ->
  outcome_law gmat N (map fst qcs) (anglecal_cx_body qcs reps err) (bernoulli ((1 - sin (cx_end reps err - ax)) / 2)).
Proof.
  intros Hq Ey Ex Ec. unfold anglecal_cx_body.
  set (tb := fun q c => y90 q :: times reps (u1_err err (-1) q ++ [CBarrier [c; q]; gate2 "cx" c q] ++ u1_err err 1 q ++ [gate1 "y" [] q]) ++ [x90 q]).
  match goal with |- context[flat_map ?b qcs] => replace (flat_map b qcs) with (flat_map (fun qc : nat * nat => gate1 "x" [] (snd qc) :: tb (fst qc) (snd qc)) qcs) by (apply flat_map_ext; intros [q c]; reflexivity) end.
  apply (pairs_law N tb (qv ax (cx_end reps err))); auto.
  - intros q c. apply anglecx_block; assumption.
  - intros q c. unfold tb. apply nm_cons; [reflexivity|]. apply nm_app; [|repeat constructor]. apply nm_times. apply nm_app; [apply nm_err|]. apply nm_app; [repeat constructor|]. apply nm_app; [apply nm_err|repeat constructor].
  - intros b. apply sqmod_qv.
  - unfold bernoulli. ring.
Qed.
End Cal.
