(** The coherence circuits (C53). *)
From Coq Require Import QArith Reals Lra.
From Coquelicot Require Import Coquelicot.
From Verif Require Import Base LinAlg QSem PyStr DihedralModel RBSeqModel RBSeqSpec StdGates AccSpec AccLayerProofs EmbedProofs TomoFitSpec TomoLayerProofs.
From Verif Require Import EntSpec CtmpSpec EntMqcProofs CharModel CharSpec CharProdProofs CharCircProofs.
Local Open Scope list_scope.
Local Open Scope nat_scope.

(** States of a qubit. *)
Definition eqv (p : R) (b : bool) : C := Cmult hs (if b then expi p else RtoC 1).
(** The two last gates, h and U2(0,0), on such a state. *)
Definition hv (p : R) (b : bool) : C := Cmult (RtoC (/ 2)) (if b then Cminus (RtoC 1) (expi p) else Cplus (RtoC 1) (expi p)).
Lemma sqmod_hv p b : sqmod (hv p b) = bernoulli ((1 - cos p) / 2) b.
Proof.
  pose proof (sin2_cos2 p) as E. unfold Rsqr in E. unfold sqmod, hv, expi. destruct b; cbn.
  - transitivity (/ 4 * (1 - 2 * cos p + (sin p * sin p + cos p * cos p)))%R; [field|]. rewrite E. field.
  - transitivity (/ 4 * (1 + 2 * cos p + (sin p * sin p + cos p * cos p)))%R; [field|]. rewrite E. field.
Qed.

Section Ideal.
Variable gmat : pystr -> list Q -> bits -> bits -> C.
Variable omega : R.
Hypothesis G : char_gates gmat omega.
Notation moves := (moves gmat).

Lemma mv_phase name ps q p t : (forall a b, gmat (str name) ps [a] [b] = phase t a b) -> moves [gate1 name ps q] q (eqv p) (eqv (p + t)).
Proof.
  intros H. apply (moves_gate gmat _ _ _ _ _ (RtoC 1)); [apply sqmod_1|]. intros b. rewrite !H. unfold phase, eqv. destruct b; cbn [Bool.eqb]; rewrite ?expi_add; ring.
Qed.
Lemma mv_phase1 name ps q t : (forall a b, gmat (str name) ps [a] [b] = phase t a b) -> moves [gate1 name ps q] q ket1 ket1.
Proof.
  intros H. apply (moves_gate gmat _ _ _ _ _ (expi t)); [apply sqmod_expi|]. intros b. rewrite !H. unfold phase, ket1. destruct b; cbn [Bool.eqb]; cbn; ring.
Qed.
Lemma mv_pad q p len : moves (pad_id q len) q (eqv p) (eqv (p + INR len * omega)).
Proof.
  unfold pad_id. apply (moves_app gmat _ _ _ _ (eqv (p + INR len * omega))); [|apply moves_bar, moves_nil].
  apply (moves_ext gmat _ _ (eqv (p + INR 0 * omega)) (eqv (p + INR len * omega))); [intros b; cbn [INR]; f_equal; ring|reflexivity|].
  apply (moves_times gmat len _ q (fun k => eqv (p + INR k * omega))). intros k. apply moves_bar.
  apply (moves_ext gmat _ _ (eqv (p + INR k * omega)) (eqv (p + INR k * omega + omega))); [reflexivity|intros b; rewrite S_INR; f_equal; ring|].
  apply mv_phase. apply (cg_id _ _ G).
Qed.
Lemma mv_pad1 q len : moves (pad_id q len) q ket1 ket1.
Proof.
  unfold pad_id. apply (moves_app gmat _ _ _ _ ket1); [|apply moves_bar, moves_nil]. apply (moves_times gmat len _ q (fun _ => ket1)). intros _. apply moves_bar.
  apply (mv_phase1 _ _ _ omega). apply (cg_id _ _ G).
Qed.
Lemma mv_x01 q : moves [gate1 "x" [] q] q ket0 ket1.
Proof.
  apply (moves_gate gmat _ _ _ _ _ (RtoC 1)); [apply sqmod_1|]. intros b. rewrite !(sg_x _ _ _ (cg_std _ _ G)). destruct b; cbn; ring.
Qed.
Lemma mv_h0 q : moves [gate1 "h" [] q] q ket0 (eqv 0).
Proof.
  apply (moves_gate gmat _ _ _ _ _ (RtoC 1)); [apply sqmod_1|]. intros b. rewrite !(sg_h _ _ _ (cg_std _ _ G)). unfold eqv. rewrite expi_0. unfold hs. destruct b; cbn; ring.
Qed.
Lemma mv_h q p : moves [gate1 "h" [] q] q (eqv p) (hv p).
Proof.
  apply (moves_gate gmat _ _ _ _ _ (RtoC 1)); [apply sqmod_1|]. intros b. rewrite !(sg_h _ _ _ (cg_std _ _ G)). unfold eqv, hv. fold hs. rewrite <- hs_sq. destruct b; cbn; ring.
Qed.
Lemma u2_00 a b : gmat (str "u2") [0%Q; 0%Q] [a] [b] = Cmult hs (if a then RtoC 1 else if b then Copp (RtoC 1) else RtoC 1).
Proof.
  rewrite (cg_u2 _ _ G). fold hs. replace (Q2R 0) with 0%R by (unfold Q2R; cbn; lra). rewrite Rplus_0_r, Rmult_0_r, expi_0. destruct a, b; reflexivity.
Qed.
Lemma mv_y90_0 q : moves [gate1 "u2" [0%Q; 0%Q] q] q ket0 (eqv 0).
Proof.
  apply (moves_gate gmat _ _ _ _ _ (RtoC 1)); [apply sqmod_1|]. intros b. rewrite !u2_00. unfold eqv. rewrite expi_0. destruct b; cbn; ring.
Qed.
Lemma mv_y90 q p : moves [gate1 "u2" [0%Q; 0%Q] q] q (eqv p) (fun b => hv p (negb b)).
Proof.
  apply (moves_gate gmat _ _ _ _ _ (RtoC 1)); [apply sqmod_1|]. intros b. rewrite !u2_00. unfold eqv, hv. rewrite <- hs_sq. destruct b; cbn [negb]; ring.
Qed.
Lemma mv_x q p : moves [gate1 "x" [] q] q (eqv p) (eqv (- p)).
Proof.
  apply (moves_gate gmat _ _ _ _ _ (expi p)); [apply sqmod_expi|]. intros b. rewrite !(sg_x _ _ _ (cg_std _ _ G)). unfold eqv. destruct b; cbn.
  - transitivity (Cmult hs (Cmult (expi p) (expi (- p)))); [rewrite expi_inv|]; ring.
  - ring.
Qed.
Lemma mv_y q p : moves [gate1 "y" [] q] q (eqv p) (eqv (PI - p)).
Proof.
  apply (moves_gate gmat _ _ _ _ _ (Cmult (Copp Ci) (expi p))); [rewrite sqmod_mul, sqmod_Ci, sqmod_expi; ring|]. intros b. rewrite !(cg_y _ _ G). unfold eqv.
  assert (E : Cmult (expi p) (expi (PI - p)) = Copp (RtoC 1)) by (rewrite <- expi_add; replace (p + (PI - p))%R with PI by ring; apply expi_PI).
  destruct b; cbn [Bool.eqb].
  - transitivity (Cmult (Copp Ci) (Cmult hs (Cmult (expi p) (expi (PI - p))))); [rewrite E|]; ring.
  - ring.
Qed.

(** T1 *)
Lemma t1_block q len : moves (gate1 "x" [] q :: pad_id q len) q ket0 ket1.
Proof. eapply moves_cons; [apply mv_x01|apply mv_pad1]. Qed.
(** Ramsey *)
Lemma ramsey_block q len t : moves (ramsey q len t) q ket0 (hv (INR len * omega + PI * Q2R t)).
Proof.
  unfold ramsey. eapply moves_cons; [apply mv_h0|]. eapply moves_app; [apply mv_pad|]. eapply moves_cons; [apply mv_phase, (cg_u1 _ _ G)|].
  eapply moves_ext; [reflexivity| |apply mv_h]. intros b. f_equal. ring.
Qed.
(** Echoes: the azimuth [theta] left when the last delay has passed, as a
    function of the further echo gates. *)
Definition is_y (alt : bool) (echoid : nat) : bool := negb (alt && (echoid mod 2 =? 0)).
Fixpoint azimuth (alt : bool) (ids : list nat) (theta : R) : R :=
  match ids with [] => theta | e :: ids' => azimuth alt ids' (if is_y alt e then PI - theta else - theta)%R end.
Lemma echoes q len alt ids theta :
  moves (flat_map (fun echoid => pad_id q (2 * len) ++ [echo_gate alt echoid q]) ids) q (eqv (theta - INR len * omega)) (eqv (azimuth alt ids theta - INR len * omega)).
Proof.
  revert theta. induction ids as [|e ids IH]; intros theta; [apply moves_nil|]. cbn [flat_map azimuth]. eapply moves_app; [|apply IH]. eapply moves_app; [apply mv_pad|].
  unfold echo_gate, is_y. destruct (alt && (e mod 2 =? 0)); cbn [negb].
  - eapply moves_ext; [reflexivity| |apply mv_x]. intros b. f_equal. rewrite mult_INR. cbn [INR]. ring.
  - eapply moves_ext; [reflexivity| |apply mv_y]. intros b. f_equal. rewrite mult_INR. cbn [INR]. ring.
Qed.
Lemma cos_azimuth alt ids theta : cos (azimuth alt ids theta) = (if Nat.even (length (filter (is_y alt) ids)) then cos theta else - cos theta)%R.
Proof.
  revert theta. induction ids as [|e ids IH]; intros theta; [reflexivity|]. cbn [azimuth filter]. rewrite IH. destruct (is_y alt e).
  - cbn [length]. rewrite Nat.even_succ, <- Nat.negb_even. rewrite Rtrigo_facts.cos_pi_minus. destruct (Nat.even _); cbn [negb]; lra.
  - rewrite cos_neg. reflexivity.
Qed.
(** The number of Y echoes after the first one. *)
Lemma count_y alt n : length (filter (is_y alt) (seq 0 n)) = if alt then n / 2 else n.
Proof.
  assert (A : forall k l, filter (is_y alt) (seq (k + k) (l + l)) = if alt then map (fun j => 2 * j + 1) (seq k l) else seq (k + k) (l + l)).
  { destruct alt.
    - intros k l. revert k. induction l as [|l IH]; intros k; [reflexivity|]. replace (S l + S l) with (S (S (l + l))) by lia. cbn [seq filter map].
      assert (E0 : is_y true (k + k) = false). { unfold is_y. replace (k + k) with (k * 2) by lia. rewrite Nat.mod_mul by lia. reflexivity. }
      assert (E1 : is_y true (S (k + k)) = true). { unfold is_y. replace (S (k + k)) with (1 + k * 2) by lia. rewrite Nat.mod_add by lia. reflexivity. }
      rewrite E0, E1. replace (S (S (k + k))) with (S k + S k) by lia. rewrite IH. f_equal. lia.
    - intros k l. unfold is_y. cbn [andb negb]. generalize (seq (k + k) (l + l)). induction l0; cbn; f_equal; auto. }
  destruct (Nat.Even_or_Odd n) as [[m ->]|[m ->]].
  - replace (2 * m) with (m + m) by lia. specialize (A 0 m). cbn [Nat.add] in A. rewrite A. destruct alt; [rewrite map_length, seq_length; replace (m + m) with (m * 2) by lia; rewrite Nat.div_mul by lia; reflexivity|apply seq_length].
  - replace (2 * m + 1) with (m + m + 1) by lia. rewrite seq_app, filter_app, app_length. specialize (A 0 m). cbn [Nat.add] in A. rewrite A. cbn [seq filter]. rewrite Nat.add_0_l.
    destruct alt.
    + assert (E0 : is_y true (m + m) = false). { unfold is_y. replace (m + m) with (m * 2) by lia. rewrite Nat.mod_mul by lia. reflexivity. }
      rewrite E0, map_length, seq_length. replace (m + m + 1) with (1 + m * 2) by lia. rewrite Nat.div_add by lia. cbn. lia.
    + unfold is_y. cbn [andb negb length]. rewrite seq_length. reflexivity.
Qed.
Definition echo_ys (n_echos : nat) (alt : bool) : nat := if alt then 1 + (n_echos - 1) / 2 else n_echos.
Lemma echo_block len n alt : 1 <= n -> exists theta, cos theta = (if Nat.even (echo_ys n alt) then 1 else -1)%R /\ forall q, moves (echo q len n alt) q ket0 (fun b => hv theta (negb b)).
Proof.
  intros Hn. exists (azimuth alt (seq 0 (n - 1)) PI). split.
  - rewrite cos_azimuth, count_y, cos_PI. unfold echo_ys. destruct alt.
    + replace (1 + (n - 1) / 2) with (S ((n - 1) / 2)) by lia. rewrite Nat.even_succ, <- Nat.negb_even. destruct (Nat.even _); cbn [negb]; lra.
    + destruct n as [|n]; [lia|]. replace (S n - 1) with n by lia. rewrite Nat.even_succ, <- Nat.negb_even. destruct (Nat.even _); cbn [negb]; lra.
  - intros q. unfold echo. eapply moves_cons; [apply mv_y90_0|]. eapply moves_app; [apply mv_pad|]. eapply moves_app; [apply mv_y|].
    eapply moves_app. { eapply moves_ext; [|reflexivity|apply (echoes q len alt (seq 0 (n - 1)) PI)]. intros b. f_equal. ring. }
    eapply moves_app; [apply mv_pad|]. eapply moves_ext; [|reflexivity|apply mv_y90]. intros b. f_equal. ring.
Qed.

(** Distributions of whole circuits: single-qubit blocks on [qs], after [specs]
    were flipped or not. *)
Definition no_meas (body : list cinstr) : Prop := Forall (fun i => is_measure i = false) body.
Lemma block_law N qs (pre mid post : list cinstr) (blk : nat -> list cinstr) v w f :
  qubits_ok N qs -> gates mid = [] -> gates post = [] -> no_meas pre -> no_meas mid -> no_meas post -> (forall q, In q qs -> no_meas (blk q)) ->
  is_prod N (run (map (op_of gmat) (gates pre)) (ground N)) f -> (forall q, In q qs -> f q = ket0) ->
  (forall q, q < N -> (sqmod (f q false) + sqmod (f q true) = 1)%R) ->
  (forall q, In q qs -> moves (blk q) q ket0 v) -> (forall b, sqmod (v b) = w b) -> (w false + w true = 1)%R ->
  outcome_law gmat N qs (pre ++ mid ++ flat_map blk qs ++ post ++ measure_list qs) w.
Proof.
  intros Hq Hm Hpo N1 N2 N3 N4 Hp Hf Hs Hb Hw Hw1. pose proof Hq as [Hnd Hlt].
  destruct (layer gmat N blk qs ket0 v Hnd Hlt Hb _ f Hp) as (f' & A & B & D).
  { intros q Hi. rewrite Hf by exact Hi. apply utp_refl. }
  replace (pre ++ mid ++ flat_map blk qs ++ post ++ measure_list qs) with ((pre ++ mid ++ flat_map blk qs ++ post) ++ measure_list qs) by (rewrite <- !app_assoc; reflexivity).
  apply (law_of gmat N qs _ f' v w); auto.
  - apply Forall_app. split; [exact N1|]. apply Forall_app. split; [exact N2|]. apply Forall_app. split; [|exact N3].
    apply Forall_forall. intros i Hi. apply in_flat_map in Hi. destruct Hi as (q & Hi & Hi'). specialize (N4 q Hi). unfold no_meas in N4. rewrite Forall_forall in N4. auto.
  - rewrite !gates_app, Hm, Hpo. cbn [app]. rewrite app_nil_r, map_app, run_app. exact A.
  - intros q Hql. destruct (in_dec Nat.eq_dec q qs) as [Hi|Hi].
    + rewrite (utp_sqmod (f' q) v false), (utp_sqmod (f' q) v true) by (apply B; exact Hi). rewrite !Hw. exact Hw1.
    + rewrite D by exact Hi. apply Hs. exact Hql.
Qed.
Lemma ket0_norm : (sqmod (ket0 false) + sqmod (ket0 true) = 1)%R.
Proof. unfold sqmod, ket0. cbn. ring. Qed.
Lemma ket1_norm : (sqmod (ket1 false) + sqmod (ket1 true) = 1)%R.
Proof. unfold sqmod, ket1. cbn. ring. Qed.

Lemma nm_times k body : no_meas body -> no_meas (times k body).
Proof. intros H. unfold times, no_meas. apply Forall_concat. apply Forall_forall. intros l Hl. apply repeat_spec in Hl. subst l. exact H. Qed.
Lemma nm_pad q k : no_meas (pad_id q k).
Proof. unfold pad_id. apply Forall_app. split; [apply nm_times; repeat constructor|repeat constructor]. Qed.
Lemma nm_cons i body : is_measure i = false -> no_meas body -> no_meas (i :: body).
Proof. intros; constructor; assumption. Qed.
Lemma nm_app a b : no_meas a -> no_meas b -> no_meas (a ++ b).
Proof. intros; apply Forall_app; split; assumption. Qed.

Lemma t1_law N qs n len : qubits_ok N qs -> outcome_law gmat N qs (t1_body qs n len) (certain true).
Proof.
  intros Hq. unfold t1_body. apply (block_law N qs [] [] [CBarrier (seq 0 n)] (fun q => gate1 "x" [] q :: pad_id q len) ket1 _ (fun _ => ket0)); auto.
  - constructor.
  - constructor.
  - repeat constructor.
  - intros q _. apply nm_cons; [reflexivity|apply nm_pad].
  - apply prod_ground.
  - intros q _. apply ket0_norm.
  - intros q _. apply t1_block.
  - intros b. unfold sqmod, ket1, certain. destruct b; cbn; ring.
  - unfold certain. cbn. ring.
Qed.
Definition ramsey_law (len : nat) (t : Q) (b : bool) : R := bernoulli ((1 - cos (INR len * omega + PI * Q2R t)) / 2) b.
Lemma nm_ramsey q len t : no_meas (ramsey q len t).
Proof. unfold ramsey. apply nm_cons; [reflexivity|]. apply nm_app; [apply nm_pad|repeat constructor]. Qed.
Lemma t2star_law N qs n len t : qubits_ok N qs -> outcome_law gmat N qs (t2star_body qs n len t) (ramsey_law len t).
Proof.
  intros Hq. unfold t2star_body. apply (block_law N qs [] [] [CBarrier (seq 0 n)] (fun q => ramsey q len t) (hv (INR len * omega + PI * Q2R t)) _ (fun _ => ket0)); auto.
  - constructor.
  - constructor.
  - repeat constructor.
  - intros q _. apply nm_ramsey.
  - apply prod_ground.
  - intros q _. apply ket0_norm.
  - intros q _. apply ramsey_block.
  - intros b. apply sqmod_hv.
  - unfold ramsey_law, bernoulli. ring.
Qed.
Lemma t2_law N qs n len n_echos alt : qubits_ok N qs -> 1 <= n_echos -> outcome_law gmat N qs (t2_body qs n len n_echos alt) (certain (Nat.even (echo_ys n_echos alt))).
Proof.
  intros Hq He. unfold t2_body. destruct (echo_block len n_echos alt He) as (theta & E & Hb).
  apply (block_law N qs [] [] [CBarrier (seq 0 n)] (fun q => echo q len n_echos alt) (fun b => hv theta (negb b)) _ (fun _ => ket0)); auto.
  - constructor.
  - constructor.
  - repeat constructor.
  - intros q _. unfold echo. apply nm_cons; [reflexivity|]. apply nm_app; [apply nm_pad|]. apply nm_app; [repeat constructor|]. apply nm_app; [|apply nm_app; [apply nm_pad|repeat constructor]].
    apply Forall_forall. intros i Hi. apply in_flat_map in Hi. destruct Hi as (e & _ & Hi). apply in_app_iff in Hi. destruct Hi as [Hi|[<-|[]]].
    + pose proof (nm_pad q (2 * len)) as Hp. unfold no_meas in Hp. rewrite Forall_forall in Hp. auto.
    + unfold echo_gate. destruct (_ && _); reflexivity.
  - apply prod_ground.
  - intros q _. apply ket0_norm.
  - intros b. rewrite sqmod_hv, E. unfold bernoulli, certain. destruct (Nat.even _), b; cbn; field.
  - unfold certain. destruct (Nat.even _); cbn; ring.
Qed.

(** ZZ: the spectators are flipped in the second series. *)
Lemma zz_law N qs specs n len t flip : qubits_ok N qs -> NoDup specs -> Forall (fun q => q < N) specs -> (forall q, In q qs -> ~ In q specs) ->
  outcome_law gmat N qs (zz_body qs specs n len t flip) (ramsey_law len t).
Proof.
  intros Hq Hns Hls Hd. unfold zz_body.
  assert (Hpre : exists f, is_prod N (run (map (op_of gmat) (gates (if flip then map (fun s => gate1 "x" [] s) specs else []))) (ground N)) f /\
    (forall q, In q qs -> f q = ket0) /\ (forall q, q < N -> (sqmod (f q false) + sqmod (f q true) = 1)%R)).
  { destruct flip.
    - destruct (layer gmat N (fun s => [gate1 "x" [] s]) specs ket0 ket1 Hns Hls (fun q _ => mv_x01 q) _ (fun _ => ket0) (prod_ground N)) as (f & A & B & D).
      + intros q _. apply utp_refl.
      + exists f. split; [|split].
        * replace (map (fun s => gate1 "x" [] s) specs) with (flat_map (fun s => [gate1 "x" [] s]) specs); [exact A|]. clear. induction specs; cbn; f_equal; auto.
        * intros q Hi. apply D. apply Hd. exact Hi.
        * intros q _. destruct (in_dec Nat.eq_dec q specs) as [Hi|Hi]; [rewrite (utp_sqmod (f q) ket1 false), (utp_sqmod (f q) ket1 true) by (apply B; exact Hi); apply ket1_norm|rewrite D by exact Hi; apply ket0_norm].
    - exists (fun _ => ket0). split; [apply prod_ground|]. split; [reflexivity|]. intros q _. apply ket0_norm. }
  destruct Hpre as (f & A & B & D).
  apply (block_law N qs _ [CBarrier (seq 0 n)] [CBarrier (seq 0 n)] (fun q => ramsey q len t) (hv (INR len * omega + PI * Q2R t)) _ f); auto.
  - destruct flip; [|constructor]. apply Forall_forall. intros i Hi. apply in_map_iff in Hi. destruct Hi as (s & <- & _). reflexivity.
  - repeat constructor.
  - repeat constructor.
  - intros q _. apply nm_ramsey.
  - intros q _. apply ramsey_block.
  - intros b. apply sqmod_hv.
  - unfold ramsey_law, bernoulli. ring.
Qed.
End Ideal.
