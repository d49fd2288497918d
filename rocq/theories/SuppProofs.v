(** Proofs for smaller parts of modelled functions: volumes, pulse widths, given
    half-turn schedules, complex roots. *)
From Coq Require Import QArith Reals Lra Lia.
From Coquelicot Require Import Coquelicot.
From Verif Require Import LinAlg Base PyStr ResultFacts QVModel PulseModel PulseSpec PulseSchedProofs GstOptModel.
Local Open Scope string_scope.
Local Open Scope list_scope.
Local Open Scope nat_scope.

(** ** All strings of bits *)
Fixpoint strings (d : nat) : list (list bool) := match d with 0 => [[]] | S d' => map (cons false) (strings d') ++ map (cons true) (strings d') end.
Lemma strings_length d : Z.of_nat (length (strings d)) = (2 ^ Z.of_nat d)%Z.
Proof.
  induction d as [|d IH]; [reflexivity|]. cbn [strings]. rewrite app_length, !map_length, Nat2Z.inj_add, IH, Nat2Z.inj_succ, Z.pow_succ_r by lia. lia.
Qed.
Lemma strings_in d s : In s (strings d) <-> length s = d.
Proof.
  revert s. induction d as [|d IH]; intros s; cbn [strings]; [destruct s; cbn; intuition congruence|]. rewrite in_app_iff, !in_map_iff. split.
  - intros [(t & <- & H)|(t & <- & H)]; cbn; f_equal; apply IH; exact H.
  - destruct s as [|b s]; [discriminate|]. intros [= H]. apply IH in H. destruct b; [right|left]; exists s; auto.
Qed.
Lemma nodup_two {A} (l l' : list A) : NoDup l -> NoDup l' -> (forall x, In x l -> ~ In x l') -> NoDup (l ++ l').
Proof.
  induction 1 as [|x l Hx Hl IH]; intros H' D; cbn [app]; [exact H'|]. constructor; [|apply IH; [exact H'|intros y Hy; apply D; right; exact Hy]].
  rewrite in_app_iff. intros [H|H]; [contradiction|]. exact (D x (or_introl eq_refl) H).
Qed.
Lemma strings_nodup d : NoDup (strings d).
Proof.
  induction d as [|d IH]; cbn [strings]; [repeat constructor; intros []|]. assert (I : forall b, NoDup (map (cons b) (strings d))) by (intros b; apply FinFun.Injective_map_NoDup; [intros x y [= ->]; reflexivity|exact IH]).
  apply nodup_two; [apply I|apply I|]. intros x H H'. apply in_map_iff in H, H'. destruct H as (? & <- & _), H' as (? & E & _). discriminate.
Qed.
Lemma volumes (f : qv) : Forall2 (fun d v => exists l : list (list bool), NoDup l /\ (forall s, In s l <-> length s = d) /\ v = Z.of_nat (length l)) (v_depths f) (quantum_volume f).
Proof.
  unfold quantum_volume. induction (v_depths f) as [|d ds IH]; cbn [map]; constructor; [|exact IH]. exists (strings d). split; [apply strings_nodup|]. split; [apply strings_in|]. symmetry. apply strings_length.
Qed.

(** ** Widths of pulses *)
Lemma sigma_given s w r : sigma_of (Some s) w r = Ok s.
Proof. reflexivity. Qed.
Lemma sigma_ratio w r : r <> 0%R -> exists s, sigma_of None w r = Ok s /\ (s * r = INR w)%R.
Proof. intros H. unfold sigma_of. destruct (Req_EM_T r 0); [contradiction|]. eexists. split; [reflexivity|]. field. exact H. Qed.
Lemma sigma_zero w : sigma_of None w 0 = Err ZeroDivisionError.
Proof. unfold sigma_of. destruct (Req_EM_T 0 0); [reflexivity|contradiction]. Qed.

(** ** Given half-turn schedules *)
Lemma given_pulses so dp l dp' drives qs m : (forall q, In q qs -> exists p ch, nth_error drives q = Some ch /\ nth_error dp' q = Some p /\ nth_error l q = Some [(0, Play p ch)]) ->
  update_u_gates so dp (Some l) qs drives m = update_u_gates so dp' None qs drives m.
Proof.
  intros H. unfold update_u_gates. revert m. induction qs as [|q qs IH]; intros m; [reflexivity|]. cbn [foldM]. assert (E : update_qubit so dp (Some l) drives m q = update_qubit so dp' None drives m q).
  { destruct (H q (or_introl eq_refl)) as (p & ch & H1 & H2 & H3). unfold update_qubit, index_e. rewrite H1, H2. change timed with (list (nat * pinstr)) in *. rewrite H3. reflexivity. }
  rewrite E. destruct (update_qubit so dp' None drives m q) as [m'|e]; [|reflexivity]. cbn [bind]. apply IH. intros q' Hq'. apply H. right. exact Hq'.
Qed.
(** Any schedules: what the new gates play. *)
Lemma pulses_app l l' ch : pulses_of (l ++ l') ch = pulses_of l ch ++ pulses_of l' ch.
Proof. apply flat_map_app. Qed.
Lemma pulses_fc name phi t g v ch : pulses_of (fc name phi t g v) ch = [].
Proof. unfold fc, pulses_of. induction g as [|c g IH]; [reflexivity|]. cbn [map flat_map snd app]. exact IH. Qed.
Lemma pulses_shift t l ch : pulses_of (shift t l) ch = map (fun tp => (t + fst tp, snd tp)) (pulses_of l ch).
Proof.
  unfold pulses_of, shift. induction l as [|[t' i] l IH]; [reflexivity|]. cbn [map flat_map fst snd]. rewrite IH, map_app. f_equal. destruct i; try reflexivity. destruct (eqb _ _); [cbn [map fst snd]; rewrite Nat.add_comm; reflexivity|reflexivity].
Qed.
Lemma ok_inj {A} (a b : A) : Ok a = Ok b -> a = b.
Proof. intros [= E]. exact E. Qed.
Lemma given_plays so dp l drives qs m m' : NoDup qs -> update_u_gates so dp (Some l) qs drives m = Ok m' -> forall q, In q qs ->
  exists s new2 new3, nth_error l q = Some s /\ dget m' (str "u2", q) = Some new2 /\ dget m' (str "u3", q) = Some new3 /\ forall v ch,
    pulses_of (e_sched new2 v) ch = pulses_of s ch /\
    pulses_of (e_sched new3 v) ch = pulses_of s ch ++ map (fun tp => (duration s + fst tp, snd tp)) (pulses_of s ch).
Proof.
  unfold update_u_gates. revert m. induction qs as [|q0 qs IH]; intros m Hn E q Hq; [destruct Hq|]. cbn [foldM] in E. apply bind_inv in E. destruct E as (m1 & E1 & E). inversion Hn as [|? ? N0 N1]; subst.
  destruct Hq as [<-|Hq]; [|exact (IH m1 N1 E q Hq)].
  unfold update_qubit in E1. apply bind_inv in E1. destruct E1 as (drive & _ & E1). apply bind_inv in E1. destruct E1 as (s & Es & E1). apply bind_inv in E1. destruct E1 as (g2 & _ & E1). apply bind_inv in E1. destruct E1 as (g3 & _ & E1). apply ok_inj in E1. subst m1.
  assert (K : forall k, (forall q, In q qs -> k <> (str "u2", q) /\ k <> (str "u3", q)) -> forall m1, foldM (update_qubit so dp (Some l) drives) qs m1 = Ok m' -> dget m' k = dget m1 k).
  { clear IH Hn N0 N1 E Es. intros k Hk. induction qs as [|q1 qs IH]; intros m1 E; [cbn in E; injection E as <-; reflexivity|]. cbn [foldM] in E. apply bind_inv in E. destruct E as (m2 & E2 & E). rewrite (IH (fun q H => Hk q (or_intror H)) m2 E).
    unfold update_qubit in E2. apply bind_inv in E2. destruct E2 as (? & _ & E2). apply bind_inv in E2. destruct E2 as (? & _ & E2). apply bind_inv in E2. destruct E2 as (? & _ & E2). apply bind_inv in E2. destruct E2 as (? & _ & E2). apply ok_inj in E2. subst m2.
    destruct (Hk q1 (or_introl eq_refl)). rewrite !dget_dset. destruct (eqb_spec k (str "u3", q1)); [contradiction|]. destruct (eqb_spec k (str "u2", q1)); [contradiction|reflexivity]. }
  exists s, (u2_entry s (group_of g2 drive)), (u3_entry s (group_of g3 drive)). split; [apply index_inv; exact Es|]. split; [|split].
  - rewrite (K (str "u2", q0)) with (2 := E). 2: { intros q Hq. split; intros Z; [injection Z as Z; subst; contradiction|discriminate]. } rewrite !dget_dset, eqb_refl. destruct (eqb_spec (str "u2", q0) (str "u3", q0)) as [Z|_]; [discriminate|reflexivity].
  - rewrite (K (str "u3", q0)) with (2 := E). 2: { intros q Hq. split; intros Z; [discriminate|injection Z as Z; subst; contradiction]. } rewrite dget_dset, eqb_refl. reflexivity.
  - intros v ch. cbn [u2_entry u3_entry e_sched]. rewrite !pulses_app, !pulses_fc, pulses_shift, !app_nil_r. auto.
Qed.

(** ** Complex roots *)
Lemma norm_ge (a b : R) : (Rabs a <= sqrt (a * a + b * b))%R.
Proof. rewrite <- sqrt_Rsqr_abs. apply sqrt_le_1_alt. unfold Rsqr. pose proof (Rle_0_sqr b). unfold Rsqr in *. lra. Qed.
Lemma csqrt_ok (z : C) : Cmult (np_csqrt z) (np_csqrt z) = z /\ (0 <= fst (np_csqrt z))%R.
Proof.
  destruct z as [a b]. unfold np_csqrt. cbn [fst snd]. set (r := sqrt (a * a + b * b)). pose proof (norm_ge a b) as Hr. fold r in Hr.
  assert (Ha : (0 <= (r + a) / 2)%R) by (unfold Rabs in Hr; destruct (Rcase_abs a); lra). assert (Hb : (0 <= (r - a) / 2)%R) by (unfold Rabs in Hr; destruct (Rcase_abs a); lra).
  assert (Hrr : (r * r = a * a + b * b)%R) by (apply sqrt_sqrt; pose proof (Rle_0_sqr a); pose proof (Rle_0_sqr b); unfold Rsqr in *; lra).
  split; [|apply sqrt_pos]. set (x := sqrt ((r + a) / 2)). set (y := sqrt ((r - a) / 2)).
  assert (Hx : (x * x = (r + a) / 2)%R) by (apply sqrt_sqrt, Ha). assert (Hy : (y * y = (r - a) / 2)%R) by (apply sqrt_sqrt, Hb).
  assert (Hxy : (2 * (x * y) = Rabs b)%R).
  { unfold x, y. rewrite <- sqrt_mult by assumption. replace ((r + a) / 2 * ((r - a) / 2))%R with ((b / 2) * (b / 2))%R by (field_simplify; lra). fold (Rsqr (b / 2)). rewrite sqrt_Rsqr_abs. unfold Rdiv. rewrite Rabs_mult, (Rabs_right (/ 2)) by lra. lra. }
  unfold Cmult. cbn [fst snd]. destruct (Rlt_dec b 0) as [H|H]; [rewrite Rabs_left in Hxy by exact H|rewrite Rabs_right in Hxy by lra]; f_equal; lra.
Qed.
