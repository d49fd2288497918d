(** C76: reading the pulse of a gate from the instruction map of a device. *)
From Coq Require Import QArith Reals Lra Lia Permutation Sorted.
From Coquelicot Require Import Coquelicot.
From Verif Require Import LinAlg Base PyStr ResultFacts EntSpec PulseModel PulseSpec PulseGateProofs PulseMapProofs GuessModel PulseReadModel PulseReadSpec PulseReadProofs.
Local Open Scope string_scope. Local Open Scope list_scope. Local Open Scope nat_scope.

(** For examples: pulses with a constant envelope, a linear quadrature, and sampled
    pulses that are drag pulses turned to Y. *)
Definition box (d : nat) (a s b : R) : list C := map (fun k => (a * 1, a * b * (INR k - INR (d - 1) / 2))%R) (seq 0 d).
Definition box_samples (p : pulse) : list C := match p_beta p with Some b => box (p_duration p) (p_amp p) (p_sigma p) b | None => rotated (- (PI / 2)) (box (p_duration p) (p_amp p) (p_sigma p) 1) end.
Definition sampled_pulse : pulse := {| p_duration := 2; p_amp := 1; p_sigma := 1; p_beta := None; p_label := [] |}.
Definition d0 : chan := (str "d", 0).
Definition box_map : instmap := [((str "u2", 0), native_u2 sampled_pulse d0); ((str "u3", 0), native_u2 sampled_pulse d0)].
Definition box_lsq (f : params -> list R) (x0 : params) : params := (1, 1, 1)%R.
Lemma box_length d a s b : length (box d a s b) = d. Proof. unfold box. rewrite map_length, seq_length. reflexivity. Qed.
Lemma box_shaped : drag_shaped box (fun _ _ _ => 1%R) (fun d _ k => (INR k - INR (d - 1) / 2)%R).
Proof. intros d s. split; [reflexivity|]. intros k Hk. split; [reflexivity|]. rewrite !minus_INR by lia. cbn [INR]. field. Qed.
Lemma box_plays : plays_first box_map 0 sampled_pulse.
Proof. apply (native_plays box_map 0 sampled_pulse d0). reflexivity. Qed.
Lemma box_solves : solves box_samples box box_lsq sampled_pulse.
Proof.
  intros mx _ x'. unfold problem. rewrite (residual box box_length _ (box_lsq _ _) _ eq_refl). unfold box_lsq.
  assert (E : length (box_samples sampled_pulse) = 2) by reflexivity. rewrite E. change (box_samples sampled_pulse) with (rotated (- (PI / 2)) (box 2 1 1 1)) at 1. rewrite dist2_same. apply norm2_nonneg.
Qed.

(** For every qubit, in order: the duration is that of the first pulse of u2, and if
    the optimizer finds a minimum, no drag pulse, turned to Y, is nearer to it. *)
Theorem C76_best : forall samples drag lsq, (forall d a s b, length (drag d a s b) = d) -> forall m qs rs,
  (forall q, In q qs -> exists p, plays_first m q p /\ solves samples drag lsq p) -> get_single_q_pulse samples drag lsq m qs = Ok rs ->
  Forall2 (fun q r => exists p, plays_first m q p /\ p_duration r = length (samples p) /\ forall a s b, (off_by samples p (pulse_of drag r) <= off_by samples p (drag (p_duration r) a s b))%R) qs rs.
Proof.
  intros samples drag lsq Hlen m qs rs H E. pose proof (get_reads samples drag lsq m qs rs (fun q Hq => let (p, Hp) := H q Hq in ex_intro _ p (proj1 Hp)) E) as F.
  clear E. induction F as [|q r qs rs (p & Hp & Hr) F IH]; [apply Forall2_nil|]. apply Forall2_cons; [|apply IH; intros q' Hq'; apply H; right; exact Hq'].
  destruct (H q (or_introl eq_refl)) as (p' & Hp' & Hs). assert (p' = p) as ->.
  { destruct (plays_first_play m q p Hp) as (e & E1 & E2). destruct (plays_first_play m q p' Hp') as (e' & E1' & E2'). congruence. }
  exists p. split; [exact Hp|]. destruct (reads_best samples drag lsq Hlen p r Hr Hs) as (Ed & b & Eb & Hb). split; [exact Ed|]. unfold off_by, pulse_of. rewrite Eb. exact Hb.
Qed.
Print Assumptions C76_best.

(** A device whose pulse is a drag pulse turned to Y is read exactly: the parameters
    give the samples back. *)
Theorem C76_exact : forall samples drag lsq, (forall d a s b, length (drag d a s b) = d) -> forall m qs rs,
  (forall q, In q qs -> exists p a s b, plays_first m q p /\ solves samples drag lsq p /\ samples p = rotated (- (PI / 2)) (drag (length (samples p)) a s b)) -> get_single_q_pulse samples drag lsq m qs = Ok rs ->
  Forall2 (fun q r => exists p, plays_first m q p /\ rotated (- (PI / 2)) (pulse_of drag r) = samples p) qs rs.
Proof.
  intros samples drag lsq Hlen m qs rs H E. pose proof (get_reads samples drag lsq m qs rs) as F. specialize (F ltac:(intros q Hq; destruct (H q Hq) as (p & _ & _ & _ & Hp & _); exists p; exact Hp) E).
  clear E. induction F as [|q r qs rs (p & Hp & Hr) F IH]; [apply Forall2_nil|]. apply Forall2_cons; [|apply IH; intros q' Hq'; apply H; right; exact Hq'].
  destruct (H q (or_introl eq_refl)) as (p' & a & s & b & Hp' & Hs & Ex). assert (p' = p) as ->.
  { destruct (plays_first_play m q p Hp) as (e & E1 & E2). destruct (plays_first_play m q p' Hp') as (e' & E1' & E2'). congruence. }
  exists p. split; [exact Hp|]. destruct (reads_exact samples drag lsq Hlen p r a s b Hr Hs Ex) as (b' & Eb & Hb). unfold pulse_of. rewrite Eb. exact Hb.
Qed.
Print Assumptions C76_exact.
(** Reading succeeds when every gate plays something. *)
Theorem C76_total : forall samples drag lsq m qs, (forall q, In q qs -> exists p, plays_first m q p /\ samples p <> []) -> exists rs, get_single_q_pulse samples drag lsq m qs = Ok rs.
Proof. exact get_total. Qed.
Print Assumptions C76_total.
Example C76_example : exists rs, get_single_q_pulse box_samples box box_lsq box_map [0] = Ok rs /\ plays_first box_map 0 sampled_pulse /\ solves box_samples box box_lsq sampled_pulse /\ box_samples sampled_pulse = rotated (- (PI / 2)) (box (length (box_samples sampled_pulse)) 1 1 1) /\ drag_shaped box (fun _ _ _ => 1%R) (fun d _ k => (INR k - INR (d - 1) / 2)%R).
Proof.
  destruct (C76_total box_samples box box_lsq box_map [0]) as (rs & E). { intros q [<- | []]. exists sampled_pulse. split; [exact box_plays|discriminate]. }
  exists rs. split; [exact E|]. split; [exact box_plays|]. split; [exact box_solves|]. split; [reflexivity|exact box_shaped].
Qed.

(** With an optimizer of which only is known that it does not end worse than it
    began: as near as the first guess. *)
Theorem C76_improves : forall samples drag lsq, (forall d a s b, length (drag d a s b) = d) -> forall m qs rs,
  (forall q, In q qs -> exists p, plays_first m q p /\ improves samples drag lsq p) -> get_single_q_pulse samples drag lsq m qs = Ok rs ->
  Forall2 (fun q r => exists p mx, plays_first m q p /\ peak_of samples p mx /\ p_duration r = length (samples p) /\
    (off_by samples p (pulse_of drag r) <= off_by samples p (drag (p_duration r) mx (INR (p_duration r) / 4) (mx / 5)))%R) qs rs.
Proof.
  intros samples drag lsq Hlen m qs rs H E. pose proof (get_reads samples drag lsq m qs rs (fun q Hq => let (p, Hp) := H q Hq in ex_intro _ p (proj1 Hp)) E) as F.
  clear E. induction F as [|q r qs rs (p & Hp & Hr) F IH]; [apply Forall2_nil|]. apply Forall2_cons; [|apply IH; intros q' Hq'; apply H; right; exact Hq'].
  destruct (H q (or_introl eq_refl)) as (p' & Hp' & Hs). assert (p' = p) as ->.
  { destruct (plays_first_play m q p Hp) as (e & E1 & E2). destruct (plays_first_play m q p' Hp') as (e' & E1' & E2'). congruence. }
  destruct (reads_not_worse samples drag lsq Hlen p r Hr Hs) as (mx & b & Hm & Eb & Ed & Hb). exists p, mx. split; [exact Hp|]. split; [exact Hm|]. split; [exact Ed|]. unfold off_by, pulse_of. rewrite Eb. exact Hb.
Qed.
Print Assumptions C76_improves.
Example C76_improves_example : plays_first box_map 0 sampled_pulse /\ improves box_samples box (fun _ x0 => x0) sampled_pulse.
Proof. split; [exact box_plays|]. intros mx _. apply Rle_refl. Qed.

(** A gate that plays nothing: an error for the first qubit, but for a later one the
    pulse of the qubit before it is fitted again and returned for it. *)
Theorem C76_stale_refuted : forall samples drag lsq m q q' p, plays_first m q p -> plays_nothing m q' -> samples p <> [] ->
  get_single_q_pulse samples drag lsq m [q'] = Err RuntimeError /\ exists r, get_single_q_pulse samples drag lsq m [q; q'] = Ok [r; r] /\ p_duration r = length (samples p).
Proof.
  intros samples drag lsq m q q' p Hp Hn Hs. destruct (plays_first_play m q p Hp) as (e & E1 & E2). destruct (plays_nothing_play m q' Hn) as (e' & E1' & E2'). destruct (found_of_total samples p Hs) as (f & Ef). destruct (found_of_ok samples p f Ef) as (mx & _ & Ed).
  unfold get_single_q_pulse, foldM, read_qubit. rewrite E1, E1', E2, E2', Ef. cbn [bind fst snd]. split; [reflexivity|]. rewrite Ed. destruct (lsq _ _) as [[a s] b] eqn:El. cbn [bind fst snd app]. rewrite El. cbn [bind fst snd app]. eexists. split; [reflexivity|reflexivity].
Qed.
Print Assumptions C76_stale_refuted.
Definition silent_map : instmap := ((str "u2", 1), {| e_params := []; e_sched := fun _ => [] |}) :: box_map.
Example C76_stale_example : plays_first silent_map 0 sampled_pulse /\ plays_nothing silent_map 1 /\ box_samples sampled_pulse <> [].
Proof. split; [apply (native_plays silent_map 0 sampled_pulse d0); reflexivity|]. split; [eexists; split; [reflexivity|]; intros t p ch []|discriminate]. Qed.

(** The list is in the order of the qubits asked for, while [update_u_gates] looks
    the parameters up by the number of the qubit: read for [1; 0] and written for
    [1; 0], the pulses of the two qubits change places. *)
Theorem C76_order_refuted : forall samples drag lsq so drives m m' rs p0 p1, plays_first m 0 p0 -> plays_first m 1 p1 ->
  get_single_q_pulse samples drag lsq m [1; 0] = Ok rs -> update_u_gates so rs None [1; 0] drives m = Ok m' ->
  exists r0 r1 e0 e1, rs = [r1; r0] /\ p_duration r0 = length (samples p0) /\ p_duration r1 = length (samples p1) /\
    dget m' (str "u2", 0) = Some e0 /\ dget m' (str "u2", 1) = Some e1 /\ forall v, (exists ch, In (0, Play r1 ch) (e_sched e0 v)) /\ exists ch, In (0, Play r0 ch) (e_sched e1 v).
Proof.
  intros samples drag lsq so drives m m' rs p0 p1 H0 H1 E U.
  pose proof (get_reads samples drag lsq m [1; 0] rs) as F. specialize (F ltac:(intros q [<- | [<- | []]]; eexists; eassumption) E). inversion F as [|? r1 ? rs1 (p1' & H1' & R1) F1]; subst. inversion F1 as [|? r0 ? rs0 (p0' & H0' & R0) F0]; subst. inversion F0; subst.
  assert (D : forall q p p' r, plays_first m q p -> plays_first m q p' -> reads samples drag lsq p' r -> p_duration r = length (samples p)).
  { intros q p p' r Hp Hp' (mx & _ & Hr). assert (p' = p) as ->. { destruct (plays_first_play m q p Hp) as (e & X1 & X2). destruct (plays_first_play m q p' Hp') as (e' & X1' & X2'). congruence. } destruct (lsq _ _) as [[a s] b]. subst r. reflexivity. }
  destruct (update_inv so [r1; r0] drives [1; 0] m m') as [_ G]; [constructor; [intros [K|[]]; discriminate K|constructor; [intros []|constructor]]|exact U|].
  destruct (G 0 ltac:(right; left; reflexivity)) as (c0 & p & e2 & e3 & K1 & K2 & _ & _ & K5 & _). injection K2 as <-. destruct (G 1 ltac:(left; reflexivity)) as (c1 & p' & e2' & e3' & K1' & K2' & _ & _ & K5' & _). injection K2' as <-.
  eexists r0, r1, _, _. split; [reflexivity|]. split; [exact (D 0 p0 p0' r0 H0 H0' R0)|]. split; [exact (D 1 p1 p1' r1 H1 H1' R1)|]. split; [exact K5|]. split; [exact K5'|]. intros v. cbn [u2_entry e_sched]. split; eexists; left; reflexivity.
Qed.
Print Assumptions C76_order_refuted.
Definition long_pulse : pulse := {| p_duration := 3; p_amp := 1; p_sigma := 1; p_beta := None; p_label := [] |}.
Definition two_map : instmap := [((str "u2", 0), native_u2 sampled_pulse d0); ((str "u3", 0), native_u2 sampled_pulse d0); ((str "u2", 1), native_u2 long_pulse (str "d", 1)); ((str "u3", 1), native_u2 long_pulse (str "d", 1))].
Example C76_order_example : plays_first two_map 0 sampled_pulse /\ plays_first two_map 1 long_pulse /\ exists rs m', get_single_q_pulse box_samples box box_lsq two_map [1; 0] = Ok rs /\ update_u_gates (fun l => l) rs None [1; 0] [d0; (str "d", 1)] two_map = Ok m'.
Proof.
  assert (P0 : plays_first two_map 0 sampled_pulse) by (apply (native_plays two_map 0 sampled_pulse d0); reflexivity). assert (P1 : plays_first two_map 1 long_pulse) by (apply (native_plays two_map 1 long_pulse (str "d", 1)); reflexivity).
  split; [exact P0|]. split; [exact P1|]. destruct (C76_total box_samples box box_lsq two_map [1; 0]) as (rs & E). { intros q [<- | [<- | []]]; eexists; (split; [eassumption|discriminate]). }
  pose proof (get_reads box_samples box box_lsq two_map [1; 0] rs) as F. specialize (F ltac:(intros q [<- | [<- | []]]; eexists; eassumption) E). assert (L : length rs = 2) by (clear - F; inversion F as [|? ? ? ? _ F1]; subst; inversion F1 as [|? ? ? ? _ F2]; subst; inversion F2; subst; reflexivity).
  destruct (update_total (fun l => l) rs [d0; (str "d", 1)] [1; 0] two_map) as (m' & U). { intros q [<- | [<- | []]]; rewrite L; (split; [cbn; lia|]); (split; [lia|]); split; eexists; reflexivity. }
  exists rs, m'. split; [exact E|exact U].
Qed.

(** Drag pulses that [update_u_gates] wrote cannot be read back: they are not turned
    to Y, and the drag pulse turned to Y that is nearest to one is no pulse at all. *)
Theorem C76_readback_refuted : forall samples drag lsq g h, (forall d a s b, length (drag d a s b) = d) -> drag_shaped drag g h ->
  (forall p b, p_beta p = Some b -> samples p = drag (p_duration p) (p_amp p) (p_sigma p) b) ->
  forall so drives dp qs m m' rs, NoDup qs -> update_u_gates so dp None qs drives m = Ok m' ->
  (forall q p, In q qs -> nth_error dp q = Some p -> (exists b, p_beta p = Some b) /\ solves samples drag lsq p) ->
  get_single_q_pulse samples drag lsq m' qs = Ok rs ->
  Forall2 (fun q r => exists p, nth_error dp q = Some p /\ plays_first m' q p /\ p_duration r = p_duration p /\ pulse_of drag r = map (fun _ => RtoC 0) (seq 0 (p_duration p))) qs rs.
Proof.
  intros samples drag lsq g h Hlen Hsh Hsam so drives dp qs m m' rs Hn U Hdp E. destruct (update_inv so dp drives qs m m' Hn U) as [_ G].
  assert (P : forall q, In q qs -> exists p, nth_error dp q = Some p /\ plays_first m' q p).
  { intros q Hq. destruct (G q Hq) as (ch & p & e2 & e3 & _ & K2 & _ & _ & K5 & _). exists p. split; [exact K2|]. eexists _, 0, ch. split; [exact K5|]. cbn [u2_entry e_sched]. split; [left; reflexivity|].
    intros t' p' ch' Hin _. cbn [app] in Hin. destruct Hin as [K|Hin]; [injection K as _ <- _; reflexivity|]. unfold fc in Hin. apply in_app_or in Hin. destruct Hin as [K|K]; apply in_map_iff in K; destruct K as (c & K & _); discriminate K. }
  pose proof (get_reads samples drag lsq m' qs rs (fun q Hq => let (p, Hp) := P q Hq in ex_intro _ p (proj2 Hp)) E) as F.
  clear E G U Hn. induction F as [|q r qs rs (p & Hp & Hr) F IH]; [apply Forall2_nil|]. apply Forall2_cons; [|apply IH; intros q' Hq'; [intros Hin; apply Hdp; right; exact Hin|apply P; right; exact Hq']].
  destruct (P q (or_introl eq_refl)) as (p' & Hd & Hp'). assert (p' = p) as ->.
  { destruct (plays_first_play m' q p Hp) as (e & E1 & E2). destruct (plays_first_play m' q p' Hp') as (e' & E1' & E2'). congruence. }
  destruct (Hdp q p (or_introl eq_refl) Hd) as ((b & Eb) & Hs). pose proof (Hsam p b Eb) as Es. assert (Ed : length (samples p) = p_duration p) by (rewrite Es; apply Hlen).
  exists p. split; [exact Hd|]. split; [exact Hp|]. destruct (reads_back samples drag lsq Hlen g h Hsh p r b Hr Hs ltac:(rewrite Ed; exact Es)) as (b' & Eb' & Hz). destruct (reads_best samples drag lsq Hlen p r Hr Hs) as (Edr & _).
  split; [congruence|]. unfold pulse_of. rewrite Eb'. rewrite Ed in Hz. exact Hz.
Qed.
Print Assumptions C76_readback_refuted.
Definition drag_one : pulse := {| p_duration := 2; p_amp := 1; p_sigma := 1; p_beta := Some 1%R; p_label := [] |}.
Example C76_readback_example : (exists m', update_u_gates (fun l => l) [drag_one] None [0] [d0] box_map = Ok m') /\ solves box_samples box (fun _ _ => (0, 1, 1)%R) drag_one /\ box_samples drag_one <> map (fun _ => RtoC 0) (seq 0 2).
Proof.
  split; [apply update_total; intros q [<- | []]; cbn; repeat split; try lia; eexists; reflexivity|]. split.
  - intros mx _ x'. unfold problem. rewrite !(residual box box_length) by reflexivity. destruct x' as [[a s] b]. change (length (box_samples drag_one)) with 2. change (box_samples drag_one) with (box 2 1 1 1).
    rewrite !(shaped_dist box box_length _ _ box_shaped). apply Rplus_le_compat_r. unfold sumf. cbn [seq map fold_right]. assert (P : forall x, (0 <= x * x)%R) by (intros x; exact (Rle_0_sqr x)). 
    pose proof (P (a * b * (INR 0 - INR (2 - 1) / 2))%R). pose proof (P (a * b * (INR 1 - INR (2 - 1) / 2))%R). pose proof (P (a * 1)%R). lra.
  - intros K. apply (f_equal (fun l => match l with z :: _ => fst z | [] => 0%R end)) in K. cbn in K. lra.
Qed.

(** Reading a device whose u2 is -P1, a drag pulse turned to Y, -P0, and writing the
    parameters back: the new u2 sends out the opposite of the old pulse, in the same
    frame.  It turns by -pi/2 where the old one turned by pi/2. *)
Theorem C76_roundtrip_refuted : forall samples drag lsq, (forall d a s b, length (drag d a s b) = d) ->
  (forall p b, p_beta p = Some b -> samples p = drag (p_duration p) (p_amp p) (p_sigma p) b) ->
  forall so drives n m m' rs, (forall gs gr, In gr (so gs) <-> In gr gs) ->
  (forall q, q < n -> exists y ch a s b, nth_error drives q = Some ch /\ dget m (str "u2", q) = Some (native_u2 y ch) /\ p_duration y > 0 /\ samples y = rotated (- (PI / 2)) (drag (p_duration y) a s b) /\ solves samples drag lsq y) ->
  get_single_q_pulse samples drag lsq m (seq 0 n) = Ok rs -> update_u_gates so rs None (seq 0 n) drives m = Ok m' ->
  forall q, q < n -> exists ch old new, nth_error drives q = Some ch /\ dget m (str "u2", q) = Some old /\ dget m' (str "u2", q) = Some new /\
    forall v l l', happens (e_sched old v) l -> happens (e_sched new v) l' -> exists phase S, S <> [] /\ emitted samples ch l = (phase, [S]) /\ emitted samples ch l' = (phase, [map Copp S]).
Proof.
  intros samples drag lsq Hlen Hsam so drives n m m' rs Hso Hdev E U q Hq. destruct (Hdev q Hq) as (y & ch & a & s & b & Hch & Hy & Hd & Hs & Hsol).
  assert (Hall : forall q', In q' (seq 0 n) -> exists p, plays_first m q' p). { intros q' Hq'. apply in_seq in Hq'. destruct (Hdev q' ltac:(lia)) as (y' & ch' & _ & _ & _ & _ & Hy' & _). exists y'. exact (native_plays m q' y' ch' Hy'). }
  destruct (Forall2_seq _ n rs (get_reads samples drag lsq m (seq 0 n) rs Hall E) q Hq) as (r & Er & p & Hp & Hr).
  assert (p = y) as ->. { destruct (plays_first_play m q p Hp) as (e & E1 & E2). destruct (plays_first_play m q y (native_plays m q y ch Hy)) as (e' & E1' & E2'). congruence. }
  assert (Ed : length (samples y) = p_duration y) by (rewrite Hs, rotated_length; apply Hlen).
  destruct (reads_exact samples drag lsq Hlen y r a s b Hr Hsol ltac:(rewrite Ed; exact Hs)) as (b' & Eb & Hx). destruct (reads_best samples drag lsq Hlen y r Hr Hsol) as (Edr & _).
  destruct (update_inv so rs drives (seq 0 n) m m' (seq_NoDup n 0) U) as [_ G]. destruct (G q ltac:(apply in_seq; lia)) as (ch' & p & e2 & e3 & K1 & K2 & K3 & _ & K5 & _).
  rewrite Hch in K1. injection K1 as <-. rewrite Er in K2. injection K2 as <-. rewrite Hy in K3. injection K3 as <-.
  eexists ch, _, _. split; [exact Hch|]. split; [exact Hy|]. split; [exact K5|]. intros v l l' Hl Hl'.
  destruct (group_in_frame so (e_sched (native_u2 y ch) (fun _ => 0%R)) ch Hso) as [_ Ig]. pose proof (group_nodup so _ ch Hso (native_once y ch Hd)) as Ng.
  exists (- v (str "P1") + - v (str "P0"))%R, (rotated (- v (str "P1")) (samples y)). split.
  - intros K. apply (f_equal (@length C)) in K. rewrite rotated_length, Ed in K. cbn in K. lia.
  - split; [exact (emitted_native samples y ch v l Hd Hl)|]. rewrite (emitted_updated samples r ch _ v l' Ng Ig ltac:(lia) Hl'). do 2 f_equal.
    rewrite <- rotated_opp, <- Hx, rotated_rotated, (Hsam r b' Eb). f_equal. lra.
Qed.
Print Assumptions C76_roundtrip_refuted.
Example C76_roundtrip_example : dget box_map (str "u2", 0) = Some (native_u2 sampled_pulse d0) /\ p_duration sampled_pulse > 0 /\ box_samples sampled_pulse = rotated (- (PI / 2)) (box (p_duration sampled_pulse) 1 1 1) /\ solves box_samples box box_lsq sampled_pulse /\
  exists rs m', get_single_q_pulse box_samples box box_lsq box_map [0] = Ok rs /\ update_u_gates (fun l => l) rs None [0] [d0] box_map = Ok m'.
Proof.
  split; [reflexivity|]. split; [cbn; lia|]. split; [reflexivity|]. split; [exact box_solves|]. destruct C76_example as (rs & E & _). pose proof (get_reads box_samples box box_lsq box_map [0] rs) as F. specialize (F ltac:(intros q [<- | []]; exists sampled_pulse; exact box_plays) E).
  assert (L : length rs = 1) by (clear - F; inversion F as [|? ? ? ? _ F1]; subst; inversion F1; subst; reflexivity).
  destruct (update_total (fun l => l) rs [d0] [0] box_map) as (m' & U). { intros q [<- | []]. rewrite L. (split; [cbn; lia|]); (split; [lia|]); split; eexists; reflexivity. }
  exists rs, m'. split; [exact E|exact U].
Qed.
