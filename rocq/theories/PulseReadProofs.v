(** Reading the pulses of a device (C76). *)
From Coq Require Import QArith Reals Lra Lia Permutation Sorted.
From Coquelicot Require Import Coquelicot.
From Verif Require Import LinAlg Base PyStr ResultFacts EntSpec EntMqcProofs CharCircProofs PulseModel PulseSpec PulseGateProofs PulseMapProofs GuessModel GuessProofs PulseReadModel PulseReadSpec.
Local Open Scope string_scope. Local Open Scope list_scope. Local Open Scope nat_scope.

(** ** The first pulse *)
Lemma earlier_trans a b c : earlier a b = true -> earlier b c = true -> earlier a c = true.
Proof. unfold earlier. rewrite !orb_true_iff, !andb_true_iff, !Nat.ltb_lt, !Nat.eqb_eq, !Nat.leb_le. lia. Qed.
Lemma earlier_total a b : earlier a b = false -> earlier b a = true.
Proof. unfold earlier. rewrite orb_false_iff, andb_false_iff, Nat.ltb_ge, Nat.eqb_neq, Nat.leb_gt, orb_true_iff, andb_true_iff, Nat.ltb_lt, Nat.eqb_eq, Nat.leb_le. lia. Qed.
Lemma insert_in a b l : In b (insert_at a l) <-> b = a \/ In b l.
Proof. split; intros H; [apply (Permutation_in _ (insert_perm a l)) in H; destruct H; auto|apply (Permutation_in _ (Permutation_sym (insert_perm a l))); destruct H; [left|right]; auto]. Qed.
Lemma instructions_sorted l : StronglySorted (fun a b => earlier a b = true) (instructions l).
Proof.
  unfold instructions. induction l as [|a l IH]; cbn [fold_right]; [constructor|]. revert IH. generalize (fold_right insert_at [] l). intros s H.
  induction H as [|b s H IH HF]; cbn [insert_at]; [repeat constructor|]. destruct (earlier a b) eqn:E.
  - constructor; [constructor; assumption|]. constructor; [exact E|]. rewrite Forall_forall in *. intros x Hx. exact (earlier_trans a b x E (HF x Hx)).
  - constructor; [exact IH|]. rewrite Forall_forall in *. intros x Hx. apply insert_in in Hx. destruct Hx as [-> | Hx]; [apply earlier_total; exact E|exact (HF x Hx)].
Qed.
Lemma first_play_spec l : StronglySorted (fun a b => earlier a b = true) l -> forall t p ch, In (t, Play p ch) l ->
  (forall t' p' ch', In (t', Play p' ch') l -> t' < t \/ (t' = t /\ p_duration p' <= p_duration p) -> p' = p) -> first_play l = Some p.
Proof.
  induction 1 as [|[t0 i0] l H IH HF]; intros t p ch Hin Hfirst; [destruct Hin|]. cbn [first_play]. destruct i0 as [p0 c0|x c|d cs].
  - f_equal. destruct Hin as [E|Hin]; [injection E as <- <- <-; reflexivity|]. apply (Hfirst t0 p0 c0); [left; reflexivity|]. rewrite Forall_forall in HF. specialize (HF _ Hin). unfold earlier in HF. cbn [fst snd instr_duration] in HF. rewrite orb_true_iff, andb_true_iff, Nat.ltb_lt, Nat.eqb_eq, Nat.leb_le in HF. lia.
  - destruct Hin as [E|Hin]; [discriminate|]. apply (IH t p ch Hin). intros t' p' ch' H'. apply (Hfirst t' p' ch'). right. exact H'.
  - destruct Hin as [E|Hin]; [discriminate|]. apply (IH t p ch Hin). intros t' p' ch' H'. apply (Hfirst t' p' ch'). right. exact H'.
Qed.
Lemma plays_first_play m q p : plays_first m q p -> exists e, dget m (str "u2", q) = Some e /\ first_play (instructions (e_sched e (fun _ => 1%R))) = Some p.
Proof.
  intros (e & t & ch & E & Hin & Hf). exists e. split; [exact E|]. apply (first_play_spec _ (instructions_sorted _) t p ch).
  - apply (Permutation_in _ (Permutation_sym (instructions_perm _))). exact Hin.
  - intros t' p' ch' H'. apply (Hf t' p' ch'). apply (Permutation_in _ (instructions_perm _)). exact H'.
Qed.
Lemma plays_nothing_play m q : plays_nothing m q -> exists e, dget m (str "u2", q) = Some e /\ first_play (instructions (e_sched e (fun _ => 1%R))) = None.
Proof.
  intros (e & E & Hn). exists e. split; [exact E|]. assert (H : forall t p ch, ~ In (t, Play p ch) (instructions (e_sched e (fun _ => 1%R)))).
  { intros t p ch Hin. apply (Hn t p ch). apply (Permutation_in _ (instructions_perm _)). exact Hin. }
  revert H. generalize (instructions (e_sched e (fun _ => 1%R))). intros l H. induction l as [|[t i] l IH]; [reflexivity|]. cbn [first_play]. destruct i as [p c|x c|d cs]; [exfalso; exact (H t p c (or_introl eq_refl))| |]; apply IH; intros t' p' ch' H'; exact (H t' p' ch' (or_intror H')).
Qed.

(** ** Distances *)
Lemma norm2_app l l' : norm2 (l ++ l') = (norm2 l + norm2 l')%R.
Proof. induction l as [|a l IH]; cbn [app norm2 fold_right]; [unfold norm2; cbn; ring|]. unfold norm2 in IH |- *. rewrite IH. ring. Qed.
Lemma norm2_nonneg l : (0 <= norm2 l)%R.
Proof. induction l as [|a l IH]; cbn [norm2 fold_right]; [lra|]. pose proof (Rle_0_sqr a). unfold Rsqr in H. unfold norm2 in IH. lra. Qed.
Lemma combine_app' {A B} (l1 l2 : list A) (k1 k2 : list B) : length l1 = length k1 -> combine (l1 ++ l2) (k1 ++ k2) = combine l1 k1 ++ combine l2 k2.
Proof. revert k1. induction l1 as [|a l1 IH]; intros [|b k1] H; try discriminate; [reflexivity|]. cbn [app combine]. rewrite IH by (injection H; auto). reflexivity. Qed.
Lemma flat_dist F : forall S, length F = length S -> norm2 (map (fun ab => (fst ab - snd ab)%R) (combine (flat F) (flat S))) = dist2 F S.
Proof.
  intros S H. unfold flat. rewrite combine_app' by (rewrite !map_length; exact H). rewrite map_app, norm2_app. revert S H.
  induction F as [|a F IH]; intros [|b S] H; try discriminate; [unfold norm2; cbn; ring|]. cbn [map combine norm2 fold_right dist2 fst snd]. rewrite <- (IH S) by (injection H; auto). unfold sq, norm2, Re, Im. cbn [Cminus Cplus Copp fst snd]. ring.
Qed.
Lemma dist2_nonneg F : forall S, (0 <= dist2 F S)%R.
Proof. induction F as [|a F IH]; intros [|b S]; cbn [dist2]; try lra. specialize (IH S). unfold sq. pose proof (Rle_0_sqr (fst (Cminus a b))). pose proof (Rle_0_sqr (snd (Cminus a b))). unfold Rsqr in *. lra. Qed.
Lemma dist2_zero F : forall S, length F = length S -> (dist2 F S <= 0)%R -> F = S.
Proof.
  induction F as [|a F IH]; intros [|b S] H H0; try discriminate; [reflexivity|]. cbn [dist2] in H0. pose proof (dist2_nonneg F S) as P. unfold sq in H0. pose proof (Rle_0_sqr (fst (Cminus a b))) as P1. pose proof (Rle_0_sqr (snd (Cminus a b))) as P2. unfold Rsqr in *.
  f_equal; [|apply IH; [injection H; auto|lra]]. assert (fst (Cminus a b) = 0)%R by nra. assert (snd (Cminus a b) = 0)%R by nra. destruct a, b. cbn in *. f_equal; lra.
Qed.
Lemma dist2_same F : dist2 F F = 0%R.
Proof. induction F as [|a F IH]; cbn [dist2]; [reflexivity|]. rewrite IH. unfold sq. destruct a. cbn. ring. Qed.
Lemma rotated_length t l : length (rotated t l) = length l. Proof. apply map_length. Qed.
Lemma rotated_rotated s t l : rotated s (rotated t l) = rotated (s + t) l.
Proof. unfold rotated. rewrite map_map. apply map_ext. intros z. rewrite expi_add. ring. Qed.
Lemma rotated_0 l : rotated 0 l = l.
Proof. unfold rotated. rewrite <- (map_id l) at 2. apply map_ext. intros [a b]. unfold expi. rewrite cos_0, sin_0. apply injective_projections; cbn; ring. Qed.
Lemma rotated_opp t l : rotated (t + PI) l = map Copp (rotated t l).
Proof. unfold rotated. rewrite map_map. apply map_ext. intros z. unfold expi. rewrite neg_cos, neg_sin. apply injective_projections; cbn; ring. Qed.

Section Read.
Context (samples : pulse -> list C) (drag : nat -> R -> R -> R -> list C) (lsq : (params -> list R) -> params -> params).
Hypothesis (Hlen : forall d a s b, length (drag d a s b) = d).
Lemma residual d x (ss : list C) : length ss = d -> norm2 (fit_drag_func drag d x (flat ss)) = (let '(a, s, b) := x in dist2 (rotated (- (PI / 2)) (drag d a s b)) ss).
Proof.
  intros H. destruct x as [[a s] b]. unfold fit_drag_func.
  assert (E : map (fun z => Cmult z (expi (- (PI / 2)))) (drag d a s b) = rotated (- (PI / 2)) (drag d a s b)) by (apply map_ext; intros z; ring).
  rewrite E. apply flat_dist. rewrite rotated_length, Hlen. symmetry. exact H.
Qed.
(** What is read. *)
Definition reads (p : pulse) (r : pulse) : Prop :=
  exists mx, peak_of samples p mx /\ let '(a, s, b) := lsq (problem samples drag p) (start samples p mx) in r = {| p_duration := length (samples p); p_amp := a; p_sigma := s; p_beta := Some b; p_label := [] |}.
Lemma found_of_ok p f : found_of samples p = Ok f -> exists mx, peak_of samples p mx /\ f = (length (samples p), mx, flat (samples p)).
Proof.
  unfold found_of. intros E. apply bind_inv in E. destruct E as (mx & E1 & E). injection E as <-. exists mx. split; [|reflexivity].
  destruct (np_max_greatest (map Cmod (samples p))) as (v & Ev & H1 & H2). { intros K. rewrite K in E1. discriminate. }
  rewrite Ev in E1. injection E1 as <-. apply in_map_iff in H1. destruct H1 as (z & Ez & Hz). exists z. split; [exact Hz|]. split; [symmetry; exact Ez|]. intros z' Hz'. apply H2. apply in_map. exact Hz'.
Qed.
Lemma found_of_total p : samples p <> [] -> exists f, found_of samples p = Ok f.
Proof.
  intros H. unfold found_of. destruct (np_max_greatest (map Cmod (samples p))) as (v & Ev & _). { destruct (samples p); [congruence|discriminate]. }
  rewrite Ev. cbn [bind]. eexists. reflexivity.
Qed.
Lemma read_play m st q p st' : plays_first m q p -> read_qubit samples drag lsq m st q = Ok st' -> exists r, snd st' = snd st ++ [r] /\ reads p r.
Proof.
  intros H E. destruct (plays_first_play m q p H) as (e & Ee & Ep). unfold read_qubit in E. rewrite Ee, Ep in E. apply bind_inv in E. destruct E as (cur & E1 & E). apply bind_inv in E1. destruct E1 as (f & Ef & E1). injection E1 as <-.
  destruct (found_of_ok p f Ef) as (mx & Hm & ->). fold (problem samples drag p) in E. fold (start samples p mx) in E. destruct (lsq (problem samples drag p) (start samples p mx)) as [[a s] b] eqn:El. injection E as <-. cbn [snd]. eexists. split; [reflexivity|].
  exists mx. split; [exact Hm|]. rewrite El. reflexivity.
Qed.
Lemma read_all m qs st st' : (forall q, In q qs -> exists p, plays_first m q p) -> foldM (read_qubit samples drag lsq m) qs st = Ok st' ->
  exists rs, snd st' = snd st ++ rs /\ Forall2 (fun q r => exists p, plays_first m q p /\ reads p r) qs rs.
Proof.
  revert st. induction qs as [|q qs IH]; intros st H E; cbn [foldM] in E.
  - injection E as <-. exists []. split; [rewrite app_nil_r; reflexivity|apply Forall2_nil].
  - apply bind_inv in E. destruct E as (st1 & E1 & E). destruct (H q (or_introl eq_refl)) as (p & Hp). destruct (read_play m st q p st1 Hp E1) as (r & Er & Hr).
    destruct (IH st1 (fun q' Hq' => H q' (or_intror Hq')) E) as (rs & Es & Hs). exists (r :: rs). split; [rewrite Es, Er, <- app_assoc; reflexivity|]. apply Forall2_cons; [exists p; split; assumption|exact Hs].
Qed.
Lemma get_reads m qs rs : (forall q, In q qs -> exists p, plays_first m q p) -> get_single_q_pulse samples drag lsq m qs = Ok rs -> Forall2 (fun q r => exists p, plays_first m q p /\ reads p r) qs rs.
Proof.
  intros H E. unfold get_single_q_pulse in E. apply bind_inv in E. destruct E as (st & E1 & E). injection E as <-. destruct (read_all m qs (None, []) st H E1) as (rs & Es & Hs). rewrite Es. exact Hs.
Qed.
Lemma get_total m qs : (forall q, In q qs -> exists p, plays_first m q p /\ samples p <> []) -> exists rs, get_single_q_pulse samples drag lsq m qs = Ok rs.
Proof.
  intros H. unfold get_single_q_pulse. assert (G : forall st, exists st', foldM (read_qubit samples drag lsq m) qs st = Ok st').
  { induction qs as [|q qs IH]; intros st; cbn [foldM]; [eexists; reflexivity|]. destruct (H q (or_introl eq_refl)) as (p & Hp & Hn). destruct (plays_first_play m q p Hp) as (e & Ee & Ep). unfold read_qubit at 1. rewrite Ee, Ep.
    destruct (found_of_total p Hn) as (f & Ef). rewrite Ef. cbn [bind]. destruct f as [[d mx] ss]. destruct (lsq _ _) as [[a s] b]. cbn [bind]. apply IH. intros q' Hq'. apply H. right. exact Hq'. }
  destruct (G (None, [])) as (st & ->). cbn [bind]. eexists. reflexivity.
Qed.
(** What a solved problem gives. *)
Lemma reads_best p r : reads p r -> (forall mx, peak_of samples p mx -> minimal (problem samples drag p) (lsq (problem samples drag p) (start samples p mx))) ->
  p_duration r = length (samples p) /\ exists b, p_beta r = Some b /\ forall a' s' b', (dist2 (rotated (- (PI / 2)) (drag (p_duration r) (p_amp r) (p_sigma r) b)) (samples p) <= dist2 (rotated (- (PI / 2)) (drag (p_duration r) a' s' b')) (samples p))%R.
Proof.
  intros (mx & Hm & Hr) Hmin. specialize (Hmin mx Hm). destruct (lsq (problem samples drag p) (start samples p mx)) as [[a s] b]. subst r. cbn [p_duration p_amp p_sigma p_beta]. split; [reflexivity|]. exists b. split; [reflexivity|].
  intros a' s' b'. specialize (Hmin (a', s', b')). unfold problem in Hmin. rewrite !residual in Hmin by reflexivity. exact Hmin.
Qed.
Lemma reads_not_worse p r : reads p r -> (forall mx, peak_of samples p mx -> norm2 (problem samples drag p (lsq (problem samples drag p) (start samples p mx))) <= norm2 (problem samples drag p (start samples p mx)))%R ->
  exists mx b, peak_of samples p mx /\ p_beta r = Some b /\ p_duration r = length (samples p) /\ (dist2 (rotated (- (PI / 2)) (drag (p_duration r) (p_amp r) (p_sigma r) b)) (samples p) <= dist2 (rotated (- (PI / 2)) (drag (p_duration r) mx (INR (p_duration r) / 4) (mx / 5))) (samples p))%R.
Proof.
  intros (mx & Hm & Hr) Hmin. specialize (Hmin mx Hm). exists mx. destruct (lsq (problem samples drag p) (start samples p mx)) as [[a s] b]. subst r. cbn [p_duration p_amp p_sigma p_beta]. exists b. split; [exact Hm|]. split; [reflexivity|]. split; [reflexivity|].
  unfold problem, start in Hmin. rewrite !residual in Hmin by reflexivity. exact Hmin.
Qed.
Lemma reads_exact p r a s b : reads p r -> (forall mx, peak_of samples p mx -> minimal (problem samples drag p) (lsq (problem samples drag p) (start samples p mx))) -> samples p = rotated (- (PI / 2)) (drag (length (samples p)) a s b) ->
  exists b', p_beta r = Some b' /\ rotated (- (PI / 2)) (drag (p_duration r) (p_amp r) (p_sigma r) b') = samples p.
Proof.
  intros H1 H2 E. destruct (reads_best p r H1 H2) as (Ed & b' & Eb & H). exists b'. split; [exact Eb|]. apply dist2_zero; [rewrite rotated_length, Hlen; exact Ed|]. specialize (H a s b). rewrite Ed in H at 2. rewrite <- E, dist2_same in H. exact H.
Qed.

(** ** Reading back what was written *)
Context (g h : nat -> R -> nat -> R).
Hypothesis (Hshape : drag_shaped drag g h).
Definition sumf (d : nat) (f : nat -> R) : R := fold_right Rplus 0%R (map f (seq 0 d)).
Lemma rev_seq d : map (fun k => d - 1 - k) (seq 0 d) = rev (seq 0 d).
Proof.
  apply nth_ext with (d := d - 1 - 0) (d' := 0); [rewrite map_length, rev_length; reflexivity|]. intros n Hn. rewrite map_length, seq_length in Hn.
  rewrite (map_nth (fun k => d - 1 - k)), rev_nth, seq_length, !seq_nth by (rewrite ?seq_length; lia). lia.
Qed.
Lemma sum_perm l l' : Permutation l l' -> fold_right Rplus 0%R l = fold_right Rplus 0%R l'.
Proof. induction 1 as [|a l l' H IH|a b l|l l' l'' H IH H' IH']; cbn [fold_right]; lra. Qed.
Lemma sumf_odd d f : (forall k, k < d -> f (d - 1 - k) = (- f k)%R) -> sumf d f = 0%R.
Proof.
  intros H. unfold sumf. assert (E : fold_right Rplus 0%R (map f (seq 0 d)) = fold_right Rplus 0%R (map (fun k => (- f k)%R) (seq 0 d))).
  { rewrite (sum_perm (map f (seq 0 d)) (map f (rev (seq 0 d)))) by (apply Permutation_map, Permutation_rev). rewrite <- rev_seq, map_map. f_equal. apply map_ext_in. intros k Hk. apply in_seq in Hk. apply H. lia. }
  assert (N : forall l, fold_right Rplus 0%R (map (fun k => (- f k)%R) l) = (- fold_right Rplus 0%R (map f l))%R) by (induction l as [|k l IH]; cbn [map fold_right]; [ring|rewrite IH; ring]).
  rewrite N in E. lra.
Qed.
Lemma sumf_plus d f f' : sumf d (fun k => f k + f' k)%R = (sumf d f + sumf d f')%R.
Proof. unfold sumf. induction (seq 0 d) as [|k l IH]; cbn [map fold_right]; [ring|rewrite IH; ring]. Qed.
Lemma sumf_scal d c f : sumf d (fun k => c * f k)%R = (c * sumf d f)%R.
Proof. unfold sumf. induction (seq 0 d) as [|k l IH]; cbn [map fold_right]; [ring|rewrite IH; ring]. Qed.
Lemma sumf_ext d f f' : (forall k, k < d -> f k = f' k) -> sumf d f = sumf d f'.
Proof. intros H. unfold sumf. f_equal. apply map_ext_in. intros k Hk. apply in_seq in Hk. apply H. lia. Qed.
Lemma sumf_zero d f : (forall k, k < d -> (0 <= f k)%R) -> (sumf d f <= 0)%R -> forall k, k < d -> f k = 0%R.
Proof.
  intros Hp Hs k Hk. unfold sumf in Hs. assert (G : forall l, (forall j, In j l -> (0 <= f j)%R) -> (0 <= fold_right Rplus 0%R (map f l))%R /\ ((fold_right Rplus 0%R (map f l) <= 0)%R -> forall j, In j l -> f j = 0%R)).
  { induction l as [|j l IH]; intros H; cbn [map fold_right]; [split; [lra|intros _ j []]|]. destruct (IH (fun i Hi => H i (or_intror Hi))) as [I1 I2]. pose proof (H j (or_introl eq_refl)). split; [lra|]. intros Hz i [<- | Hi]; [lra|]. apply I2; [lra|exact Hi]. }
  apply (proj2 (G (seq 0 d) (fun j Hj => Hp j ltac:(apply in_seq in Hj; lia))) Hs). apply in_seq. lia.
Qed.
Lemma dist2_sum (F S : nat -> C) l : dist2 (map F l) (map S l) = fold_right Rplus 0%R (map (fun k => sq (Cminus (F k) (S k))) l).
Proof. induction l as [|k l IH]; cbn [map dist2 fold_right]; [reflexivity|]. rewrite IH. reflexivity. Qed.
Lemma shaped_dist d a s b a' s' b' : dist2 (rotated (- (PI / 2)) (drag d a' s' b')) (drag d a s b) =
  (sumf d (fun k => (a' * b' * h d s' k) * (a' * b' * h d s' k) + (a' * g d s' k) * (a' * g d s' k)) + sumf d (fun k => (a * g d s k) * (a * g d s k) + (a * b * h d s k) * (a * b * h d s k)))%R.
Proof.
  destruct (Hshape d s) as [E1 O1]. destruct (Hshape d s') as [E2 O2]. rewrite E1, E2. unfold rotated. rewrite map_map, dist2_sum. fold (sumf d (fun k => sq (Cminus (Cmult (expi (- (PI / 2))) (a' * g d s' k, a' * b' * h d s' k)%R) (a * g d s k, a * b * h d s k)%R))).
  assert (X : sumf d (fun k => (- (2 * a' * b' * a) * (h d s' k * g d s k) + 2 * a' * a * b * (g d s' k * h d s k))%R) = 0%R).
  { apply sumf_odd. intros k Hk. destruct (O1 k Hk) as [-> ->]. destruct (O2 k Hk) as [-> ->]. ring. }
  rewrite <- sumf_plus, <- (Rplus_0_r (sumf d (fun k => _ + _)%R)), <- X, <- sumf_plus. apply sumf_ext. intros k _. unfold sq, expi. rewrite cos_neg, sin_neg, cos_PI2, sin_PI2. cbn. ring.
Qed.
Lemma reads_back p r b : reads p r -> (forall mx, peak_of samples p mx -> minimal (problem samples drag p) (lsq (problem samples drag p) (start samples p mx))) -> samples p = drag (length (samples p)) (p_amp p) (p_sigma p) b ->
  exists b', p_beta r = Some b' /\ drag (p_duration r) (p_amp r) (p_sigma r) b' = map (fun _ => RtoC 0) (seq 0 (length (samples p))).
Proof.
  intros H1 H2 E. destruct (reads_best p r H1 H2) as (Ed & b' & Eb & H). exists b'. split; [exact Eb|]. rewrite Ed in *. set (d := length (samples p)) in *. specialize (H 0%R (p_sigma r) b').
  rewrite E, !shaped_dist in H. set (q := sumf d (fun k => p_amp p * g d (p_sigma p) k * _ + _)%R) in H.
  assert (Z : sumf d (fun k => 0 * b' * h d (p_sigma r) k * (0 * b' * h d (p_sigma r) k) + 0 * g d (p_sigma r) k * (0 * g d (p_sigma r) k))%R = 0%R).
  { rewrite (sumf_ext d _ (fun k => 0 * 0)%R) by (intros; ring). rewrite sumf_scal. ring. }
  rewrite Z in H. assert (L : (sumf d (fun k => p_amp r * b' * h d (p_sigma r) k * (p_amp r * b' * h d (p_sigma r) k) + p_amp r * g d (p_sigma r) k * (p_amp r * g d (p_sigma r) k)) <= 0)%R) by lra.
  destruct (Hshape d (p_sigma r)) as [E1 _]. rewrite E1. apply map_ext_in. intros k Hk. apply in_seq in Hk.
  assert (P : forall x, (0 <= x * x)%R) by (intros x; exact (Rle_0_sqr x)).
  pose proof (sumf_zero d _ (fun k _ => Rplus_le_le_0_compat _ _ (P _) (P _)) L k ltac:(lia)) as Zk. cbv beta in Zk.
  pose proof (P (p_amp r * b' * h d (p_sigma r) k)%R). pose proof (P (p_amp r * g d (p_sigma r) k)%R). apply injective_projections; cbn; nra.
Qed.
End Read.

(** ** Reading and writing *)
Lemma emit_filter samples ch l st : fold_left (emit samples ch) (map snd l) st = fold_left (emit samples ch) (map snd (filter (on_chan ch) l)) st.
Proof.
  revert st. induction l as [|[t i] l IH]; intros st; [reflexivity|]. cbn [map snd fold_left filter]. unfold on_chan at 1. cbn [snd]. rewrite IH.
  destruct i as [p c|x c|d cs]; cbn [emit]; [destruct (eqb c ch) eqn:E|destruct (eqb c ch) eqn:E|reflexivity]; try reflexivity; cbn [map snd fold_left emit]; rewrite E; reflexivity.
Qed.
Lemma emitted_three samples ch p a b t t' l l0 : happens l0 l -> Permutation (filter (on_chan ch) l0) [(t, ShiftPhase a ch); (t, Play p ch); (t', ShiftPhase b ch)] -> t < t' ->
  emitted samples ch l = ((a + b)%R, [rotated a (samples p)]).
Proof.
  intros H P Ht. unfold emitted. rewrite emit_filter. rewrite (happens_on ch l0 l _ H P).
  - cbn [map snd fold_left emit]. rewrite !eqb_refl. cbn [fst snd app]. rewrite Rplus_0_l. reflexivity.
  - repeat constructor; unfold rank; cbn [fst snd is_shift]; lia.
Qed.
Lemma emitted_native samples y ch v l : p_duration y > 0 -> happens (e_sched (native_u2 y ch) v) l -> emitted samples ch l = ((- v (str "P1") + - v (str "P0"))%R, [rotated (- v (str "P1")) (samples y)]).
Proof.
  intros Hd H. apply (emitted_three samples ch y _ _ 0 (p_duration y) l _ H); [|lia]. cbn [native_u2 e_sched filter]. unfold on_chan. cbn [snd]. rewrite !eqb_refl. apply Permutation_refl.
Qed.
Lemma emitted_updated samples r ch g v l : NoDup g -> In ch g -> p_duration r > 0 -> happens (e_sched (u2_entry [(0, Play r ch)] g) v) l ->
  emitted samples ch l = ((- v (str "P1") + - v (str "P0"))%R, [rotated (- v (str "P1") + PI / 2) (samples r)]).
Proof.
  intros Hn Hg Hd H. replace (- v (str "P1") + - v (str "P0"))%R with ((- v (str "P1") + PI / 2) + (- v (str "P0") + - PI / 2))%R by field.
  apply (emitted_three samples ch r _ _ 0 (p_duration r) l _ H); [|lia]. assert (Em : mem ch g = true) by (apply mem_In; exact Hg).
  cbn [u2_entry e_sched]. rewrite duration_one, !filter_app. cbn [filter]. unfold on_chan at 1. cbn [snd]. rewrite eqb_refl, !filter_fc, Em by exact Hn. cbn [app]. apply perm_swap.
Qed.
Lemma native_plays m q y ch : dget m (str "u2", q) = Some (native_u2 y ch) -> plays_first m q y.
Proof.
  intros E. exists (native_u2 y ch), 0, ch. split; [exact E|]. cbn [native_u2 e_sched]. split; [right; left; reflexivity|]. intros t' p' ch' [K|[K|[K|[]]]] _; [discriminate K| |discriminate K]. injection K as _ <- _. reflexivity.
Qed.
Lemma native_once y ch : p_duration y > 0 -> shifts_once (e_sched (native_u2 y ch) (fun _ => 0%R)).
Proof.
  intros H c. unfold shifts_of. cbn [native_u2 e_sched flat_map snd fst]. destruct (eqb ch c); cbn [app]; [|constructor]. constructor; [intros [K|[]]; injection K as K; lia|constructor; [intros []|constructor]].
Qed.
Lemma Forall2_seq {B} (P : nat -> B -> Prop) n (rs : list B) : Forall2 P (seq 0 n) rs -> forall q, q < n -> exists r, nth_error rs q = Some r /\ P q r.
Proof.
  assert (G : forall s, Forall2 P (seq s n) rs -> forall q, q < n -> exists r, nth_error rs q = Some r /\ P (s + q) r).
  { revert rs. induction n as [|n IH]; intros rs s H q Hq; [lia|]. cbn [seq] in H. inversion H as [|? r ? rs' Hr H']; subst. destruct q as [|q]; [exists r; split; [reflexivity|rewrite Nat.add_0_r; exact Hr]|].
    destruct (IH rs' (S s) H' q ltac:(lia)) as (r' & E & Hr'). exists r'. split; [exact E|]. replace (s + S q) with (S s + q) by lia. exact Hr'. }
  exact (G 0).
Qed.
