(** Circuits of linear.py and their probabilities over the complex numbers; parities of counts (C40, C60). *)
From Coq Require Import QArith Qreals Reals Lra.
From Coquelicot Require Import Coquelicot.
From Verif Require Import LinAlg Base CountsModel CountsSpec CountsProofs ResultFacts QSem DihedralModel RBSeqModel RBSeqSpec RBSeqActProofs CtmpSpec StdGates AccSpec AccLayerProofs AccQotpProofs AccProbProofs EntModel EntSpec EntGhzProofs EntProbProofs.
Open Scope nat_scope.

(** ** The linear circuit is a tree *)
Definition line (n : nat) : list (nat * nat) := map (fun k => (k - 1, k)) (seq 1 (n - 1)).
Lemma line_grows m : forall k s, (forall j, j <= k -> In j s) -> (forall j, In j s -> j <= k) -> grows s (map (fun k => (k - 1, k)) (seq (S k) m)).
Proof.
  induction m as [|m IH]; intros k s H1 H2; [exact I|]. cbn [seq map grows]. split; [apply H1; lia|]. split; [intros H; apply H2 in H; lia|].
  apply IH.
  - intros j Hj. apply in_app_iff. destruct (Nat.eq_dec j (S k)) as [->|Hn]; [right; left; reflexivity|left; apply H1; lia].
  - intros j Hj. apply in_app_iff in Hj. destruct Hj as [Hj|[<-|[]]]; [apply H2 in Hj; lia|lia].
Qed.
Lemma line_tree n : 0 < n -> tree n (line n).
Proof.
  intros Hn. constructor.
  - unfold line. apply Forall_map, Forall_forall. intros k Hk. apply in_seq in Hk. unfold proper. cbn. lia.
  - apply (line_grows (n - 1) 0 [0]); [intros j Hj; left; lia|intros j [<-|[]]; lia].
  - intros j Hj. destruct j as [|j]; [left; reflexivity|right]. unfold line. rewrite map_map. cbn [snd]. rewrite map_id. apply in_seq. lia.
Qed.
Lemma ghz_linear_cxs n : ghz_linear n = had 0 :: cxs (line n).
Proof. unfold ghz_linear, cxs, line. rewrite map_map. reflexivity. Qed.

Lemma ok_same {A} (a b : A) : Ok a = Ok b -> a = b.
Proof. intros H. injection H. auto. Qed.
Lemma gates_bar n : gates [bar n] = []. Proof. reflexivity. Qed.
Lemma gates_measures (l : list nat) : gates (map (fun q => CMeasure q q) l) = [].
Proof. induction l as [|q l IH]; [reflexivity|]. exact IH. Qed.
Lemma meas_circ_inv n full m : get_measurement_circ n full = Ok m -> 0 < n /\ gates m = [] /\ m = bar n :: (if full then map (fun q => CMeasure q q) (seq 0 n) else [CMeasure 0 0]).
Proof.
  unfold get_measurement_circ, register. destruct (Nat.eqb_spec n 0) as [->|Hn]; [discriminate|]. cbn [bind]. destruct full; intros H; injection H as <-; (split; [lia|]); (split; [|reflexivity]); [|reflexivity].
  cbn. apply gates_measures.
Qed.
Definition no_measure (i : cinstr) : Prop := match i with CMeasure _ _ => False | _ => True end.
Lemma measures_full n body : Forall no_measure body -> measures_all n (body ++ bar n :: map (fun q => CMeasure q q) (seq 0 n)).
Proof.
  intros Hb. rewrite Forall_forall in Hb. split.
  - intros q c H. apply in_app_iff in H. destruct H as [H|[H|H]]; [apply Hb in H; destruct H|discriminate|]. apply in_map_iff in H. destruct H as (k & E & Hk). injection E as <- <-. apply in_seq in Hk. lia.
  - intros q Hq. apply in_app_iff. right. right. apply in_map_iff. exists q. split; [reflexivity|apply in_seq; lia].
Qed.
Lemma reads_first n body y : Forall no_measure body -> reads 1 (body ++ [bar n; CMeasure 0 0]) y = [nth 0 y false].
Proof.
  intros Hb. unfold reads. rewrite fold_left_app. assert (E : forall cl, fold_left (fun cl i => match i with CMeasure q c => set1 cl c (nth q y false) | _ => cl end) body cl = cl).
  { induction Hb as [|a l Ha Hl IH]; intros cl; [reflexivity|]. cbn. rewrite IH. destruct a; [reflexivity|reflexivity|destruct Ha]. }
  rewrite E. reflexivity.
Qed.
Lemma no_measure_cxs edges : Forall no_measure (cxs edges).
Proof. apply Forall_map, Forall_forall. intros; exact I. Qed.
Lemma no_measure_all n name ps : Forall no_measure (on_all n name ps).
Proof. apply Forall_map, Forall_forall. intros; exact I. Qed.

(** ** Probabilities *)
Section Prob.
Context {F : Type} {HF : Fld F} {K : Type} {HK : Fld K}.
Add Field FldFieldK : (fth (F:=K)).
Variable gmat : pystr -> list Q -> bits -> bits -> F.
Variable w : F -> K.
Lemma prob_full n ops y : measures_all n ops -> length y = n -> prob gmat w n n ops (key_of y) = fdiv (w (final gmat n ops y)) (total gmat w n ops).
Proof.
  intros Hm Hy. unfold prob. f_equal.
  rewrite (fsum_map_ext _ (fun y' => if eqb y y' then w (final gmat n ops y) else f0)).
  - apply (fsum_pick (cube n) y (fun _ => w (final gmat n ops y))); [apply cube_NoDup|apply in_cube, Hy].
  - intros y' Hy'. apply in_cube in Hy'. rewrite reads_all by assumption. destruct (eqb_spec (key_of y') (key_of y)) as [E|E].
    + apply key_inj in E. subst y'. rewrite eqb_refl. reflexivity.
    + destruct (eqb_spec y y') as [<-|_]; [contradiction|reflexivity].
Qed.
Lemma total_two n ops a b : length a = n -> length b = n -> a <> b -> (forall x, length x = n -> x <> a -> x <> b -> w (final gmat n ops x) = f0) ->
  total gmat w n ops = fadd (w (final gmat n ops a)) (w (final gmat n ops b)).
Proof.
  intros Ha Hb Hab Hz. unfold total. apply (fsum_two (fun y => w (final gmat n ops y))); [apply cube_NoDup|apply in_cube, Ha|apply in_cube, Hb|exact Hab|].
  intros x Hx. apply in_cube in Hx. apply Hz, Hx.
Qed.
Lemma prob_first n body a b ba : Forall no_measure body -> length a = n -> length b = n -> nth 0 a false = ba -> nth 0 b false = negb ba ->
  (forall x, length x = n -> x <> a -> x <> b -> w (final gmat n (body ++ [bar n; CMeasure 0 0]) x) = f0) ->
  prob gmat w n 1 (body ++ [bar n; CMeasure 0 0]) (key_of [ba]) = fdiv (w (final gmat n (body ++ [bar n; CMeasure 0 0]) a)) (total gmat w n (body ++ [bar n; CMeasure 0 0])).
Proof.
  intros Hb La Lb Na Nb Hz. assert (Hab : a <> b) by (intros ->; rewrite Na in Nb; destruct ba; discriminate). unfold prob. f_equal. rewrite (fsum_two _ _ a b); [|apply cube_NoDup|apply in_cube, La|apply in_cube, Lb|exact Hab|].
  - rewrite !reads_first by exact Hb. rewrite Na, Nb, eqb_refl. destruct (eqb_spec (key_of [negb ba]) (key_of [ba])) as [E|_]; [apply key_inj in E; destruct ba; discriminate|ring].
  - intros x Hx H1 H2. apply in_cube in Hx. rewrite (Hz x) by assumption. destruct (eqb _ _); reflexivity.
Qed.
End Prob.

(** ** Complex numbers *)
Local Open Scope R_scope.
Lemma fpow_expi t n : fpow (expi t) n = expi (INR n * t).
Proof.
  induction n as [|n IH]; [unfold expi; cbn; rewrite Rmult_0_l, cos_0, sin_0; reflexivity|]. cbn [fpow]. rewrite IH, S_INR. unfold expi.
  change (fmul (cos t, sin t) (cos (INR n * t), sin (INR n * t))) with (Cmult (cos t, sin t) (cos (INR n * t), sin (INR n * t))). unfold Cmult. cbn [fst snd].
  replace ((INR n + 1) * t) with (t + INR n * t) by ring. rewrite cos_plus, sin_plus. f_equal; ring.
Qed.
Lemma sqmod_mul a b : sqmod (Cmult a b) = sqmod a * sqmod b.
Proof. destruct a, b. unfold sqmod, Cmult. cbn. ring. Qed.
Lemma sqmod_weighing : weighing sqmod.
Proof. constructor; intros; try (apply sqmod_mul); unfold sqmod; cbn; ring. Qed.
Lemma sqmod_sum t : sqmod (Cplus (expi t) 1) = 2 + 2 * cos t.
Proof. unfold sqmod, expi. cbn. pose proof (sin2_cos2 t) as E. unfold Rsqr in E. nra. Qed.
Lemma sqmod_diff t : sqmod (Cminus (expi t) 1) = 2 - 2 * cos t.
Proof. unfold sqmod, expi. cbn. pose proof (sin2_cos2 t) as E. unfold Rsqr in E. nra. Qed.

Section Circuits.
Variable gmat : pystr -> list Q -> bits -> bits -> C.
Variables r i : C.
Hypothesis Hstd : std_gates gmat r i.

Lemma r_half : sqmod r = / 2.
Proof.
  pose proof (sg_r _ _ _ Hstd) as E. apply (f_equal sqmod) in E. change (sqmod (Cmult (Cplus 1 1) (Cmult r r)) = sqmod 1) in E. rewrite !sqmod_mul in E.
  assert (E2 : sqmod (Cplus 1 1) = 4) by (unfold sqmod; cbn; ring). assert (E1 : sqmod 1 = 1) by (unfold sqmod; cbn; ring). rewrite E1, E2 in E.
  assert (P : 0 <= sqmod r) by (unfold sqmod; nra). assert ((2 * sqmod r - 1) * (2 * sqmod r + 1) = 0) by nra. apply Rmult_integral in H. destruct H; lra.
Qed.

(** [get_ghz_simple]. *)
Theorem ghz_simple_state n full circ : get_ghz_simple n false full = Ok circ -> eqa n (final gmat n circ) (ghz r n).
Proof.
  unfold get_ghz_simple, register. destruct (Nat.eqb_spec n 0) as [->|Hn]; [discriminate|]. cbn [bind]. intros H. injection H as <-. rewrite ghz_linear_cxs.
  apply (tree_ghz gmat r i Hstd); [lia|apply line_tree; lia].
Qed.
Lemma simple_inv n full circ : get_ghz_simple n true full = Ok circ ->
  (0 < n)%nat /\ circ = ((had 0 :: cxs (line n)) ++ bar n :: (if full then map (fun q => CMeasure q q) (seq 0 n) else [CMeasure 0 0]))%list.
Proof.
  unfold get_ghz_simple, register. destruct (Nat.eqb_spec n 0) as [->|Hn]; [discriminate|]. cbn [bind]. intros H. inv_bind H. apply meas_circ_inv in E. destruct E as (_ & _ & ->). rewrite ghz_linear_cxs in H. injection H as <-. split; [lia|reflexivity].
Qed.
Lemma ghz_measured n full circ : get_ghz_simple n true full = Ok circ -> eqa n (final gmat n circ) (ghz r n).
Proof.
  intros H. destruct (simple_inv n full circ H) as [Hn ->]. intros x Hx. unfold final. rewrite gates_app. cbn [gates flat_map app]. 
  replace (flat_map _ (if full then map (fun q => CMeasure q q) (seq 0 n) else [CMeasure 0 0])) with (@nil ginstr) by (destruct full; [symmetry; apply gates_measures|reflexivity]).
  rewrite app_nil_r. apply (tree_ghz gmat r i Hstd); [lia|apply line_tree; lia|exact Hx].
Qed.
Lemma ghz_at n : (0 < n)%nat -> ghz r n (zeros n) = r /\ ghz r n (ones n) = r /\ (forall x, x <> zeros n -> x <> ones n -> ghz r n x = f0).
Proof.
  intros Hn. unfold ghz. split; [|split].
  - replace (mem (zeros n) [zeros n; ones n]) with true; [reflexivity|]. symmetry. apply mem_In. cbn; auto.
  - replace (mem (ones n) [zeros n; ones n]) with true; [reflexivity|]. symmetry. apply mem_In. cbn; auto.
  - intros x H1 H2. replace (mem x [zeros n; ones n]) with false; [reflexivity|]. symmetry. apply mem_not_In. intros [E|[E|[]]]; subst x; contradiction.
Qed.
Theorem ghz_simple_prob n circ : get_ghz_simple n true true = Ok circ -> forall y, length y = n ->
  prob gmat sqmod n n circ (key_of y) = if mem y [zeros n; ones n] then / 2 else 0.
Proof.
  intros H y Hy. pose proof (ghz_measured n true circ H) as Hf. destruct (simple_inv n true circ H) as [Hn ->]. destruct (ghz_at n Hn) as (G0 & G1 & G2).
  set (ops := ((had 0 :: cxs (line n)) ++ bar n :: map (fun q => CMeasure q q) (seq 0 n))%list) in *.
  rewrite prob_full; [|apply measures_full; constructor; [exact I|apply no_measure_cxs]|exact Hy].
  rewrite (total_two gmat sqmod n ops (zeros n) (ones n)); [|apply length_zeros|apply length_ones|intros E; symmetry in E; apply ones_neq in E; auto|].
  - rewrite !Hf by (auto using length_zeros, length_ones). rewrite G0, G1, r_half. change (sqmod (ghz r n y) / (/2 + /2) = if mem y [zeros n; ones n] then / 2 else 0).
    unfold ghz. destruct (mem y [zeros n; ones n]); [rewrite r_half; field|]. unfold sqmod. cbn. field.
  - intros x Hx H1 H2. rewrite Hf, G2 by assumption. unfold sqmod. cbn. ring.
Qed.
Lemma nth0_zeros n : nth 0 (zeros n) false = false. Proof. apply nth_repeat. Qed.
Theorem ghz_simple_first n circ : get_ghz_simple n true false = Ok circ -> forall b, prob gmat sqmod n 1 circ (key_of [b]) = / 2.
Proof.
  intros H b. pose proof (ghz_measured n false circ H) as Hf. destruct (simple_inv n false circ H) as [Hn ->]. destruct (ghz_at n Hn) as (G0 & G1 & G2).
  set (body := (had 0 :: cxs (line n))%list) in *. assert (Hb : Forall no_measure body) by (constructor; [exact I|apply no_measure_cxs]).
  assert (Hz : forall x, length x = n -> x <> zeros n -> x <> ones n -> sqmod (final gmat n (body ++ [bar n; CMeasure 0 0]) x) = f0).
  { intros x Hx H1 H2. rewrite Hf, G2 by assumption. unfold sqmod. cbn. ring. }
  assert (N1 : nth 0 (ones n) false = true) by (destruct n; [lia|reflexivity]).
  assert (T : total gmat sqmod n (body ++ [bar n; CMeasure 0 0]) = / 2 + / 2).
  { rewrite (total_two gmat sqmod n _ (zeros n) (ones n)); [|apply length_zeros|apply length_ones|intros E; symmetry in E; apply ones_neq in E; auto|exact Hz].
    rewrite !Hf by (auto using length_zeros, length_ones). rewrite G0, G1, r_half. reflexivity. }
  destruct b.
  - rewrite (prob_first gmat sqmod n body (ones n) (zeros n) true); auto using length_zeros, length_ones.
    + rewrite T, Hf, G1, r_half by apply length_ones. change (/ 2 / (/ 2 + / 2) = / 2). field.
    + apply nth0_zeros.
  - rewrite (prob_first gmat sqmod n body (zeros n) (ones n) false); auto using length_zeros, length_ones.
    + rewrite T, Hf, G0, r_half by apply length_zeros. change (/ 2 / (/ 2 + / 2) = / 2). field.
    + apply nth0_zeros.
Qed.

(** [get_ghz_mqc]. *)
Lemma mqc_inv n delta full circ : get_ghz_mqc n delta full = Ok circ ->
  (0 < n)%nat /\ exists body, Forall no_measure body /\ gates body = gates ((had 0 :: cxs (line n)) ++ on_all n "u1" [delta] ++ on_all n "x" [] ++ inverse (had 0 :: cxs (line n))) /\
   circ = (body ++ bar n :: (if full then map (fun q => CMeasure q q) (seq 0 n) else [CMeasure 0 0]))%list.
Proof.
  unfold get_ghz_mqc. intros H. inv_bind H. unfold get_ghz_simple, register in E. destruct (Nat.eqb_spec n 0) as [->|Hn]; [discriminate|]. cbn [bind] in E. injection E as <-.
  inv_bind H. apply meas_circ_inv in E. destruct E as (_ & _ & ->). rewrite !ghz_linear_cxs in H. split; [lia|].
  exists ((had 0 :: cxs (line n)) ++ [bar n] ++ on_all n "u1" [delta] ++ on_all n "x" [] ++ [bar n] ++ inverse (had 0 :: cxs (line n)))%list. split; [|split].
  - assert (N : Forall no_measure (had 0 :: cxs (line n))) by (constructor; [exact I|apply no_measure_cxs]).
    assert (N' : Forall no_measure (inverse (had 0 :: cxs (line n)))) by (apply Forall_rev, N). assert (NB : Forall no_measure [bar n]) by (repeat constructor).
    rewrite !Forall_app. auto 10 using no_measure_all.
  - rewrite !gates_app. cbn [gates flat_map app]. rewrite !app_nil_l. reflexivity.
  - apply ok_same in H. rewrite <- H, <- !app_assoc. reflexivity.
Qed.
Theorem mqc_prob n delta circ full : get_ghz_mqc n delta full = Ok circ -> u1_phase gmat delta (expi (Q2R delta)) ->
  prob gmat sqmod n (if full then n else 1%nat) circ (key_of (zeros (if full then n else 1%nat))) = (1 + cos (INR n * Q2R delta)) / 2.
Proof.
  intros H Hu. destruct (mqc_inv n delta full circ H) as (Hn & body & Hb & Hg & ->).
  set (ops := (body ++ bar n :: (if full then map (fun q => CMeasure q q) (seq 0 n) else [CMeasure 0 0]))%list) in *.
  assert (Hf : forall x, length x = n -> final gmat n ops x = mqc_amp r (expi (Q2R delta)) n x).
  { intros x Hx. unfold final, ops. rewrite gates_app.
    replace (gates (bar n :: (if full then map (fun q => CMeasure q q) (seq 0 n) else [CMeasure 0 0]))) with (@nil ginstr) by (destruct full; [symmetry; apply gates_measures|reflexivity]).
    rewrite app_nil_r, Hg. apply (mqc_final gmat r i Hstd n (line n) delta); auto. apply line_tree, Hn. }
  pose proof (first_one_neq n Hn) as Hne.
  assert (A0 : sqmod (final gmat n ops (zeros n)) = (1 + cos (INR n * Q2R delta)) / 2).
  { rewrite Hf by apply length_zeros. unfold mqc_amp. rewrite eqb_refl, fpow_expi. change (sqmod (Cmult (Cmult r r) (Cplus (expi (INR n * Q2R delta)) 1)) = (1 + cos (INR n * Q2R delta)) / 2). rewrite !sqmod_mul, r_half, sqmod_sum. field. }
  assert (A1 : sqmod (final gmat n ops (first_one n)) = (1 - cos (INR n * Q2R delta)) / 2).
  { rewrite Hf by apply length_first. unfold mqc_amp. destruct (eqb_spec (first_one n) (zeros n)); [contradiction|]. rewrite eqb_refl, fpow_expi. change (sqmod (Cmult (Cmult r r) (Cminus (expi (INR n * Q2R delta)) 1)) = (1 - cos (INR n * Q2R delta)) / 2). rewrite !sqmod_mul, r_half, sqmod_diff. field. }
  assert (Az : forall x, length x = n -> x <> zeros n -> x <> first_one n -> sqmod (final gmat n ops x) = f0).
  { intros x Hx H1 H2. rewrite Hf by exact Hx. unfold mqc_amp. destruct (eqb_spec x (zeros n)); [contradiction|]. destruct (eqb_spec x (first_one n)); [contradiction|]. unfold sqmod. cbn. ring. }
  assert (T : total gmat sqmod n ops = 1).
  { rewrite (total_two gmat sqmod n ops (zeros n) (first_one n)); auto using length_zeros, length_first. rewrite A0, A1. change ((1 + cos (INR n * Q2R delta)) / 2 + (1 - cos (INR n * Q2R delta)) / 2 = 1). field. }
  destruct full.
  - rewrite prob_full by (auto using length_zeros; apply measures_full, Hb). rewrite A0, T. change ((1 + cos (INR n * Q2R delta)) / 2 / 1 = (1 + cos (INR n * Q2R delta)) / 2). field.
  - change (zeros 1) with [false]. rewrite (prob_first gmat sqmod n body (zeros n) (first_one n) false); auto using length_zeros, length_first, nth0_zeros.
    + fold ops. rewrite A0, T. change ((1 + cos (INR n * Q2R delta)) / 2 / 1 = (1 + cos (INR n * Q2R delta)) / 2). field.
    + unfold first_one. rewrite nth_set1_eq by (rewrite length_zeros; exact Hn). reflexivity.
Qed.

(** [get_ghz_po]. *)
Lemma fpow_neg (a : C) k : fpow (Copp a) k = Cmult (RtoC ((-1) ^ k)) (fpow a k).
Proof. induction k as [|k IH]; cbn [fpow pow]; [change (RtoC 1 = Cmult (RtoC 1) (RtoC 1)); ring|]. change (fmul (Copp a) (fpow (Copp a) k)) with (Cmult (Copp a) (fpow (Copp a) k)). rewrite IH, RtoC_mult. change (fmul a (fpow a k)) with (Cmult a (fpow a k)). replace (RtoC (-1)) with (Copp (RtoC 1)) by (unfold RtoC, Copp; cbn; f_equal; ring). ring. Qed.
Lemma pow_m1_sq k : ((-1) ^ k) * ((-1) ^ k) = 1.
Proof. rewrite <- Rpow_mult_distr. replace (-1 * -1) with 1 by ring. apply pow1. Qed.
Lemma sqmod_po t k l : sqmod (Cplus (fpow (expi t) k) (fpow (Copp (expi (- t))) l)) = 2 + 2 * (-1) ^ l * cos (INR (k + l) * t).
Proof.
  rewrite fpow_neg, !fpow_expi. unfold sqmod, expi, Cplus, Cmult, RtoC. cbn [fst snd]. rewrite plus_INR. replace ((INR k + INR l) * t) with (INR k * t + INR l * t) by ring. rewrite cos_plus.
  replace (INR l * - t) with (- (INR l * t)) by ring. rewrite cos_neg, sin_neg. pose proof (sin2_cos2 (INR k * t)) as E1. pose proof (sin2_cos2 (INR l * t)) as E2. unfold Rsqr in *. pose proof (pow_m1_sq l) as E3.
  set (s := (-1) ^ l) in *. set (a := cos (INR k * t)) in *. set (b := sin (INR k * t)) in *. set (c := cos (INR l * t)) in *. set (d := sin (INR l * t)) in *.
  replace ((a + (s * c - 0 * - d)) * (a + (s * c - 0 * - d)) + (b + (s * - d + 0 * c)) * (b + (s * - d + 0 * c))) with ((b * b + a * a) + (s * s) * (d * d + c * c) + 2 * s * (a * c - b * d)) by ring.
  rewrite E1, E2, E3. ring.
Qed.
Lemma sqmod_pow a k : sqmod (fpow a k) = sqmod a ^ k.
Proof. induction k as [|k IH]; cbn [fpow pow]; [unfold sqmod; cbn; ring|]. change (sqmod (Cmult a (fpow a k)) = sqmod a * sqmod a ^ k). rewrite sqmod_mul, IH. reflexivity. Qed.
Lemma signs_cancel n : (0 < n)%nat -> fsum (map (fun y => (-1) ^ (n - weight y)) (cube n)) = 0.
Proof.
  intros Hn. destruct n as [|n]; [lia|]. clear Hn. 
  assert (G : forall y, length y = n -> (-1) ^ (S n - weight (true :: y)) = - (-1) ^ (S n - weight (false :: y))).
  { intros y Hy. unfold weight. cbn [filter length]. assert (L : (length (filter (fun b => b) y) <= n)%nat) by (rewrite <- Hy; clear; induction y as [|[|] y IH]; cbn; lia).
    set (k := length (filter (fun b => b) y)) in *. replace (S n - S k)%nat with (n - k)%nat by lia. replace (S n - k)%nat with (S (n - k)) by lia. cbn [pow]. ring. }
  cbn [cube]. rewrite map_app, fsum_app, !map_map. rewrite (fsum_map_ext (fun x => (-1) ^ (S n - weight (true :: x))) (fun x => fmul (-1) ((-1) ^ (S n - weight (false :: x))))).
  - rewrite fsum_map_mul. change (fsum (map (fun x => (-1) ^ (S n - weight (false :: x))) (cube n)) + -1 * fsum (map (fun x => (-1) ^ (S n - weight (false :: x))) (cube n)) = 0). ring.
  - intros y Hy. apply in_cube in Hy. rewrite G by exact Hy. change (- (-1) ^ (S n - weight (false :: y)) = -1 * (-1) ^ (S n - weight (false :: y))). ring.
Qed.
Lemma po_inv n delta circ : get_ghz_po n delta = Ok circ ->
  (0 < n)%nat /\ exists body, Forall no_measure body /\ gates body = gates ((had 0 :: cxs (line n)) ++ on_all n "u2" [delta; (- delta)%Q]) /\
   circ = (body ++ bar n :: map (fun q => CMeasure q q) (seq 0 n))%list.
Proof.
  unfold get_ghz_po. intros H. inv_bind H. unfold get_ghz_simple, register in E. destruct (Nat.eqb_spec n 0) as [->|Hn]; [discriminate|]. cbn [bind] in E. injection E as <-.
  inv_bind H. apply meas_circ_inv in E. destruct E as (_ & _ & ->). rewrite !ghz_linear_cxs in H. split; [lia|].
  exists ((had 0 :: cxs (line n)) ++ [bar n] ++ on_all n "u2" [delta; (- delta)%Q] ++ [bar n])%list. split; [|split].
  - assert (N : Forall no_measure (had 0 :: cxs (line n))) by (constructor; [exact I|apply no_measure_cxs]).
    assert (NB : Forall no_measure [bar n]) by (repeat constructor). rewrite !Forall_app. auto 10 using no_measure_all.
  - rewrite !gates_app. cbn [gates flat_map app]. rewrite !app_nil_r. reflexivity.
  - apply ok_same in H. rewrite <- H, <- !app_assoc. reflexivity.
Qed.
Lemma po_para_inv n delta delta' circ : get_ghz_po_para n delta delta' = Ok circ ->
  (0 < n)%nat /\ exists body, Forall no_measure body /\ gates body = gates ((had 0 :: cxs (line n)) ++ on_all n "u2" [delta; delta']) /\
   circ = (body ++ bar n :: map (fun q => CMeasure q q) (seq 0 n))%list.
Proof.
  unfold get_ghz_po_para. intros H. inv_bind H. unfold get_ghz_simple, register in E. destruct (Nat.eqb_spec n 0) as [->|Hn]; [discriminate|]. cbn [bind] in E. injection E as <-.
  inv_bind H. apply meas_circ_inv in E. destruct E as (_ & _ & ->). rewrite !ghz_linear_cxs in H. split; [lia|].
  exists ((had 0 :: cxs (line n)) ++ [bar n] ++ on_all n "u2" [delta; delta'])%list. split; [|split].
  - assert (N : Forall no_measure (had 0 :: cxs (line n))) by (constructor; [exact I|apply no_measure_cxs]).
    assert (NB : Forall no_measure [bar n]) by (repeat constructor). rewrite !Forall_app. auto 10 using no_measure_all.
  - rewrite !gates_app. cbn [gates flat_map app]. reflexivity.
  - apply ok_same in H. rewrite <- H, <- !app_assoc. reflexivity.
Qed.
Theorem po_prob n delta circ : get_ghz_po n delta = Ok circ \/ get_ghz_po_para n delta (- delta)%Q = Ok circ -> u2_phase gmat r [delta; (- delta)%Q] (expi (Q2R delta)) (expi (- Q2R delta)) -> forall y, length y = n ->
  prob gmat sqmod n n circ (key_of y) = (1 + (-1) ^ (n - weight y) * cos (INR n * Q2R delta)) / 2 ^ n.
Proof.
  intros H Hu. assert (H' : (0 < n)%nat /\ exists body, Forall no_measure body /\ gates body = gates ((had 0 :: cxs (line n)) ++ on_all n "u2" [delta; (- delta)%Q]) /\
   circ = (body ++ bar n :: map (fun q => CMeasure q q) (seq 0 n))%list) by (destruct H as [H|H]; [apply po_inv, H|apply po_para_inv, H]). clear H. destruct H' as (Hn & body & Hb & Hg & ->). set (ops := (body ++ bar n :: map (fun q => CMeasure q q) (seq 0 n))%list) in *.
  assert (Hf : forall x, length x = n -> sqmod (final gmat n ops x) = (1 + (-1) ^ (n - weight x) * cos (INR n * Q2R delta)) / 2 ^ n).
  { intros x Hx. unfold final, ops. rewrite gates_app. replace (gates (bar n :: map (fun q => CMeasure q q) (seq 0 n))) with (@nil ginstr) by (symmetry; apply gates_measures).
    rewrite app_nil_r, Hg. rewrite (po_final gmat r i Hstd n (line n) _ (expi (Q2R delta)) (expi (- Q2R delta))); auto using line_tree.
    assert (W : (weight x <= n)%nat) by (rewrite <- Hx; unfold weight; clear; induction x as [|[|] x IH]; cbn; lia).
    change (sqmod (Cmult (fpow r (S n)) (Cplus (fpow (expi (Q2R delta)) (weight x)) (fpow (Copp (expi (- Q2R delta))) (n - weight x)))) = (1 + (-1) ^ (n - weight x) * cos (INR n * Q2R delta)) / 2 ^ n).
    rewrite sqmod_mul, sqmod_po, sqmod_pow, r_half. replace (weight x + (n - weight x))%nat with n by lia. rewrite pow_inv. cbn [pow]. field. apply pow_nonzero. lra. }
  assert (T : total gmat sqmod n ops = 1).
  { unfold total. rewrite (fsum_map_ext _ (fun y => fadd (/ 2 ^ n) (fmul (cos (INR n * Q2R delta) / 2 ^ n) ((-1) ^ (n - weight y))))).
    - rewrite fsum_map_add, fsum_map_mul, signs_cancel by exact Hn. assert (Hc : forall k (c : R), fsum (map (fun _ => c) (cube k)) = 2 ^ k * c).
      { intros k c. induction k as [|k IHk]; [change (fsum (map (fun _ => c) (cube 0))) with (c + 0); cbn; ring|]. cbn [cube]. rewrite map_app, fsum_app, !map_map, IHk. cbn [pow]. change (2 ^ k * c + 2 ^ k * c = 2 * 2 ^ k * c). ring. }
      rewrite Hc. change (2 ^ n * / 2 ^ n + cos (INR n * Q2R delta) / 2 ^ n * 0 = 1). field. apply pow_nonzero. lra.
    - intros y Hy. apply in_cube in Hy. rewrite Hf by exact Hy. change ((1 + (-1) ^ (n - weight y) * cos (INR n * Q2R delta)) / 2 ^ n = / 2 ^ n + cos (INR n * Q2R delta) / 2 ^ n * (-1) ^ (n - weight y)). field. apply pow_nonzero. lra. }
  intros y Hy. rewrite prob_full by (auto; apply measures_full, Hb). rewrite Hf, T by exact Hy. change ((1 + (-1) ^ (n - weight y) * cos (INR n * Q2R delta)) / 2 ^ n / 1 = (1 + (-1) ^ (n - weight y) * cos (INR n * Q2R delta)) / 2 ^ n). field. apply pow_nonzero. lra.
Qed.
(** The mean parity of the parity-oscillation circuit. *)
Theorem po_parity n delta circ : get_ghz_po n delta = Ok circ \/ get_ghz_po_para n delta (- delta)%Q = Ok circ -> u2_phase gmat r [delta; (- delta)%Q] (expi (Q2R delta)) (expi (- Q2R delta)) ->
  fsum (map (fun y => (-1) ^ weight y * prob gmat sqmod n n circ (key_of y)) (cube n)) = (-1) ^ n * cos (INR n * Q2R delta).
Proof.
  intros H Hu. assert (Hn : (0 < n)%nat) by (destruct H as [H|H]; [apply (po_inv n delta circ H)|apply (po_para_inv n _ _ circ H)]).
  rewrite (fsum_map_ext _ (fun y => fadd (fmul ((-1) ^ n / 2 ^ n) ((-1) ^ (n - weight y))) ((-1) ^ n * cos (INR n * Q2R delta) / 2 ^ n))).
  - rewrite fsum_map_add, fsum_map_mul, signs_cancel by exact Hn. assert (Hc : forall k (c : R), fsum (map (fun _ => c) (cube k)) = 2 ^ k * c).
    { intros k c. induction k as [|k IHk]; [change (fsum (map (fun _ => c) (cube 0))) with (c + 0); cbn; ring|]. cbn [cube]. rewrite map_app, fsum_app, !map_map, IHk. cbn [pow]. change (2 ^ k * c + 2 ^ k * c = 2 * 2 ^ k * c). ring. }
    rewrite Hc. change ((-1) ^ n / 2 ^ n * 0 + 2 ^ n * ((-1) ^ n * cos (INR n * Q2R delta) / 2 ^ n) = (-1) ^ n * cos (INR n * Q2R delta)). field. apply pow_nonzero. lra.
  - intros y Hy. apply in_cube in Hy. rewrite (po_prob n delta circ H Hu) by exact Hy.
    assert (W : (weight y <= n)%nat) by (rewrite <- Hy; unfold weight; clear; induction y as [|[|] y IH]; cbn; lia).
    assert (S1 : (-1) ^ n = (-1) ^ (n - weight y) * (-1) ^ weight y) by (rewrite <- pow_add; f_equal; lia).
    change ((-1) ^ weight y * ((1 + (-1) ^ (n - weight y) * cos (INR n * Q2R delta)) / 2 ^ n) = (-1) ^ n / 2 ^ n * (-1) ^ (n - weight y) + (-1) ^ n * cos (INR n * Q2R delta) / 2 ^ n).
    rewrite S1. pose proof (pow_m1_sq (n - weight y)) as E. set (a := (-1) ^ (n - weight y)) in *. set (b := (-1) ^ weight y) in *.
    replace (a * b / 2 ^ n * a) with ((a * a) * b / 2 ^ n) by (field; apply pow_nonzero; lra). rewrite E. field. apply pow_nonzero. lra.
Qed.
End Circuits.

(** ** Gates over the complex numbers that meet the conditions *)
Definition chalf : C := RtoC (/ sqrt 2).
Definition cgate (name : pystr) (ps : list Q) (o i : bits) : C :=
  match ps, o, i with
  | [d], [a], [b] => if eqb name (str "u1") then (if xorb a b then f0 else if b then expi (Q2R d) else f1) else f0
  | [d; d'], [a], [b] => if eqb name (str "u2") then fmul chalf (match a, b with false, false => f1 | false, true => fopp (expi (Q2R d')) | true, false => expi (Q2R d) | true, true => fmul (expi (Q2R d)) (expi (Q2R d')) end) else f0
  | [], [a], [b] => if eqb name (str "x") then ifb (xorb a b) else if eqb name (str "z") then (if xorb a b then f0 else sgn b)
      else if eqb name (str "s") then (if xorb a b then f0 else if b then Ci else f1) else if eqb name (str "sdg") then (if xorb a b then f0 else if b then fopp Ci else f1)
      else if eqb name (str "h") then fmul chalf (sgn (a && b)) else f0
  | [], [a; a'], [b; b'] => if eqb name (str "cx") then ifb (Bool.eqb a b && Bool.eqb a' (xorb b b')) else if Bool.eqb a b && Bool.eqb a' b' then sgn (b && b') else f0
  | _, _, _ => f0
  end.
Lemma cgate_std : std_gates cgate chalf Ci.
Proof.
  constructor; intros; try reflexivity.
  - change (Cmult (Cplus 1 1) (Cmult (RtoC (/ sqrt 2)) (RtoC (/ sqrt 2))) = RtoC 1). rewrite <- !RtoC_mult, <- RtoC_plus, <- RtoC_mult. f_equal. replace (/ sqrt 2 * / sqrt 2) with (/ (sqrt 2 * sqrt 2)) by (field; apply Rgt_not_eq, sqrt_lt_R0; lra).
    rewrite sqrt_sqrt by lra. field.
  - change (Cmult Ci Ci = Copp (RtoC 1)). unfold Ci, Cmult, Copp, RtoC. cbn. f_equal; ring.
Qed.
Lemma cgate_u1 d : u1_phase cgate d (expi (Q2R d)).
Proof. constructor. reflexivity. Qed.
Lemma Q2R_neg d : Q2R (- d) = - Q2R d.
Proof. apply Q2R_opp. Qed.
Lemma cgate_u2 d : u2_phase cgate chalf [d; (- d)%Q] (expi (Q2R d)) (expi (- Q2R d)).
Proof.
  constructor; [|intros; rewrite <- Q2R_neg; reflexivity]. change (Cmult (expi (Q2R d)) (expi (- Q2R d)) = RtoC 1). unfold expi, Cmult, RtoC. cbn [fst snd]. rewrite cos_neg, sin_neg. pose proof (sin2_cos2 (Q2R d)) as E. unfold Rsqr in E. f_equal; nra.
Qed.
