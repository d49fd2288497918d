(** Independent outcomes: mean and variance of an average, and Chebyshev's
    inequality (C77). *)
From Coq Require Import QArith QArith.Qcanon Lqa Qround.
From Verif Require Import LinAlg Base ResultFacts CountsModel CountsSpec CountsProofs QcFacts ExpvalModel ExpvalSpec
  ExpvalProofs ExpvalVecProofs ExpvalTensProofs ExpvalGammaProofs ShotsSpec.
Open Scope nat_scope.

(** ** Expectations *)
Lemma expect_ext q d N f g : (forall ys, In ys (sequences d N) -> f ys = g ys) -> expect q d N f = expect q d N g.
Proof. intros H. apply qsum_ext. intros ys Hy. rewrite H by exact Hy. reflexivity. Qed.
Lemma expect_add q d N f g : expect q d N (fun ys => f ys + g ys)%Qc = (expect q d N f + expect q d N g)%Qc.
Proof. unfold expect. rewrite <- qsum_add. apply qsum_ext. intros; ring. Qed.
Lemma expect_mul q d N k f : expect q d N (fun ys => k * f ys)%Qc = (k * expect q d N f)%Qc.
Proof. unfold expect. rewrite <- qsum_mul. apply qsum_ext. intros; ring. Qed.
Lemma fsum_flat {A} (f : A -> list Qc) l : fsum (flat_map f l) = fsum (map (fun a => fsum (f a)) l).
Proof. induction l as [|a l IH]; [reflexivity|]. cbn [flat_map map]. rewrite qsum_app, qsum_cons, IH. reflexivity. Qed.
Lemma map_flat {A B C} (f : B -> C) (g : A -> list B) l : map f (flat_map g l) = flat_map (fun a => map f (g a)) l.
Proof. induction l as [|a l IH]; [reflexivity|]. cbn [flat_map]. rewrite map_app, IH. reflexivity. Qed.
Lemma expect_S q d N f : expect q d (S N) f = sum_lt d (fun y => q y * expect q d N (fun ys => f (y :: ys)))%Qc.
Proof.
  unfold expect, sum_lt. cbn [sequences]. rewrite map_flat, fsum_flat. apply qsum_ext. intros y _. rewrite map_map, <- qsum_mul. apply qsum_ext. intros ys _. unfold weight. cbn [map]. rewrite qprod_cons. ring.
Qed.
Lemma in_sequences d N ys : In ys (sequences d N) -> length ys = N /\ Forall (fun y => y < d) ys.
Proof.
  revert ys. induction N as [|N IH]; intros ys H; cbn [sequences] in H; [destruct H as [<- | []]; split; [reflexivity|constructor]|].
  apply in_flat_map in H. destruct H as (y & Hy & H). apply in_map_iff in H. destruct H as (zs & <- & H). apply in_seq in Hy. destruct (IH zs H) as [E F]. split; [cbn; congruence|constructor; [lia|exact F]].
Qed.
Lemma weight_nonneg q d ys : distribution d q -> Forall (fun y => y < d) ys -> (0 <= weight q ys)%Qc.
Proof.
  intros [Hq _] H. unfold weight. induction H as [|y ys Hy _ IH]; cbn [map]; [cbv; discriminate|]. rewrite qprod_cons. apply Qc_mul_nonneg; [apply Hq, Hy|exact IH].
Qed.
Lemma expect_le q d N f g : distribution d q -> (forall ys, In ys (sequences d N) -> (f ys <= g ys)%Qc) -> (expect q d N f <= expect q d N g)%Qc.
Proof.
  intros Hq H. apply qsum_le. intros ys Hy. pose proof (weight_nonneg q d ys Hq (proj2 (in_sequences d N ys Hy))) as W. specialize (H ys Hy). qnra.
Qed.
Lemma expect_one q d N : distribution d q -> expect q d N (fun _ => 1%Qc) = 1%Qc.
Proof.
  intros Hq. induction N as [|N IH]; [reflexivity|]. rewrite expect_S. rewrite IH. unfold sum_lt. rewrite (qsum_ext _ q) by (intros; ring). exact (proj2 Hq).
Qed.
Lemma expect_const q d N k : distribution d q -> expect q d N (fun _ => k) = k.
Proof. intros Hq. rewrite (expect_ext q d N _ (fun _ => (k * 1)%Qc)) by (intros; ring). rewrite expect_mul, expect_one by exact Hq. ring. Qed.

(** ** Sums of independent values *)
Definition total_of (h : nat -> Qc) (ys : list nat) : Qc := fsum (map h ys).
Lemma total_cons h y ys : total_of h (y :: ys) = (h y + total_of h ys)%Qc.
Proof. unfold total_of. cbn [map]. apply qsum_cons. Qed.
Lemma expect_sum q d N h : distribution d q -> sum_lt d (fun y => q y * h y)%Qc = 0%Qc -> expect q d N (total_of h) = 0%Qc.
Proof.
  intros Hq Hh. induction N as [|N IH]; [reflexivity|]. rewrite expect_S.
  transitivity (sum_lt d (fun y => q y * h y)%Qc); [|exact Hh]. apply qsum_ext. intros y _. rewrite (expect_ext q d N _ (fun ys => h y + total_of h ys)%Qc) by (intros; apply total_cons). rewrite expect_add, (expect_const q d N (h y) Hq), IH. ring.
Qed.
Lemma expect_square q d N h : distribution d q -> sum_lt d (fun y => q y * h y)%Qc = 0%Qc ->
  expect q d N (fun ys => total_of h ys * total_of h ys)%Qc = (iz (Z.of_nat N) * sum_lt d (fun y => q y * (h y * h y)))%Qc.
Proof.
  intros Hq Hh. induction N as [|N IH]; [cbn [Z.of_nat]; rewrite iz_0, Qcmult_0_l; reflexivity|]. rewrite expect_S.
  transitivity (sum_lt d (fun y => q y * (h y * h y) + q y * (iz (Z.of_nat N) * sum_lt d (fun y => q y * (h y * h y))))%Qc).
  - apply qsum_ext. intros y _. rewrite (expect_ext q d N _ (fun ys => (h y * h y) + ((h y + h y) * total_of h ys + total_of h ys * total_of h ys))%Qc) by (intros ys _; rewrite total_cons; ring).
    rewrite expect_add, expect_add, (expect_mul q d N (h y + h y)%Qc (total_of h)), (expect_const q d N _ Hq), (expect_sum q d N h Hq Hh), IH. ring.
  - unfold sum_lt at 1. rewrite qsum_add, qsum_mul_r. destruct Hq as [_ E]. unfold sum_lt in E. rewrite E. rewrite Nat2Z.inj_succ, <- Z.add_1_r, iz_add, iz_1. unfold sum_lt. ring.
Qed.

(** ** Averages *)
Definition average (g : nat -> Qc) (N : nat) (ys : list nat) : Qc := (total_of g ys / iz (Z.of_nat N))%Qc.
Lemma total_shift g m ys : total_of (fun y => g y - m)%Qc ys = (total_of g ys - iz (Z.of_nat (length ys)) * m)%Qc.
Proof.
  induction ys as [|y ys IH]; [cbn [length Z.of_nat]; rewrite iz_0, Qcmult_0_l; reflexivity|]. rewrite !total_cons, IH. cbn [length]. rewrite Nat2Z.inj_succ, <- Z.add_1_r, iz_add, iz_1. ring.
Qed.
Lemma centred d q g : distribution d q -> sum_lt d (fun y => q y * (g y - sum_lt d (fun y => q y * g y)))%Qc = 0%Qc.
Proof.
  intros [_ E]. set (m := sum_lt d (fun y => q y * g y)%Qc). unfold sum_lt in *. rewrite (qsum_ext _ (fun y => q y * g y + q y * - m)%Qc) by (intros; ring). rewrite qsum_add, qsum_mul_r, E. unfold m. ring.
Qed.
Lemma average_centred g N m ys : 0 < N -> length ys = N -> (average g N ys - m)%Qc = (/ iz (Z.of_nat N) * total_of (fun y => g y - m) ys)%Qc.
Proof. intros HN Hl. rewrite total_shift, Hl. unfold average. field. apply iz_neq_0. lia. Qed.
Lemma average_mean q d N g : distribution d q -> 0 < N -> expect q d N (average g N) = sum_lt d (fun y => q y * g y)%Qc.
Proof.
  intros Hq HN. set (m := sum_lt d (fun y => q y * g y)%Qc).
  rewrite (expect_ext q d N _ (fun ys => m + / iz (Z.of_nat N) * total_of (fun y => g y - m) ys)%Qc).
  - rewrite expect_add, (expect_mul q d N (/ iz (Z.of_nat N))%Qc (total_of (fun y => g y - m)%Qc)), (expect_const q d N m Hq), (expect_sum q d N (fun y => g y - m)%Qc Hq (centred d q g Hq)). ring.
  - intros ys Hy. rewrite <- (average_centred g N m ys HN (proj1 (in_sequences d N ys Hy))). ring.
Qed.
Lemma average_square q d N g : distribution d q -> 0 < N -> let m := sum_lt d (fun y => q y * g y)%Qc in
  expect q d N (fun ys => (average g N ys - m) * (average g N ys - m))%Qc = (sum_lt d (fun y => q y * ((g y - m) * (g y - m))) / iz (Z.of_nat N))%Qc.
Proof.
  intros Hq HN m. rewrite (expect_ext q d N _ (fun ys => (/ iz (Z.of_nat N) * / iz (Z.of_nat N)) * (total_of (fun y => g y - m) ys * total_of (fun y => g y - m) ys))%Qc).
  - rewrite (expect_mul q d N _ (fun ys => total_of (fun y => g y - m)%Qc ys * total_of (fun y => g y - m)%Qc ys)%Qc), (expect_square q d N (fun y => g y - m)%Qc Hq (centred d q g Hq)). field. apply iz_neq_0. lia.
  - intros ys Hy. rewrite (average_centred g N m ys HN (proj1 (in_sequences d N ys Hy))). ring.
Qed.
Lemma variance_bound d q g G : distribution d q -> (forall y, y < d -> (abs_of (g y) <= G)%Qc) -> let m := sum_lt d (fun y => q y * g y)%Qc in (sum_lt d (fun y => q y * ((g y - m) * (g y - m))) <= G * G)%Qc.
Proof.
  intros Hq HG m. assert (E : sum_lt d (fun y => q y * ((g y - m) * (g y - m)))%Qc = (sum_lt d (fun y => q y * (g y * g y)) - m * m)%Qc).
  { unfold sum_lt. rewrite (qsum_ext _ (fun y => q y * (g y * g y) + (- (m + m) * (q y * g y) + q y * (m * m)))%Qc) by (intros; ring). rewrite qsum_add, qsum_add, qsum_mul, qsum_mul_r.
    destruct Hq as [_ Eq]. unfold sum_lt in Eq. rewrite Eq. fold (sum_lt d (fun y => q y * g y)%Qc). fold m. ring. }
  rewrite E. assert (L : (sum_lt d (fun y => q y * (g y * g y)) <= sum_lt d (fun y => q y * (G * G)))%Qc).
  { apply qsum_le. intros y Hy. apply in_seq in Hy. pose proof (proj1 Hq y ltac:(lia)) as Q0. specialize (HG y ltac:(lia)). assert (S : (g y * g y <= G * G)%Qc) by (unfold abs_of in HG; destruct (Qclt_le_dec (g y) 0); qnra). qnra. }
  unfold sum_lt at 2 in L. rewrite qsum_mul_r in L. destruct Hq as [_ Eq]. unfold sum_lt in Eq. rewrite Eq in L. pose proof (Qc_sq_nonneg m). qlra.
Qed.
Lemma average_spread q d N g G : distribution d q -> 0 < N -> (forall y, y < d -> (abs_of (g y) <= G)%Qc) -> let m := sum_lt d (fun y => q y * g y)%Qc in
  (expect q d N (fun ys => (average g N ys - m) * (average g N ys - m)) <= stddev_bound_sq G (Z.of_nat N))%Qc.
Proof.
  intros Hq HN HG m. unfold m. rewrite (average_square q d N g Hq HN). fold m. unfold stddev_bound_sq. change qz with iz. apply Qc_div_le; [apply iz_pos; lia|].
  unfold Qcdiv. rewrite <- Qcmult_assoc, (Qcmult_comm (/ _)), Qcmult_inv_r, Qcmult_1_r by (apply iz_neq_0; lia). exact (variance_bound d q g G Hq HG).
Qed.
Lemma within_far delta a b : (0 < delta)%Qc -> ((1 - (if within delta a b then 1 else 0)) * (delta * delta) <= (a - b) * (a - b))%Qc.
Proof.
  intros Hd. unfold within, abs_of. destruct (Qclt_le_dec (a - b) 0) as [H|H]; (destruct (Qclt_le_dec _ delta) as [K|K]; [pose proof (Qc_sq_nonneg (a - b)); qlra|qnra]).
Qed.
Lemma chebyshev q d N g G delta : distribution d q -> 0 < N -> (0 < delta)%Qc -> (forall y, y < d -> (abs_of (g y) <= G)%Qc) ->
  (iz 4 * stddev_bound_sq G (Z.of_nat N) <= delta * delta)%Qc -> (iz 3 <= iz 4 * probability q d N (fun ys => within delta (average g N ys) (sum_lt d (fun y => q y * g y))))%Qc.
Proof.
  intros Hq HN Hd HG HB. set (m := sum_lt d (fun y => q y * g y)%Qc). set (P := probability q d N _).
  assert (L : ((1 - P) * (delta * delta) <= stddev_bound_sq G (Z.of_nat N))%Qc).
  { apply Qcle_trans with (expect q d N (fun ys => (average g N ys - m) * (average g N ys - m))%Qc); [|exact (average_spread q d N g G Hq HN HG)].
    assert (E : ((1 - P) * (delta * delta))%Qc = expect q d N (fun ys => (1 - (if within delta (average g N ys) m then 1 else 0)) * (delta * delta))%Qc).
    { rewrite (expect_ext q d N _ (fun ys => delta * delta + (- (delta * delta)) * (if within delta (average g N ys) m then 1 else 0))%Qc) by (intros; ring). rewrite expect_add, (expect_mul q d N (- (delta * delta))%Qc), (expect_const q d N _ Hq). unfold P, probability. fold m. ring. }
    rewrite E. apply expect_le; [exact Hq|]. intros ys _. apply within_far, Hd. }
  assert (E3 : iz 3 = (1 + 1 + 1)%Qc) by (apply Qc_is_canon; reflexivity). assert (E4 : iz 4 = (1 + 1 + 1 + 1)%Qc) by (apply Qc_is_canon; reflexivity).
  rewrite E4 in HB. rewrite E3, E4. assert (K : ((1 + 1 + 1 + 1) * (1 - P) * (delta * delta) <= 1 * (delta * delta))%Qc) by qlra.
  assert (D : (0 < delta * delta)%Qc) by qnra. assert (K' : ((1 + 1 + 1 + 1) * (1 - P) <= 1)%Qc). { destruct (Qclt_le_dec 1 ((1 + 1 + 1 + 1) * (1 - P))%Qc) as [X|X]; [exfalso; qnra|exact X]. } qlra.
Qed.
