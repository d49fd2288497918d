(** The fits of randomized benchmarking (C71). *)
From Coq Require Import QArith Qreals Reals Lra.
From Coquelicot Require Import Coquelicot.
From Verif Require Import LinAlg Base PyStr ResultFacts CountsModel MeasCalModel RBSeqModel RBFitModel CtmpSpec EntSpec GstOptSpec IQSpec IQFitProofs RBEstModel RBEstSpec RBNoiseProofs.
Local Open Scope list_scope.
Local Open Scope nat_scope.

(** ** Three points determine the curve *)
Lemma pow_base n x y : (0 < x < y)%R -> 0 < n -> (x ^ n < y ^ n)%R.
Proof.
  intros H Hn. destruct n as [|n]; [lia|]. clear Hn. induction n as [|n IH]; [cbn; lra|].
  change (x * x ^ S n < y * y ^ S n)%R. apply Rmult_le_0_lt_compat; try lra. apply pow_le. lra.
Qed.
Fixpoint geo (n : nat) (x : R) : R := match n with 0 => 0 | S n' => (geo n' x + x ^ n')%R end.
Lemma geo_sum n x : ((1 - x) * geo n x = 1 - x ^ n)%R.
Proof. induction n as [|n IH]; cbn [geo pow]; [lra|]. rewrite Rmult_plus_distr_l, IH. ring. Qed.
Lemma geo_pos n x : (0 < x)%R -> 0 < n -> (0 < geo n x)%R.
Proof. intros H Hn. destruct n as [|n]; [lia|]. clear Hn. induction n as [|n IH]; cbn [geo] in *; [cbn; lra|]. pose proof (pow_lt x (S n) H). lra. Qed.
Lemma geo_incr n x y : (0 < x < y)%R -> (geo n x <= geo n y)%R.
Proof. intros H. induction n as [|n IH]; cbn [geo]; [lra|]. pose proof (pow_incr x y n). lra. Qed.
Lemma geo_cross p x y k : (0 < x < y)%R -> 0 < k <= p -> (x ^ p * geo k y < y ^ p * geo k x)%R.
Proof.
  intros H [Hk Hp]. assert (T : forall i, i < p -> (x ^ p * y ^ i < y ^ p * x ^ i)%R).
  { intros i Hi. replace p with (i + (p - i)) by lia. rewrite !pow_add. pose proof (pow_base (p - i) x y H ltac:(lia)). pose proof (pow_lt x i). pose proof (pow_lt y i).
    replace (x ^ i * x ^ (p - i) * y ^ i)%R with ((x ^ i * y ^ i) * x ^ (p - i))%R by ring. replace (y ^ i * y ^ (p - i) * x ^ i)%R with ((x ^ i * y ^ i) * y ^ (p - i))%R by ring.
    apply Rmult_lt_compat_l; [apply Rmult_lt_0_compat; lra|assumption]. }
  destruct k as [|k]; [lia|]. clear Hk. induction k as [|k IH].
  - cbn [geo]. rewrite !Rplus_0_l. apply T. lia.
  - change (geo (S (S k)) ?z) with (geo (S k) z + z ^ S k)%R. rewrite !Rmult_plus_distr_l. pose proof (T (S k) ltac:(lia)). pose proof (IH ltac:(lia)). lra.
Qed.
Lemma ratio_lt p q x y : (0 < x < y)%R -> 0 < p -> 0 < q -> (x ^ p * geo q x * geo p y < y ^ p * geo q y * geo p x)%R.
Proof.
  intros H Hp Hq. pose proof (geo_cross p x y p H ltac:(lia)) as A. pose proof (geo_incr q x y H) as B. pose proof (geo_pos q x ltac:(lra) Hq) as D.
  pose proof (pow_lt y p ltac:(lra)) as E. pose proof (geo_pos p x ltac:(lra) Hp) as G.
  apply Rlt_le_trans with (y ^ p * geo p x * geo q x)%R.
  - replace (x ^ p * geo q x * geo p y)%R with (x ^ p * geo p y * geo q x)%R by ring. apply Rmult_lt_compat_r; assumption.
  - replace (y ^ p * geo q y * geo p x)%R with (y ^ p * geo p x * geo q y)%R by ring. apply Rmult_le_compat_l; [|exact B]. apply Rmult_le_pos; lra.
Qed.
Lemma diff_geo m p x : (x ^ m - x ^ (m + p) = x ^ m * (1 - x) * geo p x)%R.
Proof. rewrite Rmult_assoc, geo_sum, pow_add. ring. Qed.
Lemma decay_alpha a x a' y m p q : (0 < a)%R -> (0 < x < 1)%R -> (0 < a')%R -> (0 < y < 1)%R -> 0 < p -> 0 < q ->
  (a * (x ^ m - x ^ (m + p)) = a' * (y ^ m - y ^ (m + p)))%R -> (a * (x ^ (m + p) - x ^ (m + p + q)) = a' * (y ^ (m + p) - y ^ (m + p + q)))%R -> x = y.
Proof.
  intros Ha Hx Ha' Hy Hp Hq E1 E2. rewrite !diff_geo in E1, E2. rewrite !pow_add in E2.
  pose proof (pow_lt x m ltac:(lra)) as Px. pose proof (pow_lt y m ltac:(lra)) as Py.
  set (K := (a * (x ^ m * (1 - x)))%R). set (K' := (a' * (y ^ m * (1 - y)))%R).
  assert (HK : (0 < K)%R) by (unfold K; repeat apply Rmult_lt_0_compat; lra). assert (HK' : (0 < K')%R) by (unfold K'; repeat apply Rmult_lt_0_compat; lra).
  assert (E1' : (K * geo p x = K' * geo p y)%R) by (unfold K, K'; lra).
  assert (E2' : (K * (x ^ p * geo q x) = K' * (y ^ p * geo q y))%R).
  { unfold K, K'. replace (a * (x ^ m * (1 - x)) * (x ^ p * geo q x))%R with (a * (x ^ m * x ^ p * (1 - x) * geo q x))%R by ring. rewrite E2. ring. }
  assert (X : (x ^ p * geo q x * geo p y = y ^ p * geo q y * geo p x)%R).
  { apply Rmult_eq_reg_l with (K * K')%R; [|pose proof (Rmult_lt_0_compat _ _ HK HK'); lra].
    replace (K * K' * (x ^ p * geo q x * geo p y))%R with ((K * (x ^ p * geo q x)) * (K' * geo p y))%R by ring. rewrite E2', <- E1'. ring. }
  destruct (Rtotal_order x y) as [L|[L|L]]; [|exact L|].
  - pose proof (ratio_lt p q x y ltac:(lra) Hp Hq). lra.
  - pose proof (ratio_lt p q y x ltac:(lra) Hp Hq). lra.
Qed.
Lemma curve_determined a x b a' y b' m1 m2 m3 : (0 < a)%R -> (0 < x < 1)%R -> (0 <= a')%R -> (0 <= y <= 1)%R -> m1 < m2 < m3 ->
  (a' * y ^ m1 + b' = a * x ^ m1 + b)%R -> (a' * y ^ m2 + b' = a * x ^ m2 + b)%R -> (a' * y ^ m3 + b' = a * x ^ m3 + b)%R -> a' = a /\ y = x /\ b' = b.
Proof.
  intros Ha Hx Ha' Hy Hm E1 E2 E3.
  assert (P : forall m n z, m < n -> (0 < z < 1)%R -> (0 < z ^ m - z ^ n)%R).
  { intros m n z Hn Hz. replace n with (m + (n - m)) by lia. rewrite diff_geo. pose proof (geo_pos (n - m) z ltac:(lra) ltac:(lia)). pose proof (pow_lt z m ltac:(lra)). repeat apply Rmult_lt_0_compat; lra. }
  pose proof (Rmult_lt_0_compat _ _ Ha (P m2 m3 x ltac:(lia) Hx)) as D. pose proof (Rmult_lt_0_compat _ _ Ha (P m1 m2 x ltac:(lia) Hx)) as D1.
  assert (Ey : (0 < y < 1)%R).
  { split.
    - destruct (Req_dec y 0) as [->|]; [|lra]. exfalso. rewrite !pow_i in E2, E3 by lia. lra.
    - destruct (Req_dec y 1) as [->|]; [|lra]. exfalso. rewrite !pow1 in E2, E3. lra. }
  assert (Ea : (0 < a')%R) by (destruct (Req_dec a' 0) as [->|]; lra).
  assert (E : x = y).
  { apply (decay_alpha a x a' y m1 (m2 - m1) (m3 - m2)); try assumption; try lia; replace (m1 + (m2 - m1)) with m2 by lia; replace (m2 + (m3 - m2)) with m3 by lia; lra. }
  subst y. assert (E' : a' = a). { apply Rmult_eq_reg_r with (x ^ m2 - x ^ m3)%R; [lra|]. pose proof (P m2 m3 x ltac:(lia) Hx). lra. }
  subst a'. repeat split; try reflexivity. lra.
Qed.

(** ** The curve and the error bars *)
Lemma rpow_nat x m : (0 <= x)%R -> rpow x (INR m) = (x ^ m)%R.
Proof.
  intros Hx. unfold rpow. destruct (Req_EM_T (INR m) 0) as [E|E]; [destruct m; [reflexivity|exfalso; apply (not_0_INR (S m)); [lia|exact E]]|].
  destruct (Req_EM_T x 0) as [->|E']; [rewrite pow_i; [reflexivity|destruct m; [exfalso; apply E; reflexivity|lia]]|]. apply Rpower_pow. lra.
Qed.
Lemma rb_curve : is_curve rb_fit_fun. Proof. intros m a alpha b H. unfold rb_fit_fun. rewrite rpow_nat by exact H. reflexivity. Qed.
Lemma Q2R_nat m : Q2R (inject_Z (Z.of_nat m)) = INR m.
Proof. unfold Q2R. cbn [inject_Z Qnum Qden]. rewrite INR_IZR_INZ. field. Qed.
Lemma sigma_good rows n : length (hd [] rows) = n ->
  match sigma_of (column_std rows) with Some s => length s = n /\ Forall (fun x => x <> 0%R) s | None => True end.
Proof.
  intros H. unfold sigma_of. destruct (column_std rows) as [l|] eqn:E; [|exact I]. destruct (existsb is_zero l) eqn:Z; [exact I|]. split.
  - unfold column_std in E. assert (K : forall u : list R, Some u = Some l -> length u = n -> length l = n) by (intros u EU; congruence). destruct rows as [|r [|r' rows]]; try discriminate; apply (K _ E); rewrite map_length, seq_length; exact H.
  - apply Forall_forall. intros x Hx ->. assert (T : existsb is_zero l = true); [|congruence]. apply existsb_exists. exists 0%R. split; [exact Hx|]. unfold is_zero. destruct (Req_EM_T 0 0); congruence.
Qed.
Lemma misfit_le g xs ys es ps : length xs = length ys -> length xs = length es -> Forall (fun x => x <> 0%R) es ->
  (misfit g xs ys es ps <= 0)%R -> map (fun x => g x ps) xs = ys.
Proof.
  revert ys es. induction xs as [|x xs IH]; intros [|y ys] [|e es] L L' H M; try discriminate; [reflexivity|]. injection L as L. injection L' as L'. inversion H as [|? ? He Hes]; subst.
  unfold misfit in M. cbn [combine fold_right] in M. fold (misfit g xs ys es ps) in M. pose proof (misfit_nonneg g xs ys es ps) as N. pose proof (pow2_ge_0 ((g x ps - y) / e)) as P.
  cbn [map]. f_equal; [|apply IH with (es := es); try assumption; lra].
  assert (Z : (((g x ps - y) / e) ^ 2 = 0)%R) by lra. apply Rsqr_0_uniq in Z || (cbn in Z; assert (Z' : ((g x ps - y) / e = 0)%R) by nra; assert (g x ps - y = 0)%R by (apply Rmult_eq_reg_r with (/ e)%R; [rewrite Rmult_0_l; exact Z'|apply Rinv_neq_0_compat; exact He]); lra).
Qed.
Lemma misfit_exact g xs ys es ps : map (fun x => g x ps) xs = ys -> misfit g xs ys es ps = 0%R.
Proof.
  intros <-. revert es. induction xs as [|x xs IH]; intros es; [reflexivity|]. destruct es as [|e es]; [reflexivity|]. unfold misfit. cbn [map combine fold_right]. fold (misfit g xs (map (fun x => g x ps) xs) es ps). rewrite IH.
  rewrite Rminus_eq_0. unfold Rdiv. rewrite Rmult_0_l. ring.
Qed.
Lemma cube_inv ps : in_bounds unit_cube ps -> exists a x b, ps = [a; x; b] /\ (0 <= a <= 1)%R /\ (0 <= x <= 1)%R /\ (0 <= b <= 1)%R.
Proof.
  intros [H1 H2]. cbn [unit_cube fst snd] in *. inversion H1 as [|? a ? l A1 B1]; subst. inversion B1 as [|? x ? l' A2 B2]; subst. inversion B2 as [|? b ? l'' A3 B3]; subst. inversion B3; subst.
  inversion H2 as [|? ? ? ? A4 B4]; subst. inversion B4 as [|? ? ? ? A5 B5]; subst. inversion B5 as [|? ? ? ? A6 B6]; subst. exists a, x, b. repeat split; assumption.
Qed.
Lemma cube_intro a x b : (0 <= a <= 1)%R -> (0 <= x <= 1)%R -> (0 <= b <= 1)%R -> in_bounds unit_cube [a; x; b].
Proof. intros A X B. split; cbn [unit_cube fst snd]; repeat first [apply Forall2_nil|apply Forall2_cons; [lra|]]. Qed.
Lemma curve_points ms ps a x b : ps = [a; x; b] -> (0 <= x)%R -> map (fun t => rb_fit_fun t ps) (map Q2R (map (fun m => inject_Z (Z.of_nat m)) ms)) = map (fun m => a * x ^ m + b)%R ms.
Proof. intros -> Hx. rewrite !map_map. apply map_ext. intros m. rewrite Q2R_nat. apply rb_curve. exact Hx. Qed.

(** ** One pattern *)
Lemma size_dim q : dim q = size q. Proof. unfold dim, size. rewrite pow_INR. reflexivity. Qed.
Lemma feasible_cube a x b : (0 <= a <= 1)%R -> (0 <= x <= 1)%R -> (0 <= b <= 1)%R -> feasible [Fin a; Fin x; Fin b] = Ok [a; x; b].
Proof.
  intros A X B. unfold feasible. cbn [mapM bind]. repeat (match goal with |- context [Rle_dec ?u ?v] => destruct (Rle_dec u v); [|exfalso; lra] end; cbn [bind]). reflexivity.
Qed.
Definition fitted (q : list nat) (a x b : R) (t : rbfit) : Prop :=
  t_params t = [a; x; b] /\ length (t_errs t) = 3 /\ t_epc t = ((size q - 1) / size q * (1 - x))%R /\ t_epc_err t = ((size q - 1) / size q * nth 1 (t_errs t) 0 / x)%R.
Lemma fit_pattern_exact cf f i q ms a x b p0 : nth_error (f_pattern f) i = Some q -> decay f i ms a x b -> enough ms -> (0 < a <= 1)%R -> (0 < x < 1)%R -> (0 <= b <= 1)%R -> fits cf f i ->
  (exists v, feasible p0 = Ok v /\ in_bounds unit_cube v) -> exists t, fit_pattern cf f i p0 = Ok t /\ fitted q a x b t.
Proof.
  intros Hq (rows & ys & Hr & Hl & Hy & Hx & E) (_ & m1 & m2 & m3 & Hm & I1 & I2 & I3) Ha Hxx Hb Hf (v & Ev & Hv).
  unfold fit_pattern. rewrite (index_ok _ _ _ Hx), (index_ok _ _ _ Hq), (index_ok _ _ _ Hy), (index_ok _ _ _ Hr). cbn [bind]. rewrite Ev. cbn [bind].
  pose proof (sigma_good rows (length ms) Hl) as S.
  destruct (Hf rb_fit_fun (sigma_of (column_std rows)) v _ _ rb_curve Hx Hy) as (ps & var & EF & Lv & Bp & Mp).
  - rewrite map_length. exact S.
  - exact Hv.
  - change bounds with unit_cube. rewrite EF. cbn [bind fst snd]. destruct (cube_inv ps Bp) as (a' & y & b' & -> & Ha' & Hy' & Hb').
    specialize (Mp [a; x; b] (cube_intro a x b ltac:(lra) ltac:(lra) Hb)). rewrite (misfit_exact _ _ _ _ [a; x; b]) in Mp by (rewrite (curve_points ms _ a x b eq_refl) by lra; symmetry; exact E).
    apply misfit_le in Mp.
    + rewrite (curve_points ms _ a' y b' eq_refl) in Mp by lra. rewrite E in Mp.
      assert (T : forall m, In m ms -> (a' * y ^ m + b' = a * x ^ m + b)%R). { intros m Im. exact (ext_in_map Mp m Im). }
      destruct (curve_determined a x b a' y b' m1 m2 m3) as (-> & -> & ->); try assumption; try (apply T; assumption); try lra.
      destruct var as [|v0 [|v1 [|v2 [|]]]]; try discriminate. cbn [index_e nth_error map bind]. eexists. split; [reflexivity|]. unfold fitted. cbn [t_params t_errs t_epc t_epc_err nth]. rewrite size_dim. repeat split.
    + rewrite !map_length. rewrite <- (map_length Q2R ys), E, map_length. reflexivity.
    + destruct (sigma_of (column_std rows)) as [s|]; rewrite !map_length; [symmetry; apply S|reflexivity].
    + destruct (sigma_of (column_std rows)) as [s|]; [apply S|]. apply Forall_forall. intros z Hz. apply in_map_iff in Hz. destruct Hz as (? & <- & _). lra.
Qed.

(** ** The initial values *)
Lemma fpow_pos x e : (0 < x)%R -> fpow (Fin x) e = Fin (Rpower x (Q2R e)).
Proof.
  intros Hx. unfold fpow. assert (Z : is_zero x = false) by (unfold is_zero; destruct (Req_EM_T x 0); [lra|reflexivity]). assert (N : is_neg x = false) by (unfold is_neg; destruct (Rlt_dec x 0); [lra|reflexivity]).
  rewrite Z, N. destruct (Qcompare_spec e 0) as [E| |]; [|reflexivity|reflexivity]. rewrite (Qeq_eqR _ _ E). f_equal. unfold Q2R. cbn. rewrite Rmult_0_l, Rpower_O by exact Hx. reflexivity.
Qed.
Lemma fdiv_fin u v : v <> 0%R -> fdiv (Fin u) (Fin v) = Fin (u / v).
Proof. intros H. cbn. unfold is_zero. destruct (Req_EM_T v 0); [contradiction|reflexivity]. Qed.
Lemma Rpower_nat x m : (0 < x)%R -> Rpower x (INR m) = (x ^ m)%R. Proof. apply Rpower_pow. Qed.
Lemma nats_differ m0 m1 : m0 <> m1 -> Qeq_bool (inject_Z (Z.of_nat m1) - inject_Z (Z.of_nat m0)) 0 = false.
Proof.
  intros H. destruct (Qeq_bool _ 0) eqn:E; [|reflexivity]. exfalso. apply Qeq_bool_iff in E. unfold Qeq, Qminus, Qplus, Qopp, inject_Z in E. cbn in E. lia.
Qed.
Lemma exponent m0 m1 : m0 <> m1 -> Q2R (/ (inject_Z (Z.of_nat m1) - inject_Z (Z.of_nat m0))) = (/ (INR m1 - INR m0))%R.
Proof.
  intros H. rewrite Q2R_inv, Q2R_minus, !Q2R_nat; [reflexivity|]. intros E. apply Qeq_bool_iff in E. rewrite nats_differ in E by exact H. discriminate.
Qed.
Lemma guess_exact n m0 m1 ms y0 y1 ys u x : m0 <> m1 -> (0 < u)%R -> (0 < x < 1)%R ->
  (Q2R y0 = u * x ^ m0 + / 2 ^ n)%R -> (Q2R y1 = u * x ^ m1 + / 2 ^ n)%R ->
  guess_of n (map (fun m => inject_Z (Z.of_nat m)) (m0 :: m1 :: ms)) (y0 :: y1 :: ys) = Ok [Fin u; Fin x; Fin (/ 2 ^ n)].
Proof.
  intros Hm Hu Hx E0 E1. unfold guess_of. cbn [index_e nth_error map bind]. rewrite nats_differ by exact Hm. rewrite E0, E1.
  replace (u * x ^ m1 + / 2 ^ n - / 2 ^ n)%R with (u * x ^ m1)%R by ring. replace (u * x ^ m0 + / 2 ^ n - / 2 ^ n)%R with (u * x ^ m0)%R by ring.
  pose proof (pow_lt x m0 ltac:(lra)) as P0. pose proof (pow_lt x m1 ltac:(lra)) as P1. pose proof (Rmult_lt_0_compat _ _ Hu P0) as P2. pose proof (Rmult_lt_0_compat _ _ Hu P1) as P3.
  rewrite fdiv_fin by lra. rewrite fpow_pos by (apply Rdiv_lt_0_compat; assumption). rewrite exponent by exact Hm.
  assert (G : Rpower (u * x ^ m1 / (u * x ^ m0)) (/ (INR m1 - INR m0)) = x).
  { replace (u * x ^ m1 / (u * x ^ m0))%R with (x ^ m1 / x ^ m0)%R by (field; split; lra). unfold Rpower. rewrite ln_div by assumption. rewrite <- !Rpower_nat by lra. unfold Rpower. rewrite !ln_exp.
    replace (/ (INR m1 - INR m0) * (INR m1 * ln x - INR m0 * ln x))%R with (ln x); [apply exp_ln; lra|]. field. intros Z. apply Hm. apply INR_eq. lra. }
  rewrite G. unfold below_one. destruct (Rlt_dec x 1); [|lra]. destruct (Rlt_dec (/ 2 ^ n) (u * x ^ m0 + / 2 ^ n)); [|lra].
  rewrite fpow_pos by lra. rewrite Q2R_nat, Rpower_nat by lra. rewrite fdiv_fin by lra. do 3 f_equal. f_equal. field. lra.
Qed.
Lemma size_inv (q : list nat) : (0 <= / 2 ^ length q <= 1)%R.
Proof. pose proof (pow_R1_Rle 2 (length q) ltac:(lra)) as H. split; [left; apply Rinv_0_lt_compat; lra|]. rewrite <- Rinv_1. apply Rinv_le_contravar; lra. Qed.
Lemma size_pow (q : list nat) : (/ 2 ^ length q = / size q)%R. Proof. unfold size. rewrite pow_INR. reflexivity. Qed.
Definition fit_one (cf : fitter) (f : rbfitter) (i : nat) : result rbfit :=
  do qubits <- index_e (f_pattern f) i;
  do mean <- index_e (f_mean f) i;
  do lens <- index_e (f_lengths f) i;
  do g <- guess_of (length qubits) lens mean;
  fit_pattern cf f i g.
Lemma enough_two ms : enough ms -> exists m0 m1 ms', ms = m0 :: m1 :: ms' /\ m0 <> m1.
Proof.
  intros (H & m1 & m2 & m3 & Hm & I1 & I2 & I3). destruct ms as [|a [|b ms]]; [destruct I1| |exists a, b, ms; auto]. destruct I1 as [<-|[]]. destruct I2 as [<-|[]]. lia.
Qed.
Lemma fit_one_exact cf f i q ms a x : nth_error (f_pattern f) i = Some q -> decay f i ms a x (/ size q) -> enough ms -> (0 < a <= 1)%R -> (0 < x < 1)%R -> fits cf f i ->
  exists t, fit_one cf f i = Ok t /\ fitted q a x (/ size q) t.
Proof.
  intros Hq D E Ha Hx Hf. pose proof D as (rows & ys & Hr & Hl & Hy & Hls & EE). destruct (enough_two ms E) as (m0 & m1 & ms' & -> & Hne).
  unfold fit_one. rewrite (index_ok _ _ _ Hq), (index_ok _ _ _ Hy), (index_ok _ _ _ Hls). cbn [bind]. destruct ys as [|y0 [|y1 ys]]; try discriminate. cbn [map] in EE. injection EE as E0 E1 _. rewrite <- size_pow in *.
  rewrite (guess_exact _ m0 m1 ms' y0 y1 ys a x Hne (proj1 Ha) Hx E0 E1). cbn [bind].
  apply (fit_pattern_exact cf f i q (m0 :: m1 :: ms') a x (/ 2 ^ length q)); try assumption.
  - apply size_inv.
  - exists [a; x; (/ 2 ^ length q)%R]. pose proof (size_inv q). split; [apply feasible_cube; lra|apply cube_intro; lra].
Qed.
(** ** All patterns *)
Lemma mapM_seq {B} (F : nat -> result B) (P : nat -> B -> Prop) n : (forall i, i < n -> exists t, F i = Ok t /\ P i t) ->
  exists l, mapM F (seq 0 n) = Ok l /\ length l = n /\ forall i, i < n -> exists t, nth_error l i = Some t /\ P i t.
Proof.
  intros H. destruct (mapM_total F P (seq 0 n)) as (l & E & F2). { intros i Hi. apply in_seq in Hi. apply H. lia. }
  pose proof (Forall2_length' _ _ _ F2) as L. rewrite seq_length in L. exists l. split; [exact E|]. split; [symmetry; exact L|]. intros i Hi.
  destruct (nth_error l i) as [t|] eqn:Et; [|apply nth_error_None in Et; lia]. exists t. split; [reflexivity|].
  apply (Forall2_nth _ _ _ i i t F2); [|exact Et]. rewrite (nth_error_nth' _ 0) by (rewrite seq_length; exact Hi). rewrite seq_nth by exact Hi. reflexivity.
Qed.
Lemma pattern_at f i : i < length (f_pattern f) -> nth_error (f_pattern f) i = Some (pattern f i).
Proof. apply nth_error_nth'. Qed.
Lemma fit_data_exact cf f (ms : nat -> list nat) (a x : nat -> R) :
  (forall i, i < length (f_pattern f) -> decay f i (ms i) (a i) (x i) (/ size (pattern f i)) /\ enough (ms i) /\ (0 < a i <= 1)%R /\ (0 < x i < 1)%R /\ fits cf f i) ->
  exists l, fit_data cf f = Ok l /\ length l = length (f_pattern f) /\ forall i, i < length (f_pattern f) -> exists t, nth_error l i = Some t /\ fitted (pattern f i) (a i) (x i) (/ size (pattern f i)) t.
Proof.
  intros H. apply mapM_seq. intros i Hi. destruct (H i Hi) as (D & E & Ha & Hx & Hf). exact (fit_one_exact cf f i _ _ _ _ (pattern_at f i Hi) D E Ha Hx Hf).
Qed.
