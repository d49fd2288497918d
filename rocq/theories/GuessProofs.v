(** Initial guesses of the fits (C75). *)
From Coq Require Import QArith Reals Lra Lia ZArith.
From Coquelicot Require Import Coquelicot.
From Verif Require Import LinAlg Base CountsModel ResultFacts EntSpec EntMqcProofs CharCircProofs EntFidModel EntFidSpec EntFidProofs GuessModel GuessSpec.
Local Open Scope list_scope.
Local Open Scope nat_scope.

(** ** The first of the greatest *)
Lemma max_from_spec l : forall i bi b, bi < i -> exists k v, max_from l i bi b = (k, v) /\ (b <= v)%R /\
  (forall j w, nth_error l j = Some w -> (w <= v)%R) /\
  ((k = bi /\ v = b) \/ (i <= k /\ nth_error l (k - i) = Some v /\ (b < v)%R /\ forall j w, nth_error l j = Some w -> i + j < k -> (w < v)%R)).
Proof.
  induction l as [|x l IH]; intros i bi b Hb.
  - exists bi, b. cbn [max_from]. split; [reflexivity|]. split; [lra|]. split; [intros [|j] w H; discriminate|left; split; reflexivity].
  - cbn [max_from]. destruct (Rlt_dec b x) as [H|H].
    + destruct (IH (S i) i x (Nat.lt_succ_diag_r i)) as (k & v & E & H1 & H2 & H3). exists k, v. split; [exact E|]. split; [lra|]. split.
      { intros [|j] w Hj; cbn [nth_error] in Hj; [injection Hj as <-; exact H1|exact (H2 j w Hj)]. }
      right. destruct H3 as [[-> ->]|(K1 & K2 & K3 & K4)].
      * split; [lia|]. rewrite Nat.sub_diag. split; [reflexivity|]. split; [exact H|]. intros j w _ K. lia.
      * split; [lia|]. split; [replace (k - i) with (S (k - S i)) by lia; exact K2|]. split; [lra|]. intros [|j] w Hj K; cbn [nth_error] in Hj; [injection Hj as <-; exact K3|]. apply (K4 j w Hj). lia.
    + destruct (IH (S i) bi b ltac:(lia)) as (k & v & E & H1 & H2 & H3). exists k, v. split; [exact E|]. split; [exact H1|]. split.
      { intros [|j] w Hj; cbn [nth_error] in Hj; [injection Hj as <-; lra|exact (H2 j w Hj)]. }
      destruct H3 as [K|(K1 & K2 & K3 & K4)]; [left; exact K|right].
      split; [lia|]. split; [replace (k - i) with (S (k - S i)) by lia; exact K2|]. split; [exact K3|]. intros [|j] w Hj K; cbn [nth_error] in Hj; [injection Hj as <-; lra|]. apply (K4 j w Hj). lia.
Qed.
Lemma np_max_spec l : l <> [] -> exists k v, np_argmax l = Ok k /\ np_max l = Ok v /\ nth_error l k = Some v /\
  (forall j w, nth_error l j = Some w -> (w <= v)%R) /\ (forall j w, nth_error l j = Some w -> j < k -> (w < v)%R).
Proof.
  destruct l as [|x l]; [congruence|]. intros _. destruct (max_from_spec l 1 0 x (Nat.lt_succ_diag_r 0)) as (k & v & E & H1 & H2 & H3).
  exists k, v. unfold np_argmax, np_max. rewrite E. cbn [fst snd]. split; [reflexivity|]. split; [reflexivity|].
  destruct H3 as [[-> ->]|(K1 & K2 & K3 & K4)].
  - split; [reflexivity|]. split; [intros [|j] w Hj; cbn [nth_error] in Hj; [injection Hj as <-; lra|exact (H2 j w Hj)]|intros j w _ K; lia].
  - split; [replace k with (S (k - 1)) by lia; exact K2|]. split; [intros [|j] w Hj; cbn [nth_error] in Hj; [injection Hj as <-; lra|exact (H2 j w Hj)]|].
    intros [|j] w Hj K; cbn [nth_error] in Hj; [injection Hj as <-; exact K3|]. apply (K4 j w Hj). lia.
Qed.
Lemma np_max_greatest l : l <> [] -> exists v, np_max l = Ok v /\ greatest v l.
Proof.
  intros H. destruct (np_max_spec l H) as (k & v & _ & E & H1 & H2 & _). exists v. split; [exact E|]. split; [exact (nth_error_In _ _ H1)|].
  intros y Hy. apply In_nth_error in Hy. destruct Hy as (j & Hj). exact (H2 j y Hj).
Qed.

(** ** The argument of a complex number *)
Lemma np_angle_spec z : (z = Cmult (RtoC (Cmod z)) (expi (np_angle z)) /\ - PI < np_angle z <= PI)%R.
Proof.
  unfold np_angle. destruct (Req_EM_T (Cmod z) 0) as [E|E].
  - rewrite E. apply Cmod_eq_0 in E. rewrite E. split; [apply injective_projections; cbn; ring|]. pose proof PI_RGT_0. lra.
  - assert (S : (Re z * Re z + Im z * Im z = Cmod z * Cmod z)%R).
    { pose proof (sqmod_Cmod z) as S. unfold sqmod in S. unfold Re, Im. lra. }
    pose proof (Cmod_ge_0 z) as P. assert (P' : (0 < Cmod z)%R) by lra.
    set (m := Cmod z) in *. assert (U : ((Re z / m) * (Re z / m) + (Im z / m) * (Im z / m) = 1)%R).
    { replace ((Re z / m) * (Re z / m) + (Im z / m) * (Im z / m))%R with ((Re z * Re z + Im z * Im z) / (m * m))%R by (field; lra). rewrite S. field. lra. }
    assert (B : (-1 <= Re z / m <= 1)%R) by nra. pose proof (acos_bound (Re z / m)) as AB.
    destruct (Rle_dec 0 (Im z)) as [H|H].
    + split; [|pose proof PI_RGT_0; lra]. apply injective_projections; cbn; rewrite ?cos_acos, ?sin_acos by exact B.
      * unfold Re. field. lra.
      * replace (1 - (Re z / m)²)%R with ((Im z / m) * (Im z / m))%R by (unfold Rsqr; lra). rewrite sqrt_square.
        -- unfold Im. field. lra.
        -- apply Rmult_le_pos; [exact H|]. left. apply Rinv_0_lt_compat. exact P'.
    + split.
      * apply injective_projections; cbn; rewrite ?cos_neg, ?sin_neg, ?cos_acos, ?sin_acos by exact B.
        -- unfold Re. field. lra.
        -- replace (1 - (Re z / m)²)%R with ((- (Im z / m)) * (- (Im z / m)))%R by (unfold Rsqr; lra). rewrite sqrt_square.
           ++ unfold Im. field. lra.
           ++ replace (- (Im z / m))%R with ((- Im z) * / m)%R by (field; lra). apply Rmult_le_pos; [lra|]. left. apply Rinv_0_lt_compat. exact P'.
      * assert (acos (Re z / m) <> PI).
        { intros K. assert (C1 : cos (acos (Re z / m)) = cos PI) by (rewrite K; reflexivity). rewrite cos_acos, cos_PI in C1 by exact B.
          assert ((Im z / m) * (Im z / m) = 0)%R by nra. assert (Im z / m = 0)%R by nra. assert (Im z = Im z / m * m)%R by (field; lra). nra. }
        lra.
Qed.

(** ** Fourier transforms of data near a wave *)
Definition dft (ys : list R) (k : nat) : C :=
  fsum (map (fun jy => fmul (RtoC (snd jy)) (expi (- (2 * PI * INR (fst jy) * INR k / INR (length ys)))%R)) (combine (seq 0 (length ys)) ys)).
Lemma np_fft_dft ys : ys <> [] -> np_fft ys = Ok (map (dft ys) (seq 0 (length ys))).
Proof. intros H. unfold np_fft. destruct (Nat.eqb_spec (length ys) 0) as [E|_]; [destruct ys; [congruence|discriminate]|]. reflexivity. Qed.
Lemma Cmod_sum_le {A} (f : A -> C) (b : R) l : (forall a, In a l -> (Cmod (f a) <= b)%R) -> (Cmod (fsum (map f l)) <= INR (length l) * b)%R.
Proof.
  induction l as [|a l IH]; intros H.
  - cbn [map length]. change (fsum (@nil C)) with (RtoC 0). rewrite Cmod_0. cbn. lra.
  - cbn [map]. rewrite fsum_cons. apply Rle_trans with (Cmod (f a) + Cmod (fsum (map f l)))%R; [apply Cmod_triangle|].
    pose proof (H a (or_introl eq_refl)). pose proof (IH (fun x Hx => H x (or_intror Hx))). cbn [length]. rewrite S_INR. lra.
Qed.
Lemma weighted_near (h : nat -> C) ys zs e : (forall j, Cmod (h j) = 1%R) -> Forall2 (fun z y => Rabs (y - z) <= e)%R zs ys -> forall s,
  (Cmod (Cminus (fsum (map (fun jy : nat * R => fmul (RtoC (snd jy)) (h (fst jy))) (combine (seq s (length ys)) ys))) (fsum (map (fun jy : nat * R => fmul (RtoC (snd jy)) (h (fst jy))) (combine (seq s (length ys)) zs)))) <= INR (length ys) * e)%R.
Proof.
  intros Hh H. induction H as [|z y zs ys Hz H IH]; intros s.
  - cbn [length seq combine map]. change (fsum (@nil C)) with (RtoC 0). replace (Cminus (RtoC 0) (RtoC 0)) with (RtoC 0) by ring. rewrite Cmod_0. cbn. lra.
  - cbn [length seq combine map]. rewrite !fsum_cons. cbn [fst snd]. specialize (IH (S s)).
    set (u := fsum (map _ (combine _ ys))) in *. set (v := fsum (map _ (combine _ zs))) in *. toC.
    replace (Cminus (Cplus (Cmult (RtoC y) (h s)) u) (Cplus (Cmult (RtoC z) (h s)) v)) with (Cplus (Cmult (RtoC (y - z)) (h s)) (Cminus u v)) by (rewrite RtoC_minus; ring).
    eapply Rle_trans; [apply Cmod_triangle|]. rewrite Cmod_mult, Hh, Cmod_R, S_INR. lra.
Qed.
Lemma dft_near ys zs e k : Forall2 (fun z y => Rabs (y - z) <= e)%R zs ys -> (Cmod (Cminus (dft ys k) (dft zs k)) <= INR (length ys) * e)%R.
Proof.
  intros H. assert (L : length zs = length ys) by (induction H; cbn; congruence). unfold dft. rewrite L.
  exact (weighted_near (fun j => expi (- (2 * PI * INR j * INR k / INR (length ys)))) ys zs e (fun j => Cmod_expi _) H 0).
Qed.

Lemma dft_0 ys : dft ys 0 = RtoC (fold_right Rplus 0%R ys).
Proof.
  unfold dft. generalize (INR (length ys)). intros n. generalize 0 at 2. induction ys as [|y l IH]; intros s; [reflexivity|].
  cbn [length seq combine map fold_right]. rewrite fsum_cons, IH. cbn [fst snd INR]. unfold Rdiv. rewrite Rmult_0_r, Rmult_0_l, Ropp_0. toC. unfold expi. rewrite cos_0, sin_0, RtoC_plus. apply injective_projections; cbn; ring.
Qed.

Section Wave.
Context (x0 dx : R) (N m : nat) (A f phi c : R).
Hypothesis (Hh : harmonic N m dx f).
Let theta := (2 * PI * f * x0 + phi)%R.
Lemma grid_waves : map (wave A f phi c) (grid x0 dx N) = sampled N (fun t => A * cos (INR m * t + theta) + c)%R.
Proof.
  destruct Hh as (H1 & H2 & H3 & H4). unfold grid, sampled. rewrite map_map. apply map_ext_in. intros k _. unfold wave, theta. rewrite H4.
  assert (INR N <> 0)%R by (apply not_0_INR; lia). f_equal. f_equal. f_equal. field. split; lra.
Qed.
Definition peak (k : nat) : C :=
  if k =? 0 then RtoC c else if k =? m then Cmult (RtoC (A / 2)) (expi theta) else if k =? N - m then Cmult (RtoC (A / 2)) (expi (- theta)) else RtoC 0.
Lemma wave_dft k : k < N -> dft (map (wave A f phi c) (grid x0 dx N)) k = Cmult (RtoC (INR N)) (peak k).
Proof.
  intros Hk. pose proof Hh as (H1 & H2 & H3 & H4). assert (HN : INR N <> 0%R) by (apply not_0_INR; lia). rewrite grid_waves.
  set (g := fun t => (A * cos (INR m * t + theta) + c)%R).
  destruct (fft_component N g [0%Z; 1%Z; 2%Z]
    (fun q => if (q =? 0)%Z then RtoC c else if (q =? 1)%Z then Cmult (RtoC (A / 2)) (expi theta) else Cmult (RtoC (A / 2)) (expi (- theta)))
    (fun q => if (q =? 0)%Z then 0%Z else if (q =? 1)%Z then Z.of_nat m else (- Z.of_nat m)%Z)) as (l & E & L & El); [lia| |].
  { intros t. cbn [map Z.eqb Pos.eqb]. rewrite !fsum_cons. change (fsum (@nil C)) with (RtoC 0). unfold g. rewrite opp_IZR, <- !INR_IZR_INZ. unfold expi. toC.
    apply injective_projections; cbn; rewrite ?Rmult_0_l, ?cos_0, ?sin_0, ?cos_neg, ?sin_neg; replace (- INR m * t)%R with (- (INR m * t))%R by ring; rewrite ?cos_neg, ?sin_neg; [rewrite cos_plus|]; field. }
  specialize (El k Hk). rewrite np_fft_dft in E by (intros K; apply (f_equal (@length R)) in K; rewrite length_sampled in K; cbn in K; lia).
  rewrite length_sampled in E. injection E as <-. rewrite map_map, nth_error_seq_map in El by exact Hk. apply (f_equal (fun o => match o with Some z => z | None => RtoC 0 end)) in El. cbv beta iota in El.
  assert (Ep : component N k [0%Z; 1%Z; 2%Z] (fun q => if (q =? 0)%Z then RtoC c else if (q =? 1)%Z then Cmult (RtoC (A / 2)) (expi theta) else Cmult (RtoC (A / 2)) (expi (- theta)))
    (fun q => if (q =? 0)%Z then 0%Z else if (q =? 1)%Z then Z.of_nat m else (- Z.of_nat m)%Z) = peak k).
  { clear El HN. clearbody theta. clear Hh H3 H4. unfold component, peak. cbn [map Z.eqb Pos.eqb]. rewrite !fsum_cons. change (fsum (@nil C)) with (RtoC 0).
    assert (M : forall a b : Z, (- (Z.of_nat N) < a - b < Z.of_nat N)%Z -> ((a - b) mod Z.of_nat N =? 0)%Z = (a =? b)%Z).
    { intros a b Hab. destruct (Z.eqb_spec a b) as [->|Ne]; [rewrite Z.sub_diag, Z.mod_0_l by lia; reflexivity|]. apply Z.eqb_neq. intros K. apply Z.mod_divide in K; [|lia]. destruct K as [u Hu].
      assert (u = 0 \/ u >= 1 \/ u <= -1)%Z as [->|[?|?]] by lia; nia. }
    assert (M2 : ((- Z.of_nat m - Z.of_nat k) mod Z.of_nat N =? 0)%Z = (k =? N - m)).
    { clear - M Hk H1 H2. replace (- Z.of_nat m - Z.of_nat k)%Z with ((Z.of_nat (N - m) - Z.of_nat k) + (-1) * Z.of_nat N)%Z by lia. rewrite Z.mod_add by lia. rewrite M by lia.
      destruct (Z.eqb_spec (Z.of_nat (N - m)) (Z.of_nat k)), (Nat.eqb_spec k (N - m)); try reflexivity; lia. }
    rewrite M2, !M by lia.
    destruct (Nat.eqb_spec k 0) as [->|K0].
    - change (0 =? Z.of_nat 0)%Z with true. destruct (Z.eqb_spec (Z.of_nat m) (Z.of_nat 0)); [lia|]. destruct (Nat.eqb_spec 0 (N - m)); [lia|]. toC. ring.
    - clear M M2. destruct (Z.eqb_spec 0 (Z.of_nat k)); [lia|]. destruct (Nat.eqb_spec k m) as [->|K1].
      + rewrite Z.eqb_refl. destruct (Nat.eqb_spec m (N - m)); [lia|]. toC. ring.
      + destruct (Z.eqb_spec (Z.of_nat m) (Z.of_nat k)); [lia|]. destruct (Nat.eqb_spec k (N - m)); toC; ring. }
  rewrite Ep in El. rewrite <- El. toC. unfold Rdiv. rewrite Rmult_1_l, RtoC_inv by exact HN. assert (RtoC (INR N) <> RtoC 0) by (intros K; apply (f_equal fst) in K; exact (HN K)). field. assumption.
Qed.
Lemma peak_mod k : Cmod (peak k) = if k =? 0 then Rabs c else if (k =? m) || (k =? N - m) then (Rabs A / 2)%R else 0%R.
Proof.
  unfold peak. destruct (k =? 0); [apply Cmod_R|].
  assert (E : forall t, Cmod (Cmult (RtoC (A / 2)) (expi t)) = (Rabs A / 2)%R).
  { intros t. rewrite Cmod_mult, Cmod_expi, Cmod_R, Rmult_1_r. unfold Rdiv. rewrite Rabs_mult, (Rabs_pos_eq (/ 2)) by lra. reflexivity. }
  destruct (k =? m); [apply E|]. destruct (k =? N - m); [apply E|]. apply Cmod_0.
Qed.

(** Data near the wave. *)
Context (e : R) (ys : list R).
Hypothesis (Hn : near e (wave A f phi c) (grid x0 dx N) ys).
Lemma near_length : length ys = N.
Proof.
  assert (L : forall (xs l : list R), near e (wave A f phi c) xs l -> length l = length xs) by (intros xs l H; induction H; cbn; congruence).
  rewrite (L _ _ Hn). unfold grid. rewrite map_length, seq_length. reflexivity.
Qed.
Lemma near_nonempty : ys <> [].
Proof. intros E. pose proof near_length as L. rewrite E in L. cbn in L. destruct Hh. lia. Qed.
Lemma near_dft k : k < N -> (Cmod (Cminus (dft ys k) (Cmult (RtoC (INR N)) (peak k))) <= INR N * e)%R.
Proof.
  intros Hk. rewrite <- (wave_dft k Hk). rewrite <- near_length at 2. apply dft_near. pose proof Hn as H. unfold near in H. revert H. clear. generalize (grid x0 dx N). intros xs H. induction H as [|x y xs ys' Hx H IH]; cbn [map]; [apply Forall2_nil|apply Forall2_cons; [exact Hx|exact IH]].
Qed.
Lemma eps_nonneg : (0 <= e)%R.
Proof.
  unfold near in Hn. destruct Hh as (H1 & H2 & _). destruct N as [|n]; [lia|]. cbn [grid seq map] in Hn. inversion Hn; subst. eapply Rle_trans; [apply Rabs_pos|eassumption].
Qed.
Lemma NR : (0 < INR N)%R. Proof. apply lt_0_INR. destruct Hh. lia. Qed.
Lemma dft_mod k : k < N -> (INR N * (Cmod (peak k) - e) <= Cmod (dft ys k) <= INR N * (Cmod (peak k) + e))%R.
Proof.
  intros Hk. pose proof (near_dft k Hk) as H. pose proof NR as P.
  assert (M : Cmod (Cmult (RtoC (INR N)) (peak k)) = (INR N * Cmod (peak k))%R) by (rewrite Cmod_mult, Cmod_R, Rabs_pos_eq by lra; reflexivity).
  set (u := dft ys k) in *. set (v := Cmult (RtoC (INR N)) (peak k)) in *. split.
  - pose proof (Cmod_triangle u (Cminus v u)) as T. replace (Cplus u (Cminus v u)) with v in T by ring.
    assert (S : Cmod (Cminus v u) = Cmod (Cminus u v)) by (replace (Cminus v u) with (Copp (Cminus u v)) by ring; apply Cmod_opp). rewrite M in T. nra.
  - pose proof (Cmod_triangle v (Cminus u v)) as T. replace (Cplus v (Cminus u v)) with u in T by ring. rewrite M in T. nra.
Qed.
(** The argument at one of the two peaks. *)
Lemma angle_at k t : k < N -> A <> 0%R -> peak k = Cmult (RtoC (A / 2)) (expi t) -> (Cmod (peak k) = Rabs A / 2)%R ->
  (Cmod (Cminus (Cmult (RtoC (Rabs A)) (expi (np_angle (dft ys k)))) (Cmult (RtoC A) (expi t))) <= 4 * e)%R.
Proof.
  intros Hk HA Hp Hm. pose proof NR as P. pose proof (dft_mod k Hk) as B. pose proof (near_dft k Hk) as D. rewrite Hm in B.
  destruct (np_angle_spec (dft ys k)) as [E _]. set (z := dft ys k) in *. set (w := expi (np_angle z)) in *. set (r := Cmod z) in *.
  assert (D1 : (Cmod (Cminus (Cmult (RtoC (Rabs A / 2)) w) (Cmult (RtoC (A / 2)) (expi t))) <= 2 * e)%R).
  { rewrite Hp in D. pose proof (Cmod_triangle (Cminus (Cmult (RtoC (Rabs A / 2)) w) (Cmult (RtoC (/ INR N)) z)) (Cmult (RtoC (/ INR N)) (Cminus z (Cmult (RtoC (INR N)) (Cmult (RtoC (A / 2)) (expi t)))))) as T.
    assert (HN : RtoC (INR N) <> RtoC 0) by (intros K; apply (f_equal fst) in K; cbn in K; lra).
    replace (Cplus (Cminus (Cmult (RtoC (Rabs A / 2)) w) (Cmult (RtoC (/ INR N)) z)) (Cmult (RtoC (/ INR N)) (Cminus z (Cmult (RtoC (INR N)) (Cmult (RtoC (A / 2)) (expi t))))))
      with (Cminus (Cmult (RtoC (Rabs A / 2)) w) (Cmult (RtoC (A / 2)) (expi t))) in T by (rewrite (RtoC_inv (INR N)) by lra; field; exact HN).
    eapply Rle_trans; [exact T|]. rewrite (Cmod_mult (RtoC (/ INR N))), Cmod_R, (Rabs_pos_eq (/ INR N)) by (left; apply Rinv_0_lt_compat; exact P).
    assert (T1 : (Cmod (Cminus (Cmult (RtoC (Rabs A / 2)) w) (Cmult (RtoC (/ INR N)) z)) <= e)%R).
    { replace (Cminus (Cmult (RtoC (Rabs A / 2)) w) (Cmult (RtoC (/ INR N)) z)) with (Cmult (RtoC (Rabs A / 2 - / INR N * r)) w).
      - rewrite Cmod_mult, Cmod_R. unfold w. rewrite Cmod_expi, Rmult_1_r. replace (Rabs A / 2 - / INR N * r)%R with (/ INR N * (INR N * (Rabs A / 2) - r))%R by (field; lra).
        rewrite Rabs_mult, (Rabs_pos_eq (/ INR N)) by (left; apply Rinv_0_lt_compat; exact P). apply Rmult_le_reg_l with (INR N); [exact P|]. rewrite <- Rmult_assoc, Rinv_r, Rmult_1_l by lra. apply Rabs_le. nra.
      - rewrite E at 1. rewrite RtoC_minus, RtoC_mult. ring. }
    assert (T2 : (/ INR N * Cmod (Cminus z (Cmult (RtoC (INR N)) (Cmult (RtoC (A / 2)) (expi t)))) <= e)%R).
    { apply Rmult_le_reg_l with (INR N); [exact P|]. rewrite <- Rmult_assoc, Rinv_r, Rmult_1_l by lra. exact D. }
    lra. }
  replace (Cminus (Cmult (RtoC (Rabs A)) w) (Cmult (RtoC A) (expi t))) with (Cmult (RtoC 2) (Cminus (Cmult (RtoC (Rabs A / 2)) w) (Cmult (RtoC (A / 2)) (expi t)))).
  - rewrite Cmod_mult, Cmod_R, Rabs_pos_eq by lra. lra.
  - apply injective_projections; cbn; field.
Qed.
(** ... and the curve it gives, counted from the first point. *)
Lemma curve_at s t k x : (s = 1 \/ s = -1)%R -> t = (s * theta)%R -> (Cmod (Cminus (Cmult (RtoC (Rabs A)) (expi (np_angle (dft ys k)))) (Cmult (RtoC A) (expi t))) <= 4 * e)%R ->
  (Rabs (Rabs A * cos (2 * PI * (s * f) * (x - x0) + np_angle (dft ys k)) - A * cos (2 * PI * f * x + phi)) <= 4 * e)%R.
Proof.
  intros Hs Et H. set (a := np_angle (dft ys k)) in *. eapply Rle_trans; [|exact H].
  set (u := Cminus (Cmult (RtoC (Rabs A)) (expi a)) (Cmult (RtoC A) (expi t))).
  set (b := (2 * PI * (s * f) * (x - x0))%R).
  assert (E : (Rabs A * cos (b + a) - A * cos (2 * PI * f * x + phi) = Re (Cmult (expi b) u))%R).
  { assert (E2 : cos (2 * PI * f * x + phi) = cos (b + t)).
    { destruct Hs as [-> | ->].
      - f_equal. rewrite Et. unfold b, theta. ring.
      - rewrite <- cos_neg. f_equal. rewrite Et. unfold b, theta. ring. }
    rewrite E2, !cos_plus. unfold u. cbn. ring. }
  rewrite E. pose proof (Re_le_Cmod (Cmult (expi b) u)) as L1. pose proof (Re_le_Cmod (Copp (Cmult (expi b) u))) as L2. rewrite Cmod_opp in L2.
  assert (Mu : Cmod (Cmult (expi b) u) = Cmod u) by (rewrite Cmod_mult, Cmod_expi; ring). rewrite Mu in L1, L2.
  apply Rabs_le. split; [|exact L1]. unfold Re, Copp in *. cbn [fst snd] in *. lra.
Qed.
Lemma mean_near : (Rabs (np_mean ys - c) <= e)%R.
Proof.
  pose proof NR as P. pose proof (dft_0 ys) as E.
  pose proof (near_dft 0 ltac:(destruct Hh; lia)) as H. rewrite E in H. unfold peak in H. cbn [Nat.eqb] in H. rewrite <- RtoC_mult, <- RtoC_minus, Cmod_R in H.
  unfold np_mean. rewrite near_length. replace (fold_right Rplus 0 ys / INR N - c)%R with (/ INR N * (fold_right Rplus 0 ys - INR N * c))%R by (field; lra).
  rewrite Rabs_mult, (Rabs_pos_eq (/ INR N)) by (left; apply Rinv_0_lt_compat; exact P). apply Rmult_le_reg_l with (INR N); [exact P|]. rewrite <- Rmult_assoc, Rinv_r, Rmult_1_l by lra. exact H.
Qed.
End Wave.
