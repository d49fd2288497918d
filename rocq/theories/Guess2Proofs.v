(** Initial guesses of the fits (C75), continued: the guesses themselves. *)
From Coq Require Import QArith Reals Lra Lia ZArith.
From Coquelicot Require Import Coquelicot.
From Verif Require Import LinAlg Base CountsModel ResultFacts CharModel EntSpec EntMqcProofs CharCircProofs EntFidModel EntFidSpec EntFidProofs GuessModel GuessSpec GuessProofs.
Local Open Scope list_scope.
Local Open Scope nat_scope.

Lemma fftfreq_at n d k : (d <> 0)%R -> k < n -> exists l, fftfreq n d = Ok l /\ nth_error l k = Some (if 2 * k <? n then INR k / (INR n * d) else - INR (n - k) / (INR n * d))%R.
Proof.
  intros Hd Hk. unfold fftfreq. destruct (Req_EM_T d 0) as [E|_]; [congruence|]. eexists. split; [reflexivity|].
  pose proof (Nat.div_mod n 2 ltac:(lia)) as D1. pose proof (Nat.mod_upper_bound n 2 ltac:(lia)) as D2. pose proof (Nat.div_mod (n - 1) 2 ltac:(lia)) as D3. pose proof (Nat.mod_upper_bound (n - 1) 2 ltac:(lia)) as D4.
  set (h := n / 2) in *. set (h1 := (n - 1) / 2) in *.
  destruct (Nat.ltb_spec (2 * k) n) as [H|H].
  - rewrite nth_error_app1 by (rewrite map_length, seq_length; lia). apply (nth_error_seq_map (fun i => (INR i / (INR n * d))%R)). lia.
  - rewrite nth_error_app2 by (rewrite map_length, seq_length; lia). rewrite map_length, seq_length. rewrite (nth_error_seq_map (fun i => (- INR (h - i) / (INR n * d))%R)) by lia. do 4 f_equal. lia.
Qed.
Lemma grid_at x0 dx N k : k < N -> index_e (grid x0 dx N) k = Ok (x0 + INR k * dx)%R.
Proof. intros H. unfold index_e, grid. rewrite (nth_error_seq_map (fun k => (x0 + INR k * dx)%R)) by exact H. reflexivity. Qed.
Lemma grid_length x0 dx N : length (grid x0 dx N) = N.
Proof. unfold grid. rewrite map_length, seq_length. reflexivity. Qed.

Section Wave.
Context (x0 dx : R) (N m : nat) (A f phi c e : R) (ys : list R).
Hypothesis (Hh : harmonic N m dx f) (Hn : near e (wave A f phi c) (grid x0 dx N) ys).
Lemma pick (k lo : nat) : lo <= 1 -> (4 * e < Rabs A)%R -> (lo = 0 -> (2 * Rabs c + 4 * e < Rabs A)%R) -> lo <= k < N ->
  (forall j, lo <= j < N -> (Cmod (dft ys j) <= Cmod (dft ys k))%R) -> k = m \/ k = N - m.
Proof.
  intros Hlo He Hc Hk Hmax. pose proof Hh as (H1 & H2 & H3 & _). pose proof (NR dx N m f Hh) as P.
  pose proof (dft_mod x0 dx N m A f phi c Hh e ys Hn m ltac:(lia)) as Bm. pose proof (dft_mod x0 dx N m A f phi c Hh e ys Hn k ltac:(lia)) as Bk.
  rewrite peak_mod in Bm, Bk. rewrite Nat.eqb_refl in Bm. destruct (Nat.eqb_spec m 0) as [E|_]; [lia|]. cbn [orb] in Bm. specialize (Hmax m ltac:(lia)).
  destruct (Nat.eqb_spec k 0) as [->|K0].
  - specialize (Hc ltac:(lia)). exfalso. nra.
  - destruct (Nat.eqb_spec k m) as [->|K1]; [left; reflexivity|]. destruct (Nat.eqb_spec k (N - m)) as [->|K2]; [right; reflexivity|]. cbn [orb] in Bk. exfalso. nra.
Qed.
Lemma picked k : (4 * e < Rabs A)%R -> k = m \/ k = N - m -> (e = 0%R -> k = m) ->
  good_guess x0 A f phi c e (if 2 * k <? N then INR k / (INR N * dx) else - INR (N - k) / (INR N * dx))%R (np_angle (dft ys k)) (np_mean ys).
Proof.
  intros He Hk H0. pose proof Hh as (H1 & H2 & H3 & H4). pose proof (eps_nonneg x0 dx N m A f phi c Hh e ys Hn) as E0.
  assert (HA : A <> 0%R) by (intros ->; rewrite Rabs_R0 in He; lra).
  assert (Hf : (if 2 * k <? N then INR k / (INR N * dx) else - INR (N - k) / (INR N * dx))%R = (if k =? m then f else - f)%R).
  { destruct Hk as [-> | ->].
    - rewrite Nat.eqb_refl. destruct (Nat.ltb_spec (2 * m) N); [symmetry; exact H4|lia].
    - destruct (Nat.eqb_spec (N - m) m); [lia|]. destruct (Nat.ltb_spec (2 * (N - m)) N); [lia|]. replace (N - (N - m)) with m by lia. rewrite H4. unfold Rdiv. ring. }
  rewrite Hf. assert (L : k < N) by lia. unfold good_guess. split; [destruct (k =? m); [left|right]; reflexivity|].
  split; [intros E; rewrite (H0 E), Nat.eqb_refl; reflexivity|]. split; [apply np_angle_spec|]. split; [exact (mean_near x0 dx N m A f phi c Hh e ys Hn)|].
  intros x. set (s := if k =? m then 1%R else (-1)%R).
  replace (if k =? m then f else - f)%R with (s * f)%R by (unfold s; destruct (k =? m); ring).
  apply (curve_at x0 A f phi e ys s (s * (2 * PI * f * x0 + phi))%R k x); [unfold s; destruct (k =? m); [left|right]; reflexivity|reflexivity|].
  apply (angle_at x0 dx N m A f phi c Hh e ys Hn k _ L HA).
  - unfold peak, s. destruct (Nat.eqb_spec k 0); [lia|]. destruct (Nat.eqb_spec k m); [rewrite Rmult_1_l; reflexivity|]. destruct (Nat.eqb_spec k (N - m)); [|lia]. do 2 f_equal. ring.
  - rewrite peak_mod. destruct (Nat.eqb_spec k 0); [lia|]. destruct (Nat.eqb_spec k m); [reflexivity|]. destruct (Nat.eqb_spec k (N - m)); [reflexivity|lia].
Qed.
(** With no deviation the two peaks are equal, and the first one is taken. *)
Lemma exact_peaks : e = 0%R -> Cmod (dft ys m) = Cmod (dft ys (N - m)).
Proof.
  intros E. pose proof Hh as (H1 & H2 & H3 & _). pose proof (dft_mod x0 dx N m A f phi c Hh e ys Hn m ltac:(lia)) as Bm. pose proof (dft_mod x0 dx N m A f phi c Hh e ys Hn (N - m) ltac:(lia)) as Bk.
  rewrite peak_mod, E in Bm, Bk. rewrite Nat.eqb_refl in Bm. destruct (Nat.eqb_spec m 0); [lia|]. destruct (Nat.eqb_spec (N - m) 0); [lia|]. rewrite Nat.eqb_refl, orb_true_r in Bk. cbn [orb] in Bm. lra.
Qed.
Lemma t2star_wave : (4 * e < Rabs A)%R -> exists a fg ph cg, t2star_guess (grid x0 dx N) ys = Ok [a; ((x0 + INR (N - 1) * dx) * 10)%R; fg; ph; cg] /\ greatest a ys /\ good_guess x0 A f phi c e fg ph cg.
Proof.
  intros He. pose proof Hh as (H1 & H2 & H3 & _). pose proof (near_length x0 dx N A f phi c e ys Hn) as L. pose proof (near_nonempty x0 dx N m A f phi c Hh e ys Hn) as Ne.
  unfold t2star_guess. destruct (np_max_greatest ys Ne) as (a & -> & Ha). cbn [bind]. rewrite (np_fft_dft ys Ne), L. cbn [bind]. rewrite !grid_at by lia. cbn [bind INR]. rewrite grid_length.
  replace (x0 + 1 * dx - (x0 + 0 * dx))%R with dx by ring.
  assert (Et : tl (map Cmod (map (dft ys) (seq 0 N))) = map (fun k => Cmod (dft ys k)) (seq 1 (N - 1))) by (destruct N as [|n]; [lia|]; cbn [seq map tl]; rewrite map_map; do 2 f_equal; lia).
  assert (Et2 : tl (map (dft ys) (seq 0 N)) = map (dft ys) (seq 1 (N - 1))) by (destruct N as [|n]; [lia|]; cbn [seq map tl]; do 2 f_equal; lia).
  assert (At : forall B (g : nat -> B) j, j < N - 1 -> nth_error (map g (seq 1 (N - 1))) j = Some (g (S j))).
  { intros B g j Hj. rewrite nth_error_map, (nth_error_nth' _ 0) by (rewrite seq_length; exact Hj). rewrite seq_nth by exact Hj. reflexivity. }
  rewrite Et, Et2. destruct (np_max_spec (map (fun k => Cmod (dft ys k)) (seq 1 (N - 1)))) as (i & v & Ei & _ & Hi & Hmax & Hfirst).
  { destruct N as [|[|n]]; [lia|lia|discriminate]. }
  assert (Li : i < N - 1) by (rewrite <- (seq_length (N - 1) 1), <- (map_length (fun k => Cmod (dft ys k))); apply nth_error_Some; rewrite Hi; discriminate).
  pose proof Hi as Hi0. rewrite At in Hi by exact Li. injection Hi as <-.
  assert (Hk : S i = m \/ S i = N - m).
  { apply (pick (S i) 1); [lia|exact He|discriminate|lia|]. intros j Hj. apply (Hmax (j - 1)). rewrite At by lia. do 3 f_equal. lia. }
  destruct (fftfreq_at N dx (S i) ltac:(lra) ltac:(lia)) as (l & El & Hl). destruct (fftfreq_at N dx 0 ltac:(lra) ltac:(lia)) as (l' & El' & Hl'). rewrite El in El' |- *. injection El' as <-. cbn [bind].
  rewrite Ei. cbn [bind]. destruct l as [|q l]; [discriminate|]. cbn [tl]. cbn [nth_error] in Hl. unfold index_e at 1. rewrite Hl. cbn [bind]. rewrite grid_at by lia. cbn [bind]. unfold index_e. rewrite At by exact Li. cbn [bind].
  eexists _, _, _, _. split; [reflexivity|]. split; [exact Ha|]. apply picked; [exact He|exact Hk|].
  intros E. destruct Hk as [K|K]; [exact K|]. exfalso. assert (X : (Cmod (dft ys m) < Cmod (dft ys (S i)))%R).
  { apply (Hfirst (m - 1)); [rewrite At by lia; do 3 f_equal; lia|lia]. }
  rewrite K, (exact_peaks E) in X. lra.
Qed.
Lemma rabi_setup : exists a k, rabi_guess (grid x0 dx N) ys = Ok [a; (if 2 * k <? N then INR k / (INR N * dx) else - INR (N - k) / (INR N * dx))%R; np_angle (dft ys k); np_mean ys] /\ greatest a ys /\ k < N /\
  (forall j, j < N -> (Cmod (dft ys j) <= Cmod (dft ys k))%R) /\ (forall j, j < k -> (Cmod (dft ys j) < Cmod (dft ys k))%R).
Proof.
  pose proof Hh as (H1 & H2 & H3 & _). pose proof (near_length x0 dx N A f phi c e ys Hn) as L. pose proof (near_nonempty x0 dx N m A f phi c Hh e ys Hn) as Ne.
  unfold rabi_guess. destruct (np_max_greatest ys Ne) as (a & -> & Ha). cbn [bind]. rewrite (np_fft_dft ys Ne), L. cbn [bind]. rewrite !grid_at by lia. cbn [bind INR]. rewrite grid_length.
  replace (x0 + 1 * dx - (x0 + 0 * dx))%R with dx by ring. rewrite map_map.
  destruct (np_max_spec (map (fun k => Cmod (dft ys k)) (seq 0 N))) as (i & v & Ei & _ & Hi & Hmax & Hfirst); [destruct N; [lia|discriminate]|].
  assert (Li : i < N) by (rewrite <- (seq_length N 0), <- (map_length (fun k => Cmod (dft ys k))); apply nth_error_Some; rewrite Hi; discriminate).
  rewrite (nth_error_seq_map (fun k => Cmod (dft ys k))) in Hi by exact Li. injection Hi as <-.
  destruct (fftfreq_at N dx i ltac:(lra) Li) as (l & El & Hl). rewrite El. cbn [bind]. rewrite Ei. cbn [bind]. unfold index_e. rewrite Hl. cbn [bind]. rewrite (nth_error_seq_map (dft ys)) by exact Li. cbn [bind].
  exists a, i. split; [reflexivity|]. split; [exact Ha|]. split; [exact Li|]. split.
  - intros j Hj. apply (Hmax j). apply (nth_error_seq_map (fun k => Cmod (dft ys k))). exact Hj.
  - intros j Hj. apply (Hfirst j); [|exact Hj]. apply (nth_error_seq_map (fun k => Cmod (dft ys k))). lia.
Qed.
Lemma rabi_wave : (2 * Rabs c + 4 * e < Rabs A)%R -> exists a fg ph cg, rabi_guess (grid x0 dx N) ys = Ok [a; fg; ph; cg] /\ greatest a ys /\ good_guess x0 A f phi c e fg ph cg.
Proof.
  intros He. pose proof (Rabs_pos c) as Pc. destruct rabi_setup as (a & k & E & Ha & Lk & Hmax & Hfirst). rewrite E. eexists _, _, _, _. split; [reflexivity|]. split; [exact Ha|].
  assert (Hk : k = m \/ k = N - m) by (apply (pick k 0); [lia|lra|intros _; exact He|lia|intros j Hj; apply Hmax; lia]).
  apply picked; [lra|exact Hk|]. intros E0. destruct Hk as [K|K]; [exact K|]. exfalso. pose proof Hh as (H1 & H2 & _). pose proof (Hfirst m ltac:(lia)) as X. rewrite K, (exact_peaks E0) in X. lra.
Qed.
Lemma rabi_offset : (Rabs A / 2 + 2 * e < Rabs c)%R -> exists a ph cg, rabi_guess (grid x0 dx N) ys = Ok [a; 0%R; ph; cg].
Proof.
  intros He. pose proof Hh as (H1 & H2 & H3 & _). pose proof (NR dx N m f Hh) as P. destruct rabi_setup as (a & k & E & Ha & Lk & Hmax & _). rewrite E. exists a, (np_angle (dft ys k)), (np_mean ys).
  assert (k = 0) as ->.
  { pose proof (dft_mod x0 dx N m A f phi c Hh e ys Hn 0 ltac:(lia)) as B0. pose proof (dft_mod x0 dx N m A f phi c Hh e ys Hn k Lk) as Bk. rewrite peak_mod in B0, Bk. cbn [Nat.eqb] in B0.
    destruct (Nat.eqb_spec k 0) as [K|K]; [exact K|]. exfalso. specialize (Hmax 0 ltac:(lia)). pose proof (Rabs_pos A). destruct ((k =? m) || (k =? N - m)); nra. }
  destruct (Nat.ltb_spec (2 * 0) N); [|lia]. do 3 f_equal. cbn [INR]. unfold Rdiv. ring.
Qed.
End Wave.

(** ** Slow decay *)
Lemma exp_near x : (0 <= x -> 0 <= 1 - exp (- x) <= x)%R.
Proof.
  intros H. pose proof (exp_ineq1_le (- x)) as E. assert (exp (- x) <= 1)%R; [|lra]. rewrite <- exp_0. destruct H as [H| <-]; [left; apply exp_increasing; lra|rewrite Ropp_0; lra].
Qed.
Lemma damped_near A tau f phi c x0 dx N : (0 <= x0)%R -> (0 < dx)%R -> (0 < tau)%R -> 0 < N ->
  near (Rabs A * ((x0 + INR (N - 1) * dx) / tau)) (wave A f phi c) (grid x0 dx N) (map (damped A tau f phi c) (grid x0 dx N)).
Proof.
  intros H0 Hd Ht HN. unfold near, grid. rewrite map_map.
  assert (G : forall l, (forall k, In k l -> k <= N - 1) -> Forall2 (fun x y => (Rabs (y - wave A f phi c x) <= Rabs A * ((x0 + INR (N - 1) * dx) / tau))%R) (map (fun k => (x0 + INR k * dx)%R) l) (map (fun k => damped A tau f phi c (x0 + INR k * dx)) l)).
  { induction l as [|k l IH]; intros Hl; cbn [map]; [apply Forall2_nil|]. apply Forall2_cons; [|apply IH; intros j Hj; apply Hl; right; exact Hj].
    pose proof (le_INR k (N - 1) (Hl k (or_introl eq_refl))) as Lk. pose proof (pos_INR k) as Pk. set (x := (x0 + INR k * dx)%R).
    assert (Hx : (0 <= x <= x0 + INR (N - 1) * dx)%R) by (unfold x; nra). unfold wave, damped.
    replace (A * exp (- (x / tau)) * cos (2 * PI * f * x + phi) + c - (A * cos (2 * PI * f * x + phi) + c))%R with (- A * ((1 - exp (- (x / tau))) * cos (2 * PI * f * x + phi)))%R by ring.
    rewrite Rabs_mult, Rabs_Ropp. apply Rmult_le_compat_l; [apply Rabs_pos|]. rewrite Rabs_mult.
    assert (Hxt : (0 <= x / tau)%R) by (apply Rmult_le_pos; [lra|left; apply Rinv_0_lt_compat; exact Ht]). destruct (exp_near (x / tau) Hxt) as [E1 E2]. rewrite (Rabs_pos_eq (1 - _)) by exact E1.
    assert (Hc : (Rabs (cos (2 * PI * f * x + phi)) <= 1)%R) by (apply Rabs_le; pose proof (COS_bound (2 * PI * f * x + phi)); lra).
    apply Rle_trans with (x / tau)%R; [pose proof (Rabs_pos (cos (2 * PI * f * x + phi))); nra|]. apply Rmult_le_compat_r; [left; apply Rinv_0_lt_compat; exact Ht|lra]. }
  apply G. intros k Hk. apply in_seq in Hk. lia.
Qed.

(** ** Parabolas *)
Lemma np_min_spec l : l <> [] -> exists k v, np_argmin l = Ok k /\ np_min l = Ok v /\ nth_error l k = Some v /\
  (forall j w, nth_error l j = Some w -> (v <= w)%R) /\ (forall j w, nth_error l j = Some w -> j < k -> (v < w)%R).
Proof.
  intros H. destruct (np_max_spec (map Ropp l)) as (k & v & E1 & E2 & H1 & H2 & H3); [destruct l; [congruence|discriminate]|].
  exists k, (- v)%R. unfold np_argmin, np_min. rewrite E1, E2. cbn [bind]. split; [reflexivity|]. split; [reflexivity|].
  rewrite nth_error_map in H1. destruct (nth_error l k) as [w|]; [|discriminate]. injection H1 as <-. rewrite Ropp_involutive. split; [reflexivity|].
  split; intros j u Hj; [specialize (H2 j (- u)%R); rewrite nth_error_map, Hj in H2; specialize (H2 eq_refl); lra|].
  intros Hl. specialize (H3 j (- u)%R). rewrite nth_error_map, Hj in H3. specialize (H3 eq_refl Hl). lra.
Qed.
Lemma nth_error_parabola (g : R -> R) xs j y : nth_error (map g xs) j = Some y -> exists x, nth_error xs j = Some x /\ y = g x.
Proof. rewrite nth_error_map. destruct (nth_error xs j) as [x|]; [|discriminate]. intros H. injection H as <-. exists x. split; reflexivity. Qed.
Lemma farthest w v x : (Rabs x <= w)%R -> (Rabs v <= w)%R -> ((x - v) ^ 2 <= (w + Rabs v) ^ 2)%R /\ ((x - v) ^ 2 = (w + Rabs v) ^ 2 -> Rabs x = w)%R.
Proof.
  intros Hx Hv. unfold Rabs in *. destruct (Rcase_abs x), (Rcase_abs v); (split; [nra|]); intros E; assert (((x - v) - (w + (if Rcase_abs v then - v else v))) * ((x - v) + (w + (if Rcase_abs v then - v else v))) = 0)%R as F by (destruct (Rcase_abs v); nra); destruct (Rcase_abs v); apply Rmult_integral in F; destruct F; lra.
Qed.
Lemma far_end w v xs : symmetric w xs -> exists x, In x xs /\ ((x - v) ^ 2 = (w + Rabs v) ^ 2)%R.
Proof.
  intros (H1 & H2 & H3 & H4). unfold Rabs. destruct (Rcase_abs v); [exists w|exists (- w)%R]; (split; [assumption|ring]).
Qed.
Lemma drag_parabola a v c w xs : symmetric w xs -> In v xs -> (Rabs v < w)%R -> (a <> 0)%R ->
  drag_guess xs (map (parabola a v c) xs) = Ok [(a * ((w + Rabs v) / w) ^ 2)%R; v; c].
Proof.
  intros Hs Hv Hvw Ha. pose proof Hs as (Hw & Hw1 & Hw2 & Hle). set (ys := map (parabola a v c) xs).
  assert (Nx : xs <> []) by (intros E; rewrite E in Hv; destruct Hv). assert (Ny : ys <> []) by (unfold ys; destruct xs; [congruence|discriminate]).
  destruct (np_max_spec ys Ny) as (i1 & hi & E1 & E2 & H1 & H2 & _). destruct (np_min_spec ys Ny) as (i2 & lo & E3 & E4 & H3 & H4 & _).
  apply nth_error_parabola in H1, H3. destruct H1 as (x1 & Hx1 & Eh). destruct H3 as (x2 & Hx2 & El).
  assert (Ey : forall x, In x xs -> (lo <= parabola a v c x <= hi)%R).
  { intros x Hx. apply In_nth_error in Hx. destruct Hx as (j & Hj). assert (Hy : nth_error ys j = Some (parabola a v c x)) by (unfold ys; rewrite nth_error_map, Hj; reflexivity). split; [exact (H4 j _ Hy)|exact (H2 j _ Hy)]. }
  destruct (np_max_greatest xs Nx) as (xm & Exm & Hin & Hxm). assert (xm = w) as ->.
  { apply Rle_antisym; [|exact (Hxm w Hw1)]. specialize (Hle xm Hin). pose proof (Rle_abs xm). lra. }
  unfold drag_guess. fold ys. rewrite E2, E4. cbn [bind]. rewrite E1, E3. cbn [bind]. unfold index_e at 1 2. rewrite Hx1, Hx2. cbn [bind].
  destruct (far_end w v xs Hs) as (xf & Hf & Ef). pose proof (Ey xf Hf) as Bf. pose proof (Ey v Hv) as Bv. unfold parabola in Bf, Bv. rewrite Ef in Bf. replace ((v - v) ^ 2)%R with 0%R in Bv by ring.
  pose proof (Hle x1 (nth_error_In _ _ Hx1)) as L1. pose proof (Hle x2 (nth_error_In _ _ Hx2)) as L2.
  destruct (farthest w v x1 L1 (Rlt_le _ _ Hvw)) as [F1 G1]. destruct (farthest w v x2 L2 (Rlt_le _ _ Hvw)) as [F2 G2].
  pose proof Eh as Eh'. pose proof El as El'. unfold parabola in Eh, El. pose proof (pow2_ge_0 (x1 - v)) as P1. pose proof (pow2_ge_0 (x2 - v)) as P2.
  assert (Yi : forall i x, nth_error xs i = Some x -> nth_error ys i = Some (parabola a v c x)) by (intros i x Hi; unfold ys; rewrite nth_error_map, Hi; reflexivity).
  destruct (Rtotal_order a 0) as [Hn|[Hz|Hp]]; [|congruence|].
  - assert (S1 : ((x1 - v) ^ 2 = 0)%R) by nra. assert (S2 : ((x2 - v) ^ 2 = (w + Rabs v) ^ 2)%R) by nra.
    assert (x1 = v) as -> by nra. rewrite (G2 S2). destruct (Rlt_dec (Rabs v) w) as [_|K]; [|lra]. unfold index_e. rewrite (Yi _ _ Hx1). cbn [bind]. rewrite Exm. cbn [bind].
    destruct (Req_EM_T w 0) as [K|_]; [lra|]. rewrite El, S2, Eh. unfold parabola. do 2 f_equal; [field; lra|]. do 2 f_equal. ring.
  - assert (S1 : ((x1 - v) ^ 2 = (w + Rabs v) ^ 2)%R) by nra. assert (S2 : ((x2 - v) ^ 2 = 0)%R) by nra.
    assert (x2 = v) as -> by nra. rewrite (G1 S1). destruct (Rlt_dec w (Rabs v)) as [K|_]; [lra|]. unfold index_e. rewrite (Yi _ _ Hx2). cbn [bind]. rewrite Exm. cbn [bind].
    destruct (Req_EM_T w 0) as [K|_]; [lra|]. rewrite Eh, S1, El. unfold parabola. do 2 f_equal; [field; lra|]. do 2 f_equal. ring.
Qed.

(** ** Angle errors *)
Lemma ampcal_closed e : ((1 - cos (1 * (PI / 2 + e))) / 2 - (1 - cos (3 * (PI / 2 + e))) / 2)%R = ((sin e + sin (3 * e)) / 2)%R.
Proof.
  replace (1 * (PI / 2 + e))%R with (e + PI / 2)%R by ring. replace (3 * (PI / 2 + e))%R with ((3 * e + PI / 2) + PI)%R by field.
  rewrite neg_cos. rewrite !cos_plus, cos_PI2, sin_PI2. field.
Qed.
Lemma sin_cubic x : (0 <= x <= 4 -> x - x ^ 3 / 6 <= sin x <= x)%R.
Proof.
  intros [H1 H2]. split.
  - destruct (pre_sin_bound x 0 H1 H2) as [B _]. unfold sin_approx, sin_term in B. cbn in B. replace (x - x ^ 3 / 6)%R with (1 * (x * 1 / 1) + -1 * 1 * (x * (x * (x * 1)) / (1 + 1 + 1 + 1 + 1 + 1)))%R by field. lra.
  - destruct H1 as [H1| <-]; [left; apply sin_lt_x; exact H1|rewrite sin_0; lra].
Qed.
Lemma ampcal_bound e : (Rabs e <= 1 -> Rabs ((sin e + sin (3 * e)) / 4 - e) <= 7 / 6 * Rabs e ^ 3)%R.
Proof.
  assert (G : forall t, (0 <= t <= 1)%R -> (Rabs ((sin t + sin (3 * t)) / 4 - t) <= 7 / 6 * t ^ 3)%R).
  { intros t Ht. pose proof (sin_cubic t ltac:(lra)) as B1. pose proof (sin_cubic (3 * t) ltac:(lra)) as B2. replace ((3 * t) ^ 3)%R with (27 * t ^ 3)%R in B2 by ring. apply Rabs_le. assert (0 <= t ^ 3)%R by (apply pow_le; lra). lra. }
  intros H. unfold Rabs in H |- * at 2. destruct (Rcase_abs e) as [K|K].
  - specialize (G (- e)%R ltac:(lra)). replace (3 * - e)%R with (- (3 * e))%R in G by ring. rewrite !sin_neg in G. rewrite <- Rabs_Ropp. replace (- ((sin e + sin (3 * e)) / 4 - e))%R with ((- sin e + - sin (3 * e)) / 4 - - e)%R by field. exact G.
  - apply G. lra.
Qed.

(** ** Rounding *)
Lemma np_round_nearest x : nearest x (np_round x).
Proof.
  unfold np_round. destruct (base_Int_part x) as [B1 B2]. set (k := Int_part x) in *.
  assert (J : forall j : Z, (j <= k)%Z \/ (k + 1 <= j)%Z) by (intros j; lia).
  assert (Jl : forall j, (j <= k)%Z -> (x - IZR j = Rabs (x - IZR j) /\ x - IZR k <= x - IZR j)%R).
  { intros j Hj. apply IZR_le in Hj. rewrite Rabs_pos_eq by lra. lra. }
  assert (Ju : forall j, (k + 1 <= j)%Z -> (IZR j - x = Rabs (x - IZR j) /\ 1 - (x - IZR k) <= IZR j - x)%R).
  { intros j Hj. apply IZR_le in Hj. rewrite plus_IZR in Hj. rewrite Rabs_left1 by lra. lra. }
  assert (Ek : Rabs (x - IZR k) = (x - IZR k)%R) by (apply Rabs_pos_eq; lra).
  assert (Ek1 : Rabs (x - IZR (k + 1)) = (1 - (x - IZR k))%R) by (rewrite plus_IZR, Rabs_left1 by lra; ring).
  destruct (Rlt_dec (x - IZR k) (/ 2)) as [H|H]; [|destruct (Rlt_dec (/ 2) (x - IZR k)) as [H'|H']].
  - split; rewrite Ek.
    + intros j. destruct (J j) as [K|K]; [destruct (Jl j K); lra|destruct (Ju j K); lra].
    + intros (j & Hj & E). exfalso. destruct (J j) as [K|K]; [|destruct (Ju j K); lra]. destruct (Jl j K). apply Hj. apply eq_IZR. lra.
  - split; rewrite Ek1.
    + intros j. destruct (J j) as [K|K]; [destruct (Jl j K); lra|destruct (Ju j K); lra].
    + intros (j & Hj & E). exfalso. destruct (J j) as [K|K]; [destruct (Jl j K); lra|]. destruct (Ju j K). apply Hj. apply eq_IZR. rewrite plus_IZR. lra.
  - assert (Eh : (x - IZR k = / 2)%R) by lra. destruct (Z.even k) eqn:Ev.
    + split; [|intros _; exact Ev]. rewrite Ek. intros j. destruct (J j) as [K|K]; [destruct (Jl j K); lra|destruct (Ju j K); lra].
    + split; [|intros _; rewrite Z.even_add, Ev; reflexivity]. rewrite Ek1. intros j. destruct (J j) as [K|K]; [destruct (Jl j K); lra|destruct (Ju j K); lra].
Qed.
Lemma nearest_unique x j k : nearest x j -> nearest x k -> j = k.
Proof.
  intros [J1 J2] [K1 K2]. destruct (Z.eq_dec j k) as [E|E]; [exact E|]. exfalso. pose proof (J1 k) as L1. pose proof (K1 j) as L2.
  pose proof (J2 (ex_intro _ k (conj (not_eq_sym E) (Rle_antisym _ _ L1 L2)))) as V1. pose proof (K2 (ex_intro _ j (conj E (Rle_antisym _ _ L2 L1)))) as V2.
  assert (B : (Rabs (x - IZR j) = Rabs (x - IZR k))%R) by lra.
  assert (S : (IZR j + IZR k = 2 * x)%R).
  { assert (IZR j <> IZR k) by (intros F; apply E, eq_IZR, F). unfold Rabs in B. destruct (Rcase_abs (x - IZR j)), (Rcase_abs (x - IZR k)); lra. }
  (* both even, so at least 2 apart, and the number between them is nearer *)
  apply Z.even_spec in V1, V2. destruct V1 as [a ->]. destruct V2 as [b ->]. rewrite !mult_IZR in S.
  pose proof (J1 (a + b)%Z) as M. rewrite plus_IZR, mult_IZR in M. replace (x - (IZR a + IZR b))%R with 0%R in M by lra. rewrite Rabs_R0 in M.
  assert (x - 2 * IZR a = 0)%R.
  { destruct (Req_dec (x - 2 * IZR a) 0) as [F|F]; [exact F|]. apply Rabs_no_R0 in F. pose proof (Rabs_pos (x - 2 * IZR a)). lra. }
  apply E. f_equal. apply eq_IZR. lra.
Qed.
Lemma nearest_exact k : nearest (IZR k) k.
Proof.
  split; [intros j; rewrite Rminus_diag_eq, Rabs_R0 by reflexivity; apply Rabs_pos|].
  intros (j & Hj & E). exfalso. rewrite Rminus_diag_eq, Rabs_R0 in E by reflexivity. apply Hj. apply eq_IZR. destruct (Req_dec (IZR k - IZR j) 0) as [F|F]; [lra|]. apply Rabs_no_R0 in F. congruence.
Qed.

(** ** Projected IQ data *)
From Verif Require Import IQModel IQSpec IQProjProofs.
Lemma rmean_np_mean l : rmean l = np_mean l.
Proof. unfold rmean, np_mean. f_equal. apply fold_symmetric; intros; ring. Qed.
Lemma wave_varies x0 dx N m A f phi c : harmonic N m dx f -> (A <> 0)%R -> exists t t', In t (map (wave A f phi c) (grid x0 dx N)) /\ In t' (map (wave A f phi c) (grid x0 dx N)) /\ t <> t'.
Proof.
  intros Hh HA. pose proof Hh as (H1 & H2 & H3 & _). set (ts := map (wave A f phi c) (grid x0 dx N)).
  assert (Hn : near 0 (wave A f phi c) (grid x0 dx N) ts).
  { unfold near, ts. generalize (grid x0 dx N). intros xs. induction xs as [|x xs IH]; cbn [map]; [apply Forall2_nil|apply Forall2_cons; [rewrite Rminus_diag_eq, Rabs_R0 by reflexivity; lra|exact IH]]. }
  pose proof (near_nonempty x0 dx N m A f phi c Hh 0 ts Hn) as Ne. destruct ts as [|t ts'] eqn:Ets; [congruence|].
  destruct (Forall_Exists_dec (fun u => u = t) (fun u => Req_EM_T u t) (t :: ts')) as [F|F].
  - exfalso. assert (Hc : near 0 (wave 0 f phi t) (grid x0 dx N) (t :: ts')).
    { clear - Hn F. unfold near in *. revert F Hn. generalize (t :: ts') at 1 2 3. generalize (grid x0 dx N). intros xs l F H. revert F. induction H as [|x y xs l Hx H IH]; intros F; [apply Forall2_nil|].
      inversion F as [|y' l' Hy Hl]; subst. apply Forall2_cons; [|exact (IH Hl)]. unfold wave. replace (t - (0 * cos (2 * PI * f * x + phi) + t))%R with 0%R by ring. rewrite Rabs_R0. lra. }
    pose proof (dft_mod x0 dx N m A f phi c Hh 0 _ Hn m ltac:(lia)) as B1. pose proof (dft_mod x0 dx N m 0 f phi t Hh 0 _ Hc m ltac:(lia)) as B2. pose proof (NR dx N m f Hh) as P.
    rewrite peak_mod, Nat.eqb_refl in B1, B2. destruct (Nat.eqb_spec m 0); [lia|]. cbn [orb] in B1, B2. rewrite Rabs_R0 in B2. pose proof (Rabs_pos_lt A HA). nra.
  - apply Exists_exists in F. destruct F as (u & Hu & Hne). exists t, u. split; [left; reflexivity|]. split; [exact Hu|]. congruence.
Qed.
Lemma rabi_projected x0 dx N m A f phi c z d : harmonic N m dx f -> (gain d * A <> 0)%R ->
  exists ys a fg ph cg, project (map (fun x => Cplus z (Cmult (RtoC (wave A f phi c x)) d)) (grid x0 dx N)) = Some ys /\
    rabi_guess (grid x0 dx N) ys = Ok [a; fg; ph; cg] /\ greatest a ys /\ good_guess x0 (gain d * A) f phi 0 0 fg ph cg.
Proof.
  intros Hh HA. assert (HA1 : A <> 0%R) by (intros ->; apply HA; ring).
  assert (Hd : d <> RtoC 0). { intros ->. apply HA. unfold gain. cbn. unfold Rdiv. ring. }
  set (ts := map (wave A f phi c) (grid x0 dx N)).
  assert (Hn : near 0 (wave A f phi c) (grid x0 dx N) ts).
  { unfold near, ts. generalize (grid x0 dx N). intros xs. induction xs as [|x xs IH]; cbn [map]; [apply Forall2_nil|apply Forall2_cons; [rewrite Rminus_diag_eq, Rabs_R0 by reflexivity; lra|exact IH]]. }
  assert (Em : rmean ts = c).
  { rewrite rmean_np_mean. pose proof (mean_near x0 dx N m A f phi c Hh 0 ts Hn) as B. destruct (Req_dec (np_mean ts - c) 0) as [F|F]; [lra|]. pose proof (Rabs_pos_lt _ F). lra. }
  pose proof (project_line z d ts Hd (wave_varies x0 dx N m A f phi c Hh HA1)) as E. unfold ts in E at 1. rewrite map_map in E.
  assert (Ey : map (fun t => gain d * t)%R (centred ts) = map (wave (gain d * A) f phi 0) (grid x0 dx N)).
  { unfold centred. rewrite Em. unfold ts. rewrite !map_map. apply map_ext. intros x. unfold wave. ring. }
  fold (gain d) in E. rewrite Ey in E. set (ys := map (wave (gain d * A) f phi 0) (grid x0 dx N)) in *.
  assert (Hn' : near 0 (wave (gain d * A) f phi 0) (grid x0 dx N) ys).
  { unfold near, ys. generalize (grid x0 dx N). intros xs. induction xs as [|x xs IH]; cbn [map]; [apply Forall2_nil|apply Forall2_cons; [rewrite Rminus_diag_eq, Rabs_R0 by reflexivity; lra|exact IH]]. }
  destruct (rabi_wave x0 dx N m (gain d * A) f phi 0 0 ys Hh Hn') as (a & fg & ph & cg & G & H1 & H2); [rewrite Rabs_R0; pose proof (Rabs_pos_lt _ HA); lra|].
  exists ys, a, fg, ph, cg. split; [exact E|]. split; [exact G|]. split; [exact H1|exact H2].
Qed.
