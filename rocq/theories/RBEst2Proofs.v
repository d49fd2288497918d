(** Benchmarks of depolarising gates, and the reported errors (C71). *)
From Coq Require Import QArith Qreals Reals Lra.
From Coquelicot Require Import Coquelicot.
From Verif Require Import LinAlg Base PyStr ResultFacts CountsModel MeasCalModel RBSeqModel RBFitModel CtmpSpec EntSpec GstOptSpec IQSpec IQFitProofs RBEstModel RBEstSpec RBNoiseProofs RBEstProofs.
Local Open Scope list_scope.
Local Open Scope nat_scope.

(** ** From sequences to decays *)
Lemma fsum_same (l : list (list (op * R))) (g : list (op * R) -> C) (v : R) : (forall ops, In ops l -> g ops = RtoC v) -> fsum (map g l) = RtoC (v * INR (length l)).
Proof.
  induction l as [|o l IH]; intros H; [cbn [map length INR]; rewrite fsum_nil, Rmult_0_r; reflexivity|]. cbn [map length]. rewrite fsum_cons, (H o (or_introl eq_refl)), IH by (intros x Hx; apply H; right; exact Hx).
  toC. rewrite <- RtoC_plus, S_INR. f_equal. ring.
Qed.
Lemma benchmark_decay f i ms d measured noise a x b :
  (forall m ops, closes d ops -> strengths ops = noise m -> measured ops = RtoC (a * x ^ m + b)) -> benchmarked f i ms d measured noise -> decay f i ms a x b.
Proof.
  intros H (rows & ys & Hr & Hl & Hy & Hx & Ly & E). exists rows, ys. repeat split; try assumption.
  apply nth_ext with (d := Q2R 0%Q) (d' := (a * x ^ 0 + b)%R); [rewrite !map_length; exact Ly|]. intros k Hk. rewrite map_length in Hk. rewrite map_nth.
  rewrite (map_nth (fun m => a * x ^ m + b)%R ms 0 k).
  destruct (E k ltac:(lia)) as (seqs & Hne & Hs & Es). rewrite (fsum_same _ _ (a * x ^ nth k ms 0 + b)) in Es.
  - apply (f_equal fst) in Es. cbn [fst RtoC] in Es. apply Rmult_eq_reg_r in Es; [exact Es|]. apply not_0_INR. destruct seqs; [contradiction|discriminate].
  - intros ops Ho. destruct (Hs ops Ho) as [Hc Ht]. exact (H _ ops Hc Ht).
Qed.
Lemma prob0_standard d p m ops : 0 < d -> closes d ops -> strengths ops = standard m p -> prob0 d ops = RtoC ((1 - / INR d) * p * p ^ m + / INR d).
Proof. intros Hd Hc Hs. unfold prob0. rewrite (survival d Hd ops Hc). unfold strength. rewrite Hs, strength_standard. f_equal. ring. Qed.
Lemma prob0_interleaving d p pg m ops : 0 < d -> closes d ops -> strengths ops = interleaving m p pg -> prob0 d ops = RtoC ((1 - / INR d) * p * (p * pg) ^ m + / INR d).
Proof. intros Hd Hc Hs. unfold prob0. rewrite (survival d Hd ops Hc). unfold strength. rewrite Hs, strength_interleaving. f_equal. ring. Qed.
Lemma purity_standard d p m ops : 0 < d -> closes d ops -> strengths ops = standard m p -> final_purity d ops = RtoC ((1 - / INR d) * p ^ 2 * (p ^ 2) ^ m + / INR d).
Proof.
  intros Hd [Hc _] Hs. unfold final_purity. rewrite (ground_pure d Hd ops Hc). unfold strength. rewrite Hs, strength_standard. f_equal. rewrite <- pow_mult, Rpow_mult_distr, <- pow_mult, (Nat.mul_comm m 2). ring.
Qed.
Lemma size_at_least (q : list nat) : q <> [] -> (2 <= size q)%R.
Proof.
  intros H. destruct q as [|a q]; [contradiction|]. unfold size. cbn [length]. rewrite pow_INR. cbn [pow]. pose proof (pow_R1_Rle 2 (length q) ltac:(lra)) as P. change (INR 2) with 2%R. lra.
Qed.
Lemma amplitude (q : list nat) p : q <> [] -> (0 < p <= 1)%R -> (0 < (1 - / size q) * p <= 1)%R.
Proof.
  intros H Hp. pose proof (size_at_least q H) as S. assert (I : (0 < / size q <= / 2)%R) by (split; [apply Rinv_0_lt_compat; lra|apply Rinv_le_contravar; lra]). split; [apply Rmult_lt_0_compat; lra|]. rewrite <- (Rmult_1_l 1). apply Rmult_le_compat; lra.
Qed.
Lemma size_INR (q : list nat) : size q = INR (2 ^ length q). Proof. reflexivity. Qed.
Lemma pow2_gt n : 0 < 2 ^ n. Proof. pose proof (Nat.pow_nonzero 2 n). lia. Qed.

(** ** Standard benchmarking *)
Lemma standard_decay f i ms (q : list nat) p : benchmarked f i ms (2 ^ length q) (prob0 (2 ^ length q)) (fun m => standard m p) -> decay f i ms ((1 - / size q) * p) p (/ size q).
Proof. apply benchmark_decay. intros m ops Hc Hs. exact (prob0_standard _ p m ops (pow2_gt _) Hc Hs). Qed.
Lemma interleaving_decay f i ms (q : list nat) p pg : benchmarked f i ms (2 ^ length q) (prob0 (2 ^ length q)) (fun m => interleaving m p pg) -> decay f i ms ((1 - / size q) * p) (p * pg) (/ size q).
Proof. apply benchmark_decay. intros m ops Hc Hs. exact (prob0_interleaving _ p pg m ops (pow2_gt _) Hc Hs). Qed.
Lemma purity_decay f i ms (q : list nat) p : benchmarked f i ms (2 ^ length q) (final_purity (2 ^ length q)) (fun m => standard m p) -> decay f i ms ((1 - / size q) * p ^ 2) (p ^ 2) (/ size q).
Proof. apply benchmark_decay. intros m ops Hc Hs. exact (purity_standard _ p m ops (pow2_gt _) Hc Hs). Qed.

(** ** Interleaved benchmarking *)
Lemma second_three a x b : second [a; x; b] = Ok x. Proof. reflexivity. Qed.
Lemma second_errs l : length l = 3 -> second l = Ok (nth 1 l 0%R). Proof. destruct l as [|u [|v l]]; try discriminate. reflexivity. Qed.
Lemma combine_enum {A} (l : list A) n i a : nth_error l i = Some a -> length l <= n -> nth_error (combine (seq 0 n) l) i = Some (i, a).
Proof.
  intros H Hl. assert (Hi : i < length l) by (apply nth_error_Some; congruence).
  assert (L : i < length (combine (seq 0 n) l)) by (rewrite combine_length, seq_length; lia).
  rewrite (nth_error_nth' _ (0, a) L). f_equal. rewrite combine_nth_lt; [|exact L] || idtac.
  clear L. revert i n Hl Hi H. assert (G : forall l i n s, i < length l -> length l <= n -> nth_error l i = Some a -> nth i (combine (seq s n) l) (0, a) = (s + i, a)).
  { clear. induction l as [|b l IH]; intros i n s Hi Hl H; [cbn in Hi; lia|]. destruct n as [|n]; [cbn in Hl; lia|]. cbn [seq combine]. destruct i as [|i]; cbn [nth nth_error] in *; [injection H as ->; f_equal; lia|].
    rewrite IH; [f_equal; lia|cbn in Hi; lia|cbn in Hl; lia|exact H]. }
  intros i n Hl Hi H. rewrite G by assumption. reflexivity.
Qed.
Lemma combine_inv {A} (l : list A) n i a : In (i, a) (combine (seq 0 n) l) -> nth_error l i = Some a.
Proof.
  assert (G : forall l s n, In (i, a) (combine (seq s n) l) -> s <= i /\ nth_error l (i - s) = Some a).
  { clear. induction l as [|b l IH]; intros s n H; destruct n as [|n]; try (destruct H; fail). cbn [seq combine] in H. destruct H as [E|H].
    - injection E as <- <-. rewrite Nat.sub_diag. auto.
    - apply IH in H. destruct H as [H1 H2]. split; [lia|]. replace (i - s) with (S (i - S s)) by lia. exact H2. }
  intros H. apply G in H. rewrite Nat.sub_0_r in H. apply H.
Qed.
Lemma mapM_enum {B} (F : nat * list nat -> result B) (P : nat -> B -> Prop) (l : list (list nat)) n : length l <= n ->
  (forall i, i < length l -> exists t, F (i, nth i l []) = Ok t /\ P i t) ->
  exists r, mapM F (combine (seq 0 n) l) = Ok r /\ length r = length l /\ forall i, i < length l -> exists t, nth_error r i = Some t /\ P i t.
Proof.
  intros Hn H. destruct (mapM_total F (fun iq t => P (fst iq) t) (combine (seq 0 n) l)) as (r & E & F2).
  { intros [i q] Hi. apply combine_inv in Hi. assert (L : i < length l) by (apply nth_error_Some; congruence). destruct (H i L) as (t & Et & Pt). rewrite (nth_error_nth _ _ _ Hi) in Et. exists t. split; [exact Et|exact Pt]. }
  pose proof (Forall2_length' _ _ _ F2) as L. rewrite combine_length, seq_length, Nat.min_r in L by exact Hn. exists r. split; [exact E|]. split; [symmetry; exact L|]. intros i Hi.
  destruct (nth_error r i) as [t|] eqn:Et; [|apply nth_error_None in Et; lia]. exists t. split; [reflexivity|].
  exact (Forall2_nth _ _ _ i (i, nth i l []) t F2 (combine_enum l n i _ (nth_error_nth' _ _ Hi) Hn) Et).
Qed.
Lemma decay_lengths f i ms a x b : decay f i ms a x b -> i < length (f_lengths f).
Proof. intros (rows & ys & _ & _ & _ & H & _). apply nth_error_Some. congruence. Qed.
Lemma exact_lengths cf f ms a x : exact_fits cf f ms a x -> length (f_pattern f) <= length (f_lengths f).
Proof.
  intros H. destruct (Nat.le_gt_cases (length (f_pattern f)) (length (f_lengths f))) as [L|L]; [exact L|]. exfalso. destruct (H (length (f_lengths f)) L) as (D & _). apply decay_lengths in D. lia.
Qed.
Lemma interleaved_exact cf f f' ms ms' a x a' x' : exact_fits cf f ms a x -> exact_fits cf f' ms' a' x' -> f_pattern f' = f_pattern f ->
  exists l l' r, interleaved_fit cf (f, f') = Ok (l, l', r) /\ length r = length (f_pattern f) /\
  forall i, i < length (f_pattern f) -> exists t t', nth_error l i = Some t /\ nth_error l' i = Some t' /\ t_params t = [a i; x i; (/ size (pattern f i))%R] /\ t_params t' = [a' i; x' i; (/ size (pattern f i))%R] /\
    nth_error r i = Some (interleaved (size (pattern f i)) (x i) (nth 1 (t_errs t) 0) (x' i) (nth 1 (t_errs t') 0))%R.
Proof.
  intros H H' Hp. pose proof (exact_lengths _ _ _ _ _ H) as Ln. destruct (fit_data_exact cf f ms a x H) as (l & E & L & Hl). destruct (fit_data_exact cf f' ms' a' x' H') as (l' & E' & L' & Hl').
  unfold interleaved_fit. cbn [fst snd]. rewrite E, E'. cbn [bind].
  destruct (mapM_enum (fun iq => do t <- index_e l (fst iq); do t' <- index_e l' (fst iq); do alpha <- second (t_params t); do alpha_c <- second (t_params t'); do alpha_err <- second (t_errs t); do alpha_c_err <- second (t_errs t');
      Ok (interleaved (dim (snd iq)) alpha alpha_err alpha_c alpha_c_err))
    (fun i v => exists t t', nth_error l i = Some t /\ nth_error l' i = Some t' /\ t_params t = [a i; x i; (/ size (pattern f i))%R] /\ t_params t' = [a' i; x' i; (/ size (pattern f i))%R] /\
      v = interleaved (size (pattern f i)) (x i) (nth 1 (t_errs t) 0%R) (x' i) (nth 1 (t_errs t') 0%R)) (f_pattern f) (length (f_lengths f)) Ln) as (r & Er & Lr & Hr).
  - intros i Hi. destruct (Hl i Hi) as (t & Et & P1 & P2 & _). destruct (Hl' i) as (t' & Et' & P1' & P2' & _); [rewrite Hp; exact Hi|]. unfold pattern in P1'. rewrite Hp in P1'. fold (pattern f i) in P1'. cbn [fst snd].
    rewrite (index_ok _ _ _ Et), (index_ok _ _ _ Et'). cbn [bind]. rewrite P1, P1', !second_three, (second_errs _ P2), (second_errs _ P2'). cbn [bind]. rewrite size_dim. eexists. split; [reflexivity|]. exists t, t'. repeat split; assumption.
  - rewrite Er. cbn [bind]. exists l, l', r. split; [reflexivity|]. split; [exact Lr|]. intros i Hi. destruct (Hr i Hi) as (v & Ev & t & t' & A & B & D & F & ->). exists t, t'. repeat split; assumption.
Qed.
Lemma interleaved_bounds d x y : (2 <= d)%R -> (0 < x < 1)%R -> let r := interleaved d x 0 y 0 in (i_sys_l r <= i_epc_est r <= i_sys_r r)%R.
Proof.
  intros Hd Hx. cbn [interleaved i_sys_l i_epc_est i_sys_r]. match goal with |- context [Rmin ?u ?v] => assert (S : (0 <= Rmin u v)%R) end; [|lra].
  pose proof (sqrt_pos (1 - x)) as S1. pose proof (sqrt_pos (d * d - 1)) as S2. pose proof (Rabs_pos (x - y / x)) as A.
  assert (I : (0 < / d)%R) by (apply Rinv_0_lt_compat; lra). apply Rmin_glb.
  - apply Rmult_le_pos; [apply Rmult_le_pos; lra|lra].
  - apply Rplus_le_le_0_compat.
    + apply Rmult_le_pos; [apply Rmult_le_pos; [nra|lra]|]. left. apply Rinv_0_lt_compat. repeat apply Rmult_lt_0_compat; lra.
    + apply Rmult_le_pos; [apply Rmult_le_pos; [lra|exact S2]|]. left. apply Rinv_0_lt_compat. lra.
Qed.
Lemma interleaved_propagated d x ex y ey : (2 <= d)%R -> (0 < x)%R -> (0 < y)%R -> propagated (fun u v => (d - 1) / d * (1 - v / u))%R x y ex ey (i_epc_est_err (interleaved d x ex y ey)).
Proof.
  intros Hd Hx Hy. exists ((d - 1) / d * (y / (x * x)))%R, ((d - 1) / d * (- / x))%R. split; [|split].
  - auto_derive; [lra|]. field. split; lra.
  - auto_derive; [exact I|]. field. split; lra.
  - cbn [interleaved i_epc_est_err]. assert (K : (0 <= (d - 1) / d * (y / x))%R).
    { apply Rmult_le_pos; [apply Rmult_le_pos; [lra|left; apply Rinv_0_lt_compat; lra]|]. left. apply Rdiv_lt_0_compat; lra. }
    rewrite <- (sqrt_pow2 _ K), <- sqrt_mult_alt by apply pow2_ge_0. f_equal. field. repeat split; lra.
Qed.

(** ** Purity benchmarking *)
Lemma purity_exact cf f ms a p : exact_fits cf f ms a (fun i => p i ^ 2)%R -> f_pattern f <> [] -> (forall i, i < length (f_pattern f) -> (0 < p i)%R) ->
  exists l, purity_fit cf f = Ok l /\ length l = length (f_pattern f) /\
  forall i, i < length (f_pattern f) -> exists u, nth_error l i = Some u /\ exists e, t_params (u_fit u) = [a i; p i; (/ size (pattern f i))%R] /\
    u_pepc u = ((size (pattern f 0) - 1) / size (pattern f 0) * (1 - p i))%R /\ t_epc (u_fit u) = ((size (pattern f i) - 1) / size (pattern f i) * (1 - p i ^ 2))%R /\
    nth 1 (t_errs (u_fit u)) 0%R = (e / (2 * sqrt (p i)))%R /\ u_pepc_err u = ((size (pattern f 0) - 1) / size (pattern f 0) * nth 1 (t_errs (u_fit u)) 0 / p i)%R /\
    t_epc_err (u_fit u) = ((size (pattern f i) - 1) / size (pattern f i) * e / p i ^ 2)%R.
Proof.
  intros H Hne Hp. pose proof (exact_lengths _ _ _ _ _ H) as Ln. destruct (fit_data_exact cf f ms a _ H) as (l & E & L & Hl).
  unfold purity_fit. rewrite E. cbn [bind]. assert (L0 : 0 < length (f_pattern f)) by (destruct (f_pattern f); [contradiction|cbn; lia]). rewrite (index_ok _ _ _ (pattern_at f 0 L0)). cbn [bind].
  rewrite Nat.min_r by exact Ln. apply mapM_seq. intros i Hi. destruct (Hl i Hi) as (t & Et & P1 & P2 & P3 & P4). rewrite (index_ok _ _ _ Et). cbn [bind]. rewrite P1, second_three, (second_errs _ P2). cbn [bind].
  assert (S : sqrt (p i ^ 2) = p i) by (apply sqrt_pow2; pose proof (Hp i Hi); lra). rewrite S.
  assert (Pe : exists u v w, t_errs t = [u; v; w]). { destruct (t_errs t) as [|u [|v [|w [|]]]]; try discriminate. exists u, v, w. reflexivity. }
  destruct Pe as (u & v & w & Pe). eexists. split; [reflexivity|].
  exists v. cbn [u_fit u_pepc u_pepc_err t_params t_errs t_epc t_epc_err]. rewrite Pe in *. cbn [set_second nth] in *. rewrite !size_dim. repeat split; assumption.
Qed.

(** ** Benchmarking of CNOT-dihedral elements *)
Lemma dihedral_exact cf f f' ms ms' a x a' x' : exact_fits cf f ms a x -> exact_fits cf f' ms' a' x' -> f_pattern f' = f_pattern f ->
  exists l l' r, dihedral_fit cf (f, f') = Ok (l, l', r) /\ length r = length (f_pattern f) /\
  forall i, i < length (f_pattern f) -> exists t t', nth_error l i = Some t /\ nth_error l' i = Some t' /\ t_params t = [a i; x i; (/ size (pattern f i))%R] /\ t_params t' = [a' i; x' i; (/ size (pattern f i))%R] /\
    nth_error r i = Some (dihedral (size (pattern f i)) (x i) (nth 1 (t_errs t) 0) (x' i) (nth 1 (t_errs t') 0))%R.
Proof.
  intros H H' Hp. pose proof (exact_lengths _ _ _ _ _ H) as Ln. destruct (fit_data_exact cf f ms a x H) as (l & E & L & Hl). destruct (fit_data_exact cf f' ms' a' x' H') as (l' & E' & L' & Hl').
  unfold dihedral_fit. cbn [fst snd]. rewrite E, E'. cbn [bind].
  destruct (mapM_enum (fun iq => do t <- index_e l (fst iq); do t' <- index_e l' (fst iq); do z <- second (t_params t); do x <- second (t_params t'); do z_err <- second (t_errs t); do x_err <- second (t_errs t');
      Ok (dihedral (dim (snd iq)) z z_err x x_err))
    (fun i v => exists t t', nth_error l i = Some t /\ nth_error l' i = Some t' /\ t_params t = [a i; x i; (/ size (pattern f i))%R] /\ t_params t' = [a' i; x' i; (/ size (pattern f i))%R] /\
      v = dihedral (size (pattern f i)) (x i) (nth 1 (t_errs t) 0%R) (x' i) (nth 1 (t_errs t') 0%R)) (f_pattern f) (length (f_lengths f)) Ln) as (r & Er & Lr & Hr).
  - intros i Hi. destruct (Hl i Hi) as (t & Et & P1 & P2 & _). destruct (Hl' i) as (t' & Et' & P1' & P2' & _); [rewrite Hp; exact Hi|]. unfold pattern in P1'. rewrite Hp in P1'. fold (pattern f i) in P1'. cbn [fst snd].
    rewrite (index_ok _ _ _ Et), (index_ok _ _ _ Et'). cbn [bind]. rewrite P1, P1', !second_three, (second_errs _ P2), (second_errs _ P2'). cbn [bind]. rewrite size_dim. eexists. split; [reflexivity|]. exists t, t'. repeat split; assumption.
  - rewrite Er. cbn [bind]. exists l, l', r. split; [reflexivity|]. split; [exact Lr|]. intros i Hi. destruct (Hr i Hi) as (v & Ev & t & t' & A & B & D & F & ->). exists t, t'. repeat split; assumption.
Qed.
Lemma dihedral_infidelity (q : list nat) z ez r er : d_epg (dihedral (size q) z ez r er) = pauli_infidelity (length q) (shrink z r).
Proof.
  cbn [dihedral d_epg]. unfold pauli_infidelity, shrink. rewrite strings_sum. rewrite <- size_INR. assert (S : size q = (2 ^ length q)%R) by (unfold size; rewrite pow_INR; reflexivity).
  assert (S4 : (4 ^ length q = size q * size q)%R) by (rewrite S, <- Rpow_mult_distr; f_equal; lra). rewrite S4, <- S. pose proof (pow_lt 2 (length q) ltac:(lra)). field. split; lra.
Qed.

(** ** Reported errors *)
Lemma derive_eq (g : R -> R) x (u v : R) : is_derive g x u -> is_derive g x v -> u = v.
Proof. intros A B. apply is_derive_unique in A. apply is_derive_unique in B. congruence. Qed.
Lemma propagated1_affine c x ex e : propagated1 (fun t => c * (1 - t))%R x ex e -> e = Rabs (c * ex).
Proof.
  intros (h & Hh & ->). assert (D : is_derive (fun t => c * (1 - t))%R x (- c)%R) by (auto_derive; [exact I|ring]). rewrite (derive_eq _ _ _ _ Hh D).
  rewrite Ropp_mult_distr_l_reverse. apply Rabs_Ropp.
Qed.
Lemma divided_error c x ex : (0 < c)%R -> (0 < x < 1)%R -> ex <> 0%R -> ~ propagated1 (fun t => c * (1 - t))%R x ex (c * ex / x).
Proof.
  intros Hc Hx He P. apply propagated1_affine in P. rewrite Rabs_mult, (Rabs_pos_eq c) in P by lra. assert (P' : (ex / x = Rabs ex)%R). { apply Rmult_eq_reg_l with c; [|lra]. rewrite <- P. field. lra. }
  assert (E : (ex = x * Rabs ex)%R) by (rewrite <- P'; field; lra). destruct (Rle_or_lt 0 ex) as [L|L]; [rewrite Rabs_pos_eq in E by exact L; nra|rewrite Rabs_left in E by exact L; nra].
Qed.
Lemma root_error x ex : (0 < x < 1)%R -> ex <> 0%R -> ~ propagated1 sqrt (x ^ 2)%R ex (ex / (2 * sqrt x)).
Proof.
  intros Hx He (h & Hh & E). assert (D : is_derive sqrt (x ^ 2)%R (/ (2 * x))%R).
  { assert (P : (0 < x ^ 2)%R) by (apply pow_lt; lra). apply is_derive_ext with (f := fun t => sqrt t); [reflexivity|]. auto_derive; [exact P|]. rewrite (sqrt_pow2 x) by lra. field. lra. }
  rewrite (derive_eq _ _ _ _ Hh D) in E. clear h Hh. pose proof (sqrt_lt_R0 x ltac:(lra)) as S. pose proof (sqrt_sqrt x ltac:(lra)) as SS. set (s := sqrt x) in *.
  assert (S1 : (s < 1)%R) by nra. rewrite Rabs_mult, Rabs_pos_eq in E by (left; apply Rinv_0_lt_compat; lra).
  assert (E' : (ex * s = Rabs ex)%R). { apply Rmult_eq_reg_r with (/ (2 * (s * s)))%R; [|apply Rgt_not_eq, Rinv_0_lt_compat; nra]. replace (ex * s * / (2 * (s * s)))%R with (ex / (2 * s))%R by (field; lra). rewrite E, SS. ring. }
  destruct (Rle_or_lt 0 ex) as [L|L]; [rewrite Rabs_pos_eq in E' by exact L; nra|rewrite Rabs_left in E' by exact L; nra].
Qed.
Lemma dihedral_propagated d z r ez er e : propagated (fun u v => (u + d * v) / (d + 1))%R z r ez er e -> (0 < d)%R -> e = sqrt ((ez / (d + 1)) ^ 2 + (d * er / (d + 1)) ^ 2).
Proof.
  intros (hx & hy & Hx & Hy & ->) Hd. assert (D1 : is_derive (fun t => (t + d * r) / (d + 1))%R z (/ (d + 1))%R) by (auto_derive; [lra|field; lra]).
  assert (D2 : is_derive (fun t => (z + d * t) / (d + 1))%R r (d / (d + 1))%R) by (auto_derive; [lra|field; lra]).
  rewrite (derive_eq _ _ _ _ Hx D1), (derive_eq _ _ _ _ Hy D2). f_equal. field. lra.
Qed.
Lemma dihedral_error d z r ez er : (0 < d)%R -> (0 < z < 1)%R -> (0 < r < 1)%R -> ez <> 0%R \/ er <> 0%R -> ~ propagated (fun u v => (u + d * v) / (d + 1))%R z r ez er (d_alpha_err (dihedral d z ez r er)).
Proof.
  intros Hd Hz Hr He P. apply dihedral_propagated in P; [|exact Hd]. cbn [dihedral d_alpha_err] in P.
  assert (Q : forall u v, (0 < u < 1)%R -> (v ^ 2 <= (v / u) ^ 2)%R /\ (v <> 0%R -> (v ^ 2 < (v / u) ^ 2)%R)).
  { intros u v Hu. assert (E : ((v / u) ^ 2 = v ^ 2 * (/ u) ^ 2)%R) by (field; lra). rewrite E. assert (I : (1 < / u)%R) by (rewrite <- Rinv_1; apply Rinv_lt_contravar; lra). assert (I2 : (1 < (/ u) ^ 2)%R) by nra. split.
    - pose proof (pow2_ge_0 v). nra.
    - intros Hv. assert (0 < v ^ 2)%R by (cbn; rewrite Rmult_1_r; pose proof (Rsqr_pos_lt v Hv) as T; unfold Rsqr in T; lra). nra. }
  assert (Z : (ez / z / (d + 1) = (ez / (d + 1)) / z)%R) by (field; lra). assert (W : (d * er / r / (d + 1) = (d * er / (d + 1)) / r)%R) by (field; lra). rewrite Z, W in P.
  pose proof (pow2_ge_0 (ez / (d + 1) / z)) as N1. pose proof (pow2_ge_0 (d * er / (d + 1) / r)) as N2. pose proof (pow2_ge_0 (ez / (d + 1))) as N3. pose proof (pow2_ge_0 (d * er / (d + 1))) as N4.
  apply sqrt_inj in P; [|lra|lra]. destruct (Q z (ez / (d + 1))%R Hz) as [Q1 Q2]. destruct (Q r (d * er / (d + 1))%R Hr) as [Q3 Q4].
  destruct He as [He|He].
  - assert (ez / (d + 1) <> 0)%R by (apply Rmult_integral_contrapositive; split; [exact He|apply Rinv_neq_0_compat; lra]). specialize (Q2 H). lra.
  - assert (d * er / (d + 1) <> 0)%R by (repeat (apply Rmult_integral_contrapositive; split); [lra|exact He|apply Rinv_neq_0_compat; lra]). specialize (Q4 H). lra.
Qed.

(** ** When the initial values are rejected *)
Lemma div_cancel u p : (0 < p)%R -> (u / p * p = u)%R. Proof. intros H. field. lra. Qed.
Lemma guess_decreasing (f : rbfitter) q m0 m1 ms y0 y1 ys x : m0 < m1 -> (/ size q < Q2R y1 < Q2R y0)%R -> (0 < x)%R -> ((Q2R y0 - / size q) * x ^ (m1 - m0) = Q2R y1 - / size q)%R ->
  guess_of (length q) (map (fun m => inject_Z (Z.of_nat m)) (m0 :: m1 :: ms)) (y0 :: y1 :: ys) = Ok [Fin ((Q2R y0 - / size q) / x ^ m0); Fin x; Fin (/ 2 ^ length q)] /\ (x < 1)%R.
Proof.
  intros Hm Hy Hx E. assert (X1 : (x < 1)%R).
  { destruct (Rlt_or_le x 1) as [L|L]; [exact L|]. exfalso. pose proof (pow_R1_Rle x (m1 - m0) L). nra. }
  split; [|exact X1]. rewrite <- size_pow in *. pose proof (pow_lt x m0 Hx) as P.
  apply guess_exact; [lia|apply Rdiv_lt_0_compat; lra|lra|rewrite div_cancel by exact P; ring|]. assert (EP : (x ^ m1 = x ^ m0 * x ^ (m1 - m0))%R) by (rewrite <- pow_add; f_equal; lia). rewrite EP, <- Rmult_assoc, div_cancel by exact P. rewrite E. ring.
Qed.
Lemma fit_pattern_runs cf f i q lens rows ys p0 v : nth_error (f_pattern f) i = Some q -> nth_error (f_lengths f) i = Some lens -> nth_error (f_raw f) i = Some rows -> length (hd [] rows) = length lens -> nth_error (f_mean f) i = Some ys ->
  fits cf f i -> feasible p0 = Ok v -> in_bounds unit_cube v -> exists t, fit_pattern cf f i p0 = Ok t.
Proof.
  intros Hq Hx Hr Hl Hy Hf Ev Hv. unfold fit_pattern. rewrite (index_ok _ _ _ Hx), (index_ok _ _ _ Hq), (index_ok _ _ _ Hy), (index_ok _ _ _ Hr). cbn [bind]. rewrite Ev. cbn [bind].
  destruct (Hf rb_fit_fun (sigma_of (column_std rows)) v _ _ rb_curve Hx Hy (sigma_good rows _ Hl) Hv) as (ps & var & EF & Lv & Bp & _).
  change bounds with unit_cube. rewrite EF. cbn [bind fst snd]. destruct (cube_inv ps Bp) as (a' & y & b' & -> & _). destruct var as [|v0 [|v1 [|v2 [|]]]]; try discriminate. cbn [index_e nth_error map bind]. eexists. reflexivity.
Qed.
Lemma rejected cf f q m0 m1 ms y0 y1 ys rows x : f_pattern f = [q] -> f_lengths f = [map (fun m => inject_Z (Z.of_nat m)) (m0 :: m1 :: ms)] -> f_raw f = [rows] -> length (hd [] rows) = S (S (length ms)) -> f_mean f = [y0 :: y1 :: ys] -> fits cf f 0 ->
  m0 < m1 -> (/ size q < Q2R y1 < Q2R y0)%R -> (0 < x)%R -> ((Q2R y0 - / size q) * x ^ (m1 - m0) = Q2R y1 - / size q)%R ->
  (fit_data cf f = Err ValueError <-> (x ^ m0 < Q2R y0 - / size q)%R) /\ ((Q2R y0 - / size q <= x ^ m0)%R -> exists t, fit_data cf f = Ok [t]).
Proof.
  intros Hp Hl Hr Hh Hy Hf Hm Hyy Hx E. destruct (guess_decreasing f q m0 m1 ms y0 y1 ys x Hm Hyy Hx E) as [G X1]. pose proof (pow_lt x m0 Hx) as P. rewrite <- size_pow in *. pose proof (size_inv q) as SI.
  assert (U : fit_data cf f = do t <- fit_pattern cf f 0 [Fin ((Q2R y0 - / 2 ^ length q) / x ^ m0); Fin x; Fin (/ 2 ^ length q)]; Ok [t]).
  { unfold fit_data. rewrite Hp, Hl, Hy. cbn [length seq mapM index_e nth_error bind]. rewrite G. cbn [bind]. destruct (fit_pattern _ _ _ _); reflexivity. }
  assert (Bad : (x ^ m0 < Q2R y0 - / 2 ^ length q)%R -> fit_data cf f = Err ValueError).
  { intros B. rewrite U. unfold fit_pattern. rewrite Hp, Hl, Hy, Hr. cbn [index_e nth_error bind]. unfold feasible. cbn [mapM]. destruct (Rle_dec 0 ((Q2R y0 - / 2 ^ length q) / x ^ m0)); [|reflexivity].
    destruct (Rle_dec ((Q2R y0 - / 2 ^ length q) / x ^ m0) 1) as [L|]; [|reflexivity]. exfalso. apply (Rmult_le_compat_r (x ^ m0)) in L; [|lra]. rewrite div_cancel in L by exact P. lra. }
  assert (Good : (Q2R y0 - / 2 ^ length q <= x ^ m0)%R -> exists t, fit_data cf f = Ok [t]).
  { intros B. assert (A : (0 <= (Q2R y0 - / 2 ^ length q) / x ^ m0 <= 1)%R).
    { split; [left; apply Rdiv_lt_0_compat; lra|]. apply Rmult_le_reg_r with (x ^ m0)%R; [exact P|]. rewrite div_cancel by exact P. lra. }
    destruct (fit_pattern_runs cf f 0 q (map (fun m => inject_Z (Z.of_nat m)) (m0 :: m1 :: ms)) rows (y0 :: y1 :: ys) [Fin ((Q2R y0 - / 2 ^ length q) / x ^ m0); Fin x; Fin (/ 2 ^ length q)] [((Q2R y0 - / 2 ^ length q) / x ^ m0)%R; x; (/ 2 ^ length q)%R]) as (t & Et).
    - rewrite Hp. reflexivity.
    - rewrite Hl. reflexivity.
    - rewrite Hr. reflexivity.
    - rewrite map_length. exact Hh.
    - rewrite Hy. reflexivity.
    - exact Hf.
    - apply feasible_cube; lra.
    - apply cube_intro; lra.
    - exists t. rewrite U, Et. reflexivity. }
  split; [|exact Good]. split; [|exact Bad]. intros Z. destruct (Rlt_or_le (x ^ m0) (Q2R y0 - / 2 ^ length q)) as [L|L]; [exact L|]. destruct (Good L) as (t & Et). congruence.
Qed.
