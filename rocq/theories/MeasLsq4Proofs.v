(** The best physical counts exist for all data when the confusion matrix can
    be undone. *)
From Coq Require Import Reals Lra.
From Coquelicot Require Import Coquelicot.
From Verif Require Import LinAlg Base CountsSpec CtmpSpec MeasCalSpec MeasLsqModel MeasLsqSpec MeasLsqProofs.
Local Open Scope list_scope.
Local Open Scope R_scope.

Section Exist.
Context {I : Type} {HI : Eqb I}.
Variable dom : list I.
Variables P A : I -> I -> R.
Hypothesis Hnd : NoDup dom.
Hypothesis HPA : undoes dom P A.
Variable v : I -> R.
Let total := fsum (map v dom).
Hypothesis Hne : dom <> [].
Hypothesis Htot : 0 <= total.

Let D (y : I -> R) := dist2 dom v (shown dom A y).
Let K := frob2 dom P.
Let L := frob2 dom A.
Let N := fsum (map (fun _ => 1) dom).

Lemma frob_pos B : 0 <= frob2 dom B.
Proof. apply rs_nonneg. intros i _. apply rs_nonneg. intros; nra. Qed.

Lemma N_pos : 0 <= N.
Proof. apply rs_nonneg. intros; lra. Qed.

Lemma const_sum c : fsum (map (fun _ : I => c) dom) = c * N.
Proof.
  unfold N. transitivity (c * fsum (map (fun _ : I => 1) dom) + 0 * fsum (map (fun _ : I => 1) dom)); [|ring].
  rewrite <- rs_lin. apply rs_ext. intros; ring.
Qed.

Lemma some_physical : exists y, physical dom total y.
Proof.
  destruct dom as [|a l] eqn:E; [congruence|]. exists (fun i => if eqb a i then total else 0). split.
  - intros i _. destruct (eqb a i); [exact Htot | lra].
  - exact (fsum_pick (a :: l) a (fun _ => total) Hnd (or_introl eq_refl)).
Qed.

Lemma infimum : exists m, (forall y, physical dom total y -> m <= D y) /\
  forall e, 0 < e -> exists y, physical dom total y /\ D y < m + e.
Proof.
  destruct (completeness (fun t => exists y, physical dom total y /\ t = - D y)) as [s [Hub Hlub]].
  - exists 0. intros t (y & _ & ->). pose proof (dist2_pos dom v (shown dom A y)). unfold D. lra.
  - destruct some_physical as [y Hy]. exists (- D y), y. auto.
  - exists (- s). split.
    + intros y Hy. assert (- D y <= s) by (apply Hub; exists y; auto). lra.
    + intros e He. destruct (Classical_Prop.classic (exists y, physical dom total y /\ D y < - s + e)) as [|Hno]; [assumption|].
      exfalso. assert (s <= s - e); [|lra]. apply Hlub. intros t (y & Hy & ->).
      destruct (Rlt_le_dec (D y) (- s + e)); [exfalso; apply Hno; eauto | lra].
Qed.

Lemma combo s t y z : physical dom total y -> physical dom total z -> 0 <= s -> 0 <= t -> s + t = 1 ->
  physical dom total (fun i => s * y i + t * z i).
Proof.
  intros [Hy1 Hy2] [Hz1 Hz2] Hs Ht E. split.
  - intros i Hi. specialize (Hy1 i Hi). specialize (Hz1 i Hi). nra.
  - rewrite rs_lin, Hy2, Hz2. nra.
Qed.

Lemma parallelogram y z : D (fun i => (1/2) * y i + (1/2) * z i)
  = D y / 2 + D z / 2 - dist2 dom (shown dom A y) (shown dom A z) / 4.
Proof.
  unfold D, dist2.
  transitivity (1 * fsum (map (fun i => (1/2) * ((v i - shown dom A y i) * (v i - shown dom A y i)) + (1/2) * ((v i - shown dom A z i) * (v i - shown dom A z i))) dom)
     + (-1/4) * fsum (map (fun i => (shown dom A y i - shown dom A z i) * (shown dom A y i - shown dom A z i)) dom)).
  - rewrite <- rs_lin. apply rs_ext. intros i Hi. rewrite shown_lin. field.
  - rewrite rs_lin. field.
Qed.

Lemma shown_bound x y : dist2 dom (shown dom A x) (shown dom A y) <= L * dist2 dom x y.
Proof.
  unfold dist2 at 1, L, frob2. set (g := fun k => x k - y k). change (dist2 dom x y) with (inner dom g g).
  apply Rle_trans with (fsum (map (fun i => inner dom g g * fsum (map (fun j => A i j * A i j) dom) + 0 * 0) dom)).
  - apply rs_le. intros i Hi.
    assert (E : shown dom A x i - shown dom A y i = inner dom (A i) g).
    { unfold inner, g, shown.
      transitivity (1 * fsum (map (fun j => A i j * x j) dom) + (-1) * fsum (map (fun j => A i j * y j) dom)); [ring|].
      rewrite <- rs_lin. apply rs_ext. intros; ring. }
    rewrite E. pose proof (cauchy dom (A i) g). unfold inner in *. lra.
  - rewrite (rs_lin dom (inner dom g g) 0 (fun i => fsum (map (fun j => A i j * A i j) dom)) (fun _ => 0)). lra.
Qed.

Section Inf.
Variable m : R.
Hypothesis Hm : forall y, physical dom total y -> m <= D y.
Hypothesis Happ : forall e, 0 < e -> exists y, physical dom total y /\ D y < m + e.

(** Points with an objective below [m + t * t]. *)
Let near t y := physical dom total y /\ D y < m + t * t.

Lemma near_some t : 0 < t -> exists y, near t y.
Proof. intros Ht. apply Happ. nra. Qed.

Lemma near_mono t t' y : 0 < t <= t' -> near t y -> near t' y.
Proof. intros Ht [Hp Hd]. split; [exact Hp|]. nra. Qed.

Lemma near_close t y z i : 0 < t -> near t y -> near t z -> In i dom -> Rabs (y i - z i) <= t * (1 + K).
Proof.
  intros Ht [Hy Hdy] [Hz Hdz] Hi.
  assert (Hp : physical dom total (fun i => (1/2) * y i + (1/2) * z i)) by (apply combo; auto; lra).
  pose proof (Hm _ Hp) as Hmid. rewrite parallelogram in Hmid.
  pose proof (undo_bound dom P A Hnd HPA y z) as Hb. fold K in Hb.
  pose proof (frob_pos P) as HK. fold K in HK.
  assert (Hsq : (y i - z i) * (y i - z i) <= dist2 dom y z).
  { apply (rs_term dom (fun i => (y i - z i) * (y i - z i))); [intros; apply Rle_0_sqr | exact Hi]. }
  assert (H4 : dist2 dom (shown dom A y) (shown dom A z) <= 4 * (t * t)) by lra.
  assert (H5 : K * dist2 dom (shown dom A y) (shown dom A z) <= K * (4 * (t * t))) by (apply Rmult_le_compat_l; assumption).
  assert (H6 : (y i - z i) * (y i - z i) <= (t * (1 + K)) * (t * (1 + K))).
  { apply Rle_trans with (K * (4 * (t * t))); [lra|].
    replace ((t * (1 + K)) * (t * (1 + K))) with (K * (4 * (t * t)) + (t * (1 - K)) * (t * (1 - K))) by ring. pose proof (Rle_0_sqr (t * (1 - K))) as Hq. unfold Rsqr in Hq. lra. }
  apply Rsqr_le_abs_0 in H6. rewrite (Rabs_right (t * (1 + K))) in H6; [exact H6|]. apply Rle_ge. nra.
Qed.

(** The limit, entry by entry. *)
Let low i r := exists t, 0 < t /\ forall y, near t y -> r <= y i.
Definition limit i : R := real (Lub_Rbar (low i)).

Lemma limit_lub i : In i dom -> (forall r, low i r -> r <= limit i) /\ forall b, (forall r, low i r -> r <= b) -> limit i <= b.
Proof.
  intros Hi. unfold limit. pose proof (Lub_Rbar_correct (low i)) as [Hub Hlub].
  assert (H0 : low i 0) by (exists 1; split; [lra|]; intros y [[Hp _] _]; apply Hp, Hi).
  assert (Hb : forall r, low i r -> r <= total).
  { intros r (t & Ht & Hr). destruct (near_some t Ht) as [y Hy]. apply Rle_trans with (y i); [apply Hr, Hy|].
    destruct Hy as [[Hp Hs] _]. rewrite <- Hs. apply (rs_term dom y i Hp Hi). }
  destruct (Lub_Rbar (low i)) as [l| |] eqn:E; cbn [real].
  - split; [intros r Hr; exact (Hub r Hr)|]. intros b Hbb. apply (Hlub (Finite b)). intros r Hr. exact (Hbb r Hr).
  - exfalso. exact (Hlub (Finite total) (fun r Hr => Hb r Hr)).
  - exfalso. exact (Hub 0 H0).
Qed.

Lemma limit_close t y i : 0 < t -> near t y -> In i dom -> Rabs (limit i - y i) <= t * (1 + K).
Proof.
  intros Ht Hy Hi. destruct (limit_lub i Hi) as [Hub Hlub].
  assert (H1 : y i - t * (1 + K) <= limit i).
  { apply Hub. exists t. split; [exact Ht|]. intros z Hz. pose proof (near_close t y z i Ht Hy Hz Hi) as Hc.
    apply Rabs_le_between in Hc. lra. }
  assert (H2 : limit i <= y i + t * (1 + K)).
  { apply Hlub. intros r (t' & Ht' & Hr). set (u := Rmin t t').
    assert (Hu : 0 < u) by (apply Rmin_pos; assumption).
    destruct (near_some u Hu) as [z Hz].
    assert (r <= z i) by (apply Hr, (near_mono u); [split; [exact Hu | apply Rmin_r] | exact Hz]).
    assert (Hz' : near t z) by (apply (near_mono u); [split; [exact Hu | apply Rmin_l] | exact Hz]).
    pose proof (near_close t y z i Ht Hy Hz' Hi) as Hc. apply Rabs_le_between in Hc. lra. }
  apply Rabs_le_between. lra.
Qed.

Lemma all_small a b : (forall t, 0 < t <= 1 -> a <= t * b) -> a <= 0.
Proof. intros H. apply (small_step a (2 * b)). intros t Ht. specialize (H t Ht). lra. Qed.

Lemma limit_physical : physical dom total limit.
Proof.
  split.
  - intros i Hi. apply (proj1 (limit_lub i Hi)). exists 1. split; [lra|]. intros y [[Hp _] _]. apply Hp, Hi.
  - pose proof N_pos as HN. pose proof (frob_pos P) as HK. fold K in HK.
    assert (B : forall t, 0 < t <= 1 -> Rabs (fsum (map limit dom) - total) <= t * ((1 + K) * N)).
    { intros t Ht. destruct (near_some t (proj1 Ht)) as [y Hy]. pose proof Hy as [[_ Hs] _]. rewrite <- Hs.
      assert (E1 : fsum (map limit dom) <= fsum (map (fun i => 1 * y i + 1 * (t * (1 + K))) dom)).
      { apply rs_le. intros i Hi. pose proof (limit_close t y i (proj1 Ht) Hy Hi) as Hc. apply Rabs_le_between in Hc. lra. }
      assert (E2 : fsum (map (fun i => 1 * y i + (-1) * (t * (1 + K))) dom) <= fsum (map limit dom)).
      { apply rs_le. intros i Hi. pose proof (limit_close t y i (proj1 Ht) Hy Hi) as Hc. apply Rabs_le_between in Hc. lra. }
      rewrite rs_lin, const_sum in E1, E2. apply Rabs_le_between. split; nra. }
    assert (H1 : fsum (map limit dom) - total <= 0).
    { apply all_small with ((1 + K) * N). intros t Ht. specialize (B t Ht). apply Rabs_le_between in B. lra. }
    assert (H2 : total - fsum (map limit dom) <= 0).
    { apply all_small with ((1 + K) * N). intros t Ht. specialize (B t Ht). apply Rabs_le_between in B. lra. }
    lra.
Qed.

Lemma limit_best : D limit <= m.
Proof.
  pose proof N_pos as HN. pose proof (frob_pos P) as HK. fold K in HK. pose proof (frob_pos A) as HL. fold L in HL.
  set (C := L * (N * ((1 + K) * (1 + K)))).
  assert (HC : 0 <= C) by (unfold C; apply Rmult_le_pos; [|apply Rmult_le_pos; [|nra]]; assumption).
  assert (Hm0 : 0 <= m).
  { assert (- m <= 0); [|lra]. apply all_small with 1. intros t Ht. destruct (Happ t (proj1 Ht)) as (y & _ & Hy).
    pose proof (dist2_pos dom v (shown dom A y)). unfold D in Hy. lra. }
  assert (H : D limit - m <= 0); [|lra].
  apply all_small with (m + 2 + 2 * C). intros t Ht.
  destruct (near_some t (proj1 Ht)) as [y Hy]. pose proof Hy as [_ Hd].
  assert (Hc : dist2 dom limit y <= t * t * (N * ((1 + K) * (1 + K)))).
  { unfold dist2. apply Rle_trans with (fsum (map (fun _ : I => (t * (1 + K)) * (t * (1 + K))) dom)).
    - apply rs_le. intros i Hi. pose proof (limit_close t y i (proj1 Ht) Hy Hi) as Hcl.
      pose proof (Rabs_pos (limit i - y i)). replace ((limit i - y i) * (limit i - y i)) with (Rabs (limit i - y i) * Rabs (limit i - y i)).
      + nra.
      + rewrite <- Rabs_mult. apply Rabs_right. apply Rle_ge. apply Rle_0_sqr.
    - rewrite const_sum. lra. }
  assert (Hs : dist2 dom (shown dom A limit) (shown dom A y) <= t * t * C).
  { apply Rle_trans with (L * dist2 dom limit y); [apply shown_bound|]. unfold C.
    replace (t * t * (L * (N * ((1 + K) * (1 + K))))) with (L * (t * t * (N * ((1 + K) * (1 + K))))) by ring.
    apply Rmult_le_compat_l; assumption. }
  set (e := fun i => v i - shown dom A y i). set (g := fun i => shown dom A y i - shown dom A limit i).
  assert (Ed : D limit = inner dom e e + (inner dom g g + 2 * inner dom e g)).
  { unfold D, dist2.
    transitivity (inner dom (fun i => 1 * e i + 1 * g i) (fun i => 1 * e i + 1 * g i)).
    - unfold inner, e, g. apply rs_ext. intros; ring.
    - rewrite inner_lin_l, !inner_lin_r, (inner_sym dom g e). ring. }
  assert (Eg : inner dom g g <= t * t * C).
  { replace (inner dom g g) with (dist2 dom (shown dom A limit) (shown dom A y)); [exact Hs|]. unfold dist2, inner, g. apply rs_ext; intros; ring. }
  assert (Ee : inner dom e e < m + t * t) by exact Hd.
  pose proof (inner_pos dom (fun i => t * e i + (-1) * g i)) as Hq.
  rewrite inner_lin_l, !inner_lin_r, (inner_sym dom g e) in Hq.
  (* 2 t <e,g> <= t^2 |e|^2 + |g|^2 <= t^2 (m + t^2) + t^2 C *)
  assert (H2 : 2 * t * inner dom e g <= t * (t * (m + t * t) + t * C)) by nra.
  assert (H3 : 2 * inner dom e g <= t * (m + t * t) + t * C).
  { apply Rmult_le_reg_l with t; [lra|]. lra. }
  rewrite Ed. assert (t * t <= t) by nra. assert (t * (t * t) <= t) by nra. assert (t * t * C <= t * C) by nra. lra.
Qed.
End Inf.

Lemma best_exists : exists r, best_physical dom A v r.
Proof.
  destruct infimum as (m & Hm & Happ). exists (limit m). split; [apply limit_physical; assumption|].
  intros y Hy. apply Rle_trans with m; [apply limit_best; assumption | apply Hm, Hy].
Qed.
End Exist.
