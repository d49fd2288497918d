(** Least squares over the physical counts: the projection lemma and what
    follows from it. *)
From Coq Require Import Reals Lra.
From Verif Require Import LinAlg Base CountsSpec CtmpSpec MeasCalSpec MeasLsqModel MeasLsqSpec.
Local Open Scope list_scope.
Local Open Scope R_scope.

Lemma rs_cons x (l : list R) : fsum (x :: l) = x + fsum l.
Proof. rewrite fsum_cons. reflexivity. Qed.
Lemma rs_nil : fsum (@nil R) = 0.
Proof. reflexivity. Qed.

Section Family.
Context {I : Type}.
Variable dom : list I.

Lemma rs_ext (f g : I -> R) : (forall i, In i dom -> f i = g i) -> fsum (map f dom) = fsum (map g dom).
Proof. intros H. f_equal. apply map_ext_in, H. Qed.

Lemma rs_lin a b (f g : I -> R) :
  fsum (map (fun i => a * f i + b * g i) dom) = a * fsum (map f dom) + b * fsum (map g dom).
Proof. induction dom as [|i l IH]; cbn [map]; [rewrite rs_nil; ring|]. rewrite !rs_cons, IH. ring. Qed.

Lemma rs_nonneg (f : I -> R) : (forall i, In i dom -> 0 <= f i) -> 0 <= fsum (map f dom).
Proof.
  induction dom as [|i l IH]; cbn [map]; intros H; [rewrite rs_nil; lra|]. rewrite rs_cons.
  assert (0 <= f i) by (apply H; left; reflexivity).
  assert (0 <= fsum (map f l)) by (apply IH; intros; apply H; right; assumption). lra.
Qed.

Lemma rs_le (f g : I -> R) : (forall i, In i dom -> f i <= g i) -> fsum (map f dom) <= fsum (map g dom).
Proof.
  intros H. assert (0 <= fsum (map (fun i => 1 * g i + (-1) * f i) dom)).
  { apply rs_nonneg. intros i Hi. specialize (H i Hi). lra. }
  rewrite rs_lin in H0. lra.
Qed.

Lemma rs_zero (f : I -> R) : (forall i, In i dom -> 0 <= f i) -> fsum (map f dom) = 0 ->
  forall i, In i dom -> f i = 0.
Proof.
  induction dom as [|k l IH]; cbn [map]; intros H Hs i Hi; [contradiction|]. rewrite rs_cons in Hs.
  assert (0 <= f k) by (apply H; left; reflexivity).
  assert (H1 : forall j, In j l -> 0 <= f j) by (intros; apply H; right; assumption).
  assert (0 <= fsum (map f l)).
  { clear -H1. induction l as [|a l IH]; cbn [map]; [rewrite rs_nil; lra|]. rewrite rs_cons.
    assert (0 <= f a) by (apply H1; left; reflexivity).
    assert (0 <= fsum (map f l)) by (apply IH; intros; apply H1; right; assumption). lra. }
  destruct Hi as [<- | Hi]; [lra|]. apply IH; auto. lra.
Qed.

(** One term of a sum of non-negative numbers. *)
Lemma rs_term (f : I -> R) i : (forall i, In i dom -> 0 <= f i) -> In i dom -> f i <= fsum (map f dom).
Proof.
  induction dom as [|k l IH]; cbn [map]; intros H Hi; [contradiction|]. rewrite rs_cons.
  assert (H0 : 0 <= f k) by (apply H; left; reflexivity).
  assert (H1 : forall j, In j l -> 0 <= f j) by (intros; apply H; right; assumption).
  destruct Hi as [<- | Hi].
  - assert (0 <= fsum (map f l)); [|lra].
    clear -H1. induction l as [|a l IH]; cbn [map]; [rewrite rs_nil; lra|]. rewrite rs_cons.
    assert (0 <= f a) by (apply H1; left; reflexivity).
    assert (0 <= fsum (map f l)) by (apply IH; intros; apply H1; right; assumption). lra.
  - specialize (IH H1 Hi). lra.
Qed.

Definition inner (a b : I -> R) : R := fsum (map (fun i => a i * b i) dom).

Lemma inner_pos a : 0 <= inner a a.
Proof. apply rs_nonneg. intros. nra. Qed.

Lemma inner_lin_r a b c s t : inner a (fun i => s * b i + t * c i) = s * inner a b + t * inner a c.
Proof. unfold inner. rewrite <- rs_lin. apply rs_ext. intros. ring. Qed.
Lemma inner_lin_l a b c s t : inner (fun i => s * b i + t * c i) a = s * inner b a + t * inner c a.
Proof. unfold inner. rewrite <- rs_lin. apply rs_ext. intros. ring. Qed.
Lemma inner_sym a b : inner a b = inner b a.
Proof. unfold inner. apply rs_ext. intros. ring. Qed.

(** Cauchy-Schwarz. *)
Lemma cauchy a b : inner a b * inner a b <= inner a a * inner b b.
Proof.
  pose proof (inner_pos b) as Hb. pose proof (inner_pos a) as Ha.
  assert (H : 0 <= inner (fun i => inner b b * a i + (- inner a b) * b i) (fun i => inner b b * a i + (- inner a b) * b i)) by apply inner_pos.
  rewrite inner_lin_l, !inner_lin_r, (inner_sym b a) in H.
  destruct (Req_dec (inner b b) 0) as [E | E].
  - assert (inner a b = 0); [|nra].
    assert (Hz : forall i, In i dom -> b i = 0).
    { intros i Hi. pose proof (rs_zero (fun i => b i * b i) (fun i _ => Rle_0_sqr (b i)) E i Hi). cbn in H0. nra. }
    unfold inner. rewrite (rs_ext _ (fun i => 0 * a i + 0 * a i)) by (intros i Hi; rewrite (Hz i Hi); ring).
    rewrite rs_lin. ring.
  - assert (0 < inner b b) by lra.
    assert (0 <= inner b b * (inner a a * inner b b - inner a b * inner a b)) by nra.
    assert (0 <= inner a a * inner b b - inner a b * inner a b); [|lra].
    apply Rmult_le_reg_l with (inner b b); [assumption|]. lra.
Qed.

Variable A : I -> I -> R.

Lemma shown_lin s t x y i : shown dom A (fun j => s * x j + t * y j) i = s * shown dom A x i + t * shown dom A y i.
Proof. unfold shown. rewrite <- rs_lin. apply rs_ext. intros. ring. Qed.

Lemma dist2_inner v w : dist2 dom v w = inner (fun i => v i - w i) (fun i => v i - w i).
Proof. reflexivity. Qed.

Lemma dist2_pos v w : 0 <= dist2 dom v w.
Proof. apply inner_pos. Qed.

Lemma dist2_ext v v' w w' : (forall i, In i dom -> v i = v' i) -> (forall i, In i dom -> w i = w' i) ->
  dist2 dom v w = dist2 dom v' w'.
Proof. intros H1 H2. apply rs_ext. intros i Hi. rewrite H1, H2 by exact Hi. reflexivity. Qed.

Lemma dist2_zero v w : dist2 dom v w <= 0 -> forall i, In i dom -> v i = w i.
Proof.
  intros H i Hi. assert (E : dist2 dom v w = 0) by (pose proof (dist2_pos v w); lra).
  pose proof (rs_zero (fun i => (v i - w i) * (v i - w i)) (fun i _ => Rle_0_sqr _) E i Hi). cbn in H0. nra.
Qed.

(** The step to the projection lemma: a line through the optimum. *)
Lemma small_step a b : (forall t, 0 < t <= 1 -> 2 * a <= t * b) -> a <= 0.
Proof.
  intros H. destruct (Rle_lt_dec a 0) as [|Ha]; [assumption|exfalso].
  assert (H1 : 2 * a <= b) by (specialize (H 1); lra).
  assert (Hb : 0 < b) by lra.
  assert (Hq : 0 < a / b) by (apply Rdiv_lt_0_compat; assumption).
  assert (Hle : a / b <= 1).
  { apply Rmult_le_reg_r with b; [exact Hb|]. unfold Rdiv. rewrite Rmult_assoc, Rinv_l by lra. lra. }
  specialize (H (a / b) (conj Hq Hle)). unfold Rdiv in H. rewrite Rmult_assoc, Rinv_l in H by lra. lra.
Qed.

(** Everything physical is further from the data than the optimum, by at least
    the squared distance of what the two show. *)
Lemma projection v r x : best_physical dom A v r -> physical dom (fsum (map v dom)) x ->
  dist2 dom v (shown dom A r) + dist2 dom (shown dom A r) (shown dom A x) <= dist2 dom v (shown dom A x).
Proof.
  intros [[Hr0 Hrs] Hbest] [Hx0 Hxs].
  set (e := fun i => v i - shown dom A r i). set (g := fun i => shown dom A x i - shown dom A r i).
  assert (Hd : forall t, dist2 dom v (shown dom A (fun j => (1 - t) * r j + t * x j))
                       = inner e e + (t * t * inner g g - 2 * t * inner e g)).
  { intros t. rewrite dist2_inner.
    transitivity (inner (fun i => 1 * e i + (- t) * g i) (fun i => 1 * e i + (- t) * g i)).
    - unfold inner. apply rs_ext. intros i Hi. rewrite shown_lin. unfold e, g. ring.
    - rewrite inner_lin_l, !inner_lin_r, (inner_sym g e). ring. }
  assert (Hs : inner e g <= 0).
  { apply small_step with (inner g g). intros t Ht.
    assert (Hp : physical dom (fsum (map v dom)) (fun j => (1 - t) * r j + t * x j)).
    { split; [intros i Hi; specialize (Hr0 i Hi); specialize (Hx0 i Hi); nra|]. rewrite rs_lin, Hrs, Hxs. ring. }
    specialize (Hbest _ Hp). rewrite Hd in Hbest.
    change (dist2 dom v (shown dom A r)) with (inner e e) in Hbest. nra. }
  assert (H1 : dist2 dom v (shown dom A x) = inner e e + (1 * 1 * inner g g - 2 * 1 * inner e g)).
  { rewrite <- Hd. apply dist2_ext; [reflexivity|]. intros i Hi. rewrite shown_lin. ring. }
  assert (H2 : dist2 dom (shown dom A r) (shown dom A x) = inner g g).
  { unfold dist2, inner, g. apply rs_ext. intros; ring. }
  rewrite H1, H2. change (dist2 dom v (shown dom A r)) with (inner e e). nra.
Qed.

Lemma shown_stochastic x : stochastic dom A -> fsum (map (shown dom A x) dom) = fsum (map x dom).
Proof.
  intros H. unfold shown. rewrite fsum_swap. apply rs_ext. intros j Hj.
  transitivity (x j * fsum (map (fun i => A i j) dom) + 0 * fsum (map (fun i => A i j) dom)).
  - rewrite <- rs_lin. apply rs_ext. intros; ring.
  - rewrite (H j Hj). ring.
Qed.
End Family.

Section Inverse.
Context {I : Type} {HI : Eqb I}.
Variable dom : list I.
Variables P A : I -> I -> R.
Hypothesis Hnd : NoDup dom.
Hypothesis HPA : undoes dom P A.

Lemma undo x i : In i dom -> shown dom P (shown dom A x) i = x i.
Proof.
  intros Hi. unfold shown.
  transitivity (fsum (map (fun j => fsum (map (fun k => (P i k * A k j) * x j) dom)) dom)).
  - rewrite fsum_swap. apply rs_ext. intros k Hk.
    transitivity (P i k * fsum (map (fun j => A k j * x j) dom) + 0 * fsum (map (fun j => A k j * x j) dom)); [ring|].
    rewrite <- rs_lin. apply rs_ext. intros; ring.
  - transitivity (fsum (map (fun j => if eqb i j then x j else 0) dom)).
    + apply rs_ext. intros j Hj.
      transitivity (x j * fsum (map (fun k => P i k * A k j) dom) + 0 * fsum (map (fun k => P i k * A k j) dom)).
      * rewrite <- rs_lin. apply rs_ext. intros; ring.
      * rewrite (HPA i j Hi Hj). destruct (eqb i j); ring.
    + exact (fsum_pick dom i x Hnd Hi).
Qed.

Lemma shown_inj x y : (forall i, In i dom -> shown dom A x i = shown dom A y i) -> forall i, In i dom -> x i = y i.
Proof.
  intros H i Hi. rewrite <- (undo x i Hi), <- (undo y i Hi). unfold shown at 1 3. apply rs_ext.
  intros k Hk. rewrite (H k Hk). reflexivity.
Qed.

(** The error of the inputs is bounded by the error of what they show. *)
Lemma undo_bound x y : dist2 dom x y <= frob2 dom P * dist2 dom (shown dom A x) (shown dom A y).
Proof.
  unfold dist2 at 1, frob2.
  set (g := fun k => shown dom A x k - shown dom A y k). change (dist2 dom (shown dom A x) (shown dom A y)) with (inner dom g g).
  apply Rle_trans with (fsum (map (fun i => inner dom g g * fsum (map (fun j => P i j * P i j) dom) + 0 * 0) dom)).
  - apply rs_le. intros i Hi.
    assert (E : x i - y i = inner dom (P i) g).
    { rewrite <- (undo x i Hi), <- (undo y i Hi) at 1. unfold inner, g, shown at 1 3.
      transitivity (1 * fsum (map (fun j => P i j * shown dom A x j) dom) + (-1) * fsum (map (fun j => P i j * shown dom A y j) dom)); [ring|].
      rewrite <- rs_lin. apply rs_ext. intros; ring. }
    rewrite E. pose proof (cauchy dom (P i) g). unfold inner in *. lra.
  - rewrite (rs_lin dom (inner dom g g) 0 (fun i => fsum (map (fun j => P i j * P i j) dom)) (fun _ => 0)). lra.
Qed.

(** Noisy data: the correction is at least as close as the data. *)
Lemma best_error v r x : best_physical dom A v r -> physical dom (fsum (map v dom)) x ->
  dist2 dom r x <= frob2 dom P * dist2 dom v (shown dom A x).
Proof.
  intros Hb Hp. pose proof (projection dom A v r x Hb Hp) as H. pose proof (dist2_pos dom v (shown dom A r)) as H0.
  pose proof (undo_bound r x) as H1.
  assert (0 <= frob2 dom P).
  { apply rs_nonneg. intros i _. apply rs_nonneg. intros; nra. }
  apply Rle_trans with (1 := H1). apply Rmult_le_compat_l; lra.
Qed.

Lemma best_exact v r x : stochastic dom A -> (forall i, In i dom -> 0 <= x i) ->
  (forall i, In i dom -> v i = shown dom A x i) -> best_physical dom A v r ->
  forall i, In i dom -> r i = x i.
Proof.
  intros Hs Hx Hv Hb. apply dist2_zero.
  assert (Hp : physical dom (fsum (map v dom)) x).
  { split; [exact Hx|]. rewrite (rs_ext dom v _ Hv), shown_stochastic by exact Hs. reflexivity. }
  pose proof (best_error v r x Hb Hp) as H.
  assert (E : dist2 dom v (shown dom A x) = 0).
  { rewrite (dist2_ext dom v (shown dom A x) (shown dom A x) (shown dom A x)) by auto.
    unfold dist2. rewrite (rs_ext dom _ (fun _ => 0 * 0 + 0 * 0)) by (intros; ring).
    rewrite (rs_lin dom 0 0 (fun _ => 0) (fun _ => 0)). ring. }
  rewrite E in H. lra.
Qed.

Lemma best_unique v r r' : best_physical dom A v r -> best_physical dom A v r' -> forall i, In i dom -> r i = r' i.
Proof.
  intros Hb Hb'. apply shown_inj. apply dist2_zero.
  pose proof (projection dom A v r r' Hb (proj1 Hb')). pose proof (proj2 Hb' r (proj1 Hb)). lra.
Qed.

(** Exact data has its true counts as the optimum. *)
Lemma exact_best v x : stochastic dom A -> (forall i, In i dom -> 0 <= x i) ->
  (forall i, In i dom -> v i = shown dom A x i) -> best_physical dom A v x.
Proof.
  intros Hs Hx Hv. split.
  - split; [exact Hx|]. rewrite (rs_ext dom v _ Hv), shown_stochastic by exact Hs. reflexivity.
  - intros y _. rewrite (dist2_ext dom v (shown dom A x) (shown dom A x) (shown dom A x)) by auto.
    unfold dist2 at 1. rewrite (rs_ext dom _ (fun _ => 0 * 0 + 0 * 0)) by (intros; ring).
    rewrite (rs_lin dom 0 0 (fun _ => 0) (fun _ => 0)). pose proof (dist2_pos dom v (shown dom A y)). lra.
Qed.
End Inverse.
