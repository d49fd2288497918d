(** The rescaling of [make_positive_semidefinite] (C47). *)
From Coq Require Import QArith Reals Lra.
From Coquelicot Require Import Coquelicot.
From Verif Require Import LinAlg LinInv Base ResultFacts CountsModel QSem DihedralModel RBSeqModel RBSeqSpec CtmpSpec StdGates AccSpec AccProbProofs EntSpec.
From Verif Require Import TomoModel TomoSpec TomoFitModel TomoFitSpec TomoPsdSpec TomoLayerProofs TomoTensorProofs TomoBornProofs TomoFitProofs.
Local Open Scope list_scope.
Local Open Scope nat_scope.
Add Field FldFieldCP : (fth (F:=C)).

(** * Sums *)
Lemma total_S n v : total (S n) v = (total n v + v n)%R.
Proof. unfold total. rewrite seq_S, map_app, fsum_app. cbn [map Nat.add]. rewrite fsum_cons, fsum_nil. change (total n v + (v n + 0) = total n v + v n)%R. ring. Qed.
Lemma total_0 v : total 0 v = 0%R. Proof. reflexivity. Qed.
Lemma total_ext n u v : (forall k, k < n -> u k = v k) -> total n u = total n v.
Proof. intros H. unfold total. apply (fsum_map_ext (HF:=Fld_R)). intros k Hk. apply in_seq in Hk. apply H. lia. Qed.
Lemma total_add n u v : total n (fun k => (u k + v k)%R) = (total n u + total n v)%R.
Proof. induction n as [|n IH]; rewrite ?total_0, ?total_S; [lra|rewrite IH; lra]. Qed.
Lemma total_mul n c v : total n (fun k => (c * v k)%R) = (c * total n v)%R.
Proof. induction n as [|n IH]; rewrite ?total_0, ?total_S; [lra|rewrite IH; lra]. Qed.
Lemma total_le n u v : (forall k, k < n -> (u k <= v k)%R) -> (total n u <= total n v)%R.
Proof. intros H. induction n as [|n IH]; rewrite ?total_0, ?total_S; [lra|]. assert (u n <= v n)%R by (apply H; lia). assert (total n u <= total n v)%R by (apply IH; intros; apply H; lia). lra. Qed.
Lemma total_nonneg n v : (forall k, k < n -> (0 <= v k)%R) -> (0 <= total n v)%R.
Proof. intros H. replace 0%R with (total n (fun _ => 0%R)); [apply total_le; assumption|]. clear H. induction n as [|n IH]; rewrite ?total_S; [reflexivity|rewrite IH; lra]. Qed.

(** * The loop *)
Section Loop.
Variables (eps : R) (dim : nat) (v : nat -> R).
Hypothesis Hsort : ascending dim v.
(** What is added to every eigenvalue kept, if the first [r] are dropped. *)
Definition share (r : nat) : R := (total r v / INR (dim - r))%R.
Definition dropped (r : nat) : Prop := forall j, j < r -> (v j + share j < eps)%R.
Definition shifted (r : nat) (u : nat -> R) : Prop := (forall k, k < r -> u k = 0%R) /\ (forall k, r <= k -> k < dim -> u k = (v k + share r)%R).
Lemma INR_pos k : 0 < k -> (0 < INR k)%R. Proof. intros H. apply lt_0_INR. lia. Qed.
Lemma share_step r : S r < dim -> (share r + (v r + share r) / INR (dim - (r + 1)))%R = share (S r).
Proof.
  intros H. unfold share. rewrite total_S. replace (dim - r) with (S (dim - S r)) by lia. replace (dim - (r + 1)) with (dim - S r) by lia. rewrite S_INR.
  assert (0 < INR (dim - S r))%R by (apply INR_pos; lia). field. split; lra.
Qed.
Lemma psd_loop r : r <= dim ->
  let u := fold_left (psd_step eps dim) (seq 0 r) v in
  (shifted r u /\ dropped r) \/ exists q, q < r /\ shifted q u /\ dropped q /\ (eps <= v q + share q)%R.
Proof.
  intros Hr u. subst u. induction r as [|r IH].
  - left. split; [|intros j Hj; lia]. split; [intros; lia|]. intros k _ _. cbn. unfold share. rewrite total_0. unfold Rdiv. lra.
  - rewrite seq_S, fold_left_app. cbn [fold_left Nat.add]. specialize (IH ltac:(lia)). set (u := fold_left (psd_step eps dim) (seq 0 r) v) in *.
    destruct IH as [[[Hz Hs] Hd]|(q & Hq & [Hz Hs] & Hd & Hge)].
    + assert (Er : u r = (v r + share r)%R) by (apply Hs; lia). unfold psd_step. destruct (Rlt_dec (u r) eps) as [L|L].
      * left. split; [split|].
        -- intros k Hk. destruct (Nat.eqb_spec k r) as [->|N]; [reflexivity|]. destruct (Nat.ltb_spec r k); [lia|]. cbn [andb]. apply Hz. lia.
        -- intros k Hk Hkd. destruct (Nat.eqb_spec k r) as [->|N]; [lia|]. destruct (Nat.ltb_spec r k); [|lia]. destruct (Nat.ltb_spec k dim); [|lia]. cbn [andb].
           rewrite Hs, Er by lia. rewrite <- (share_step r) by lia. lra.
        -- intros j Hj. destruct (Nat.eq_dec j r) as [->|N]; [rewrite <- Er; assumption|apply Hd; lia].
      * right. exists r. repeat split; try lia; try assumption. lra.
    + right. exists q. split; [lia|].
      assert (Er : u r = (v r + share q)%R) by (apply Hs; lia). unfold psd_step. destruct (Rlt_dec (u r) eps) as [L|L]; [exfalso; assert (v q <= v r)%R by (apply Hsort; lia); lra|].
      repeat split; assumption.
Qed.
(** The values returned: either everything is dropped, and the sum of the
    eigenvalues was below [eps], or the first [q] are. *)
Lemma psd_cases : let u := psd_values eps dim v in
  ((forall k, k < dim -> u k = 0%R) /\ (0 < dim -> (total dim v < eps)%R)) \/
  exists q, q < dim /\ shifted q u /\ dropped q /\ (eps <= v q + share q)%R.
Proof.
  intros u. destruct (psd_loop dim (le_n _)) as [[[Hz _] Hd]|(q & Hq & H)]; [left|right; exists q; auto].
  split; [exact Hz|]. intros Hp. specialize (Hd (dim - 1) ltac:(lia)). unfold share in Hd. replace (dim - (dim - 1)) with 1 in Hd by lia.
  replace dim with (S (dim - 1)) at 1 by lia. rewrite total_S. cbn [INR] in Hd. lra.
Qed.
Lemma total_shifted q u : q < dim -> shifted q u -> total dim u = total dim v.
Proof.
  intros Hq [Hz Hs].
  assert (G : forall r, q <= r -> r <= dim -> total r u = (total r v - total q v + INR (r - q) * share q)%R).
  { induction r as [|r IH]; intros H1 H2.
    - assert (q = 0) by lia. subst. cbn. rewrite !total_0. lra.
    - destruct (Nat.eq_dec q (S r)) as [E|N].
      + rewrite E at 2. rewrite Nat.sub_diag. cbn [INR]. rewrite (total_ext (S r) u (fun _ => (0 * 0)%R)) by (intros k Hk; rewrite Hz by lia; lra). rewrite total_mul, E. lra.
      + rewrite !total_S, IH, Hs by lia. replace (S r - q) with (S (r - q)) by lia. rewrite S_INR. lra. }
  rewrite (G dim) by lia. unfold share. assert (0 < INR (dim - q))%R by (apply INR_pos; lia). field. lra.
Qed.
Lemma psd_total : (eps <= total dim v)%R -> total dim (psd_values eps dim v) = total dim v.
Proof.
  intros Ht. destruct psd_cases as [[Hz Hn]|(q & Hq & Hs & _)]; [|apply (total_shifted q); assumption].
  destruct dim as [|d] eqn:E; [reflexivity|]. specialize (Hn ltac:(lia)). lra.
Qed.
Lemma psd_big : (0 <= eps)%R -> forall k, k < dim -> psd_values eps dim v k = 0%R \/ (eps <= psd_values eps dim v k)%R.
Proof.
  intros He k Hk. destruct psd_cases as [[Hz Hn]|(q & Hq & [Hz Hs] & Hd & Hge)]; [left; auto|].
  destruct (Nat.lt_ge_cases k q) as [H|H]; [left; auto|]. right. rewrite Hs by lia. assert (v q <= v k)%R by (apply Hsort; lia). lra.
Qed.
Lemma psd_ascending : (0 <= eps)%R -> ascending dim (psd_values eps dim v).
Proof.
  intros He i j Hij Hj. destruct psd_cases as [[Hz Hn]|(q & Hq & [Hz Hs] & Hd & Hge)]; [rewrite !Hz by lia; lra|].
  destruct (Nat.lt_ge_cases i q) as [H|H].
  - rewrite (Hz i H). destruct (Nat.lt_ge_cases j q) as [H'|H']; [rewrite Hz by assumption; lra|]. rewrite Hs by lia. assert (v q <= v j)%R by (apply Hsort; lia). lra.
  - rewrite !Hs by lia. assert (v i <= v j)%R by (apply Hsort; lia). lra.
Qed.
End Loop.

(** Never negative, in whatever order the eigenvalues are. *)
Lemma psd_nonneg eps dim v : (0 <= eps)%R -> forall k, k < dim -> (0 <= psd_values eps dim v k)%R.
Proof.
  intros He. unfold psd_values.
  assert (G : forall r, r <= dim -> forall k, k < r -> (0 <= fold_left (psd_step eps dim) (seq 0 r) v k)%R).
  { induction r as [|r IH]; intros Hr k Hk; [lia|]. rewrite seq_S, fold_left_app. cbn [fold_left Nat.add]. specialize (IH ltac:(lia)). set (u := fold_left (psd_step eps dim) (seq 0 r) v) in *.
    unfold psd_step. destruct (Rlt_dec (u r) eps) as [L|L].
    - destruct (Nat.eqb_spec k r) as [->|N]; [lra|]. destruct (Nat.ltb_spec r k); [lia|]. cbn [andb]. apply IH. lia.
    - destruct (Nat.eq_dec k r) as [->|N]; [lra|]. apply IH. lia. }
  apply G. lia.
Qed.

(** With threshold zero: the closest point with non-negative entries of the same sum. *)
Section Projection.
Variables (dim : nat) (v : nat -> R).
Hypothesis Hsort : ascending dim v.
Hypothesis Htot : (0 <= total dim v)%R.
Local Notation u := (psd_values 0 dim v).
Lemma kkt : exists th, forall k, k < dim -> (u k = v k + th)%R \/ (u k = 0 /\ v k + th <= 0)%R.
Proof.
  destruct (psd_cases 0 dim v Hsort) as [[Hz Hn]|(q & Hq & [Hz Hs] & Hd & Hge)].
  - exists 0%R. intros k Hk. exfalso. specialize (Hn ltac:(lia)). lra.
  - exists (share dim v q). intros k Hk. destruct (Nat.lt_ge_cases k q) as [H|H]; [right|left; apply Hs; lia]. split; [auto|].
    destruct q as [|q]; [lia|]. assert (L := Hd q ltac:(lia)). assert (v k <= v q)%R by (apply Hsort; lia).
    assert (E := share_step dim v q Hq). assert (P : (0 < INR (dim - (q + 1)))%R) by (apply INR_pos; lia). cbn in L.
    assert ((v q + share dim v q) / INR (dim - (q + 1)) < 0)%R by (unfold Rdiv; apply Ropp_lt_cancel; rewrite Ropp_0, Ropp_mult_distr_l; apply Rmult_lt_0_compat; [lra|apply Rinv_0_lt_compat, P]). lra.
Qed.
Lemma obtuse p : (forall k, k < dim -> (0 <= p k)%R) -> total dim p = total dim v -> (0 <= total dim (fun k => (p k - u k) * (u k - v k)))%R.
Proof.
  intros Hp Ht. destruct kkt as (th & K).
  assert (E : (total dim (fun k => th * (p k + (-1) * u k)) = 0)%R).
  { rewrite total_mul, total_add, total_mul, Ht, (psd_total 0 dim v Hsort Htot). ring. }
  apply (Rle_trans _ _ _ (Req_le _ _ (eq_sym E))). apply total_le. intros k Hk. specialize (Hp k Hk). destruct (K k Hk) as [->|[-> L]]; [lra|]. nra.
Qed.
Lemma closest p : (forall k, k < dim -> (0 <= p k)%R) -> total dim p = total dim v -> (dist2 dim u v + dist2 dim p u <= dist2 dim p v)%R.
Proof.
  intros Hp Ht. assert (H := obtuse p Hp Ht). unfold dist2.
  assert (E : total dim (fun k => (p k - v k) * (p k - v k))%R = (total dim (fun k => (u k - v k) * (u k - v k)) + total dim (fun k => (p k - u k) * (p k - u k)) + 2 * total dim (fun k => (p k - u k) * (u k - v k)))%R).
  { rewrite <- total_mul, <- !total_add. apply total_ext. intros k _. ring. }
  rewrite E. lra.
Qed.
End Projection.

(** * The matrix *)
Section Matrix.
Variables (dim : nat) (w : nat -> nat -> C).
Hypothesis Hon : forall j k, j < dim -> k < dim -> fsum (map (fun a => fmul (Cconj (w a j)) (w a k)) (seq 0 dim)) = if Nat.eqb j k then f1 else f0.
Definition spectral (v : nat -> R) (a b : nat) : C := fsum (map (fun j => fmul (RtoC (v j)) (fmul (w a j) (Cconj (w b j)))) (seq 0 dim)).
Lemma complete a b : a < dim -> b < dim -> fsum (map (fun j => fmul (w a j) (Cconj (w b j))) (seq 0 dim)) = if Nat.eqb a b then f1 else f0.
Proof. apply (left_right_inverse dim (fun j a => Cconj (w a j)) w). intros j k Hj Hk. apply Hon; assumption. Qed.
(** The quadratic form of the [j]-th vector. *)
Definition qform (X : nat -> nat -> C) (j : nat) : C := fsum (map (fun a => fsum (map (fun b => fmul (fmul (Cconj (w a j)) (X a b)) (w b j)) (seq 0 dim))) (seq 0 dim)).
Lemma qform_spectral v j : j < dim -> qform (spectral v) j = RtoC (v j).
Proof.
  intros Hj. unfold qform, spectral.
  transitivity (fsum (map (fun k => fmul (RtoC (v k)) (fmul (fsum (map (fun a => fmul (Cconj (w a j)) (w a k)) (seq 0 dim))) (fsum (map (fun b => fmul (Cconj (w b k)) (w b j)) (seq 0 dim))))) (seq 0 dim))).
  - transitivity (fsum (map (fun a => fsum (map (fun b => fsum (map (fun k => fmul (RtoC (v k)) (fmul (fmul (Cconj (w a j)) (w a k)) (fmul (Cconj (w b k)) (w b j)))) (seq 0 dim))) (seq 0 dim))) (seq 0 dim))).
    + apply fsum_map_ext. intros a Ha. apply fsum_map_ext. intros b Hb. rewrite <- fsum_map_mul, <- fsum_map_mul_r. apply fsum_map_ext. intros k _. ring.
    + transitivity (fsum (map (fun a => fsum (map (fun k => fsum (map (fun b => fmul (RtoC (v k)) (fmul (fmul (Cconj (w a j)) (w a k)) (fmul (Cconj (w b k)) (w b j)))) (seq 0 dim))) (seq 0 dim))) (seq 0 dim))); [apply fsum_map_ext; intros; apply fsum_swap|].
      rewrite fsum_swap. apply fsum_map_ext. intros k _. rewrite <- fsum_map_mul_r, <- fsum_map_mul. apply fsum_map_ext. intros a _. rewrite <- !fsum_map_mul. apply fsum_map_ext. intros b _. ring.
  - rewrite <- (pick_nat dim j (fun k => RtoC (v k)) Hj). apply fsum_map_ext. intros k Hk. apply in_seq in Hk. rewrite !Hon by lia. rewrite (Nat.eqb_sym k j). destruct (Nat.eqb j k); ring.
Qed.
(** The trace is the sum over the vectors. *)
Lemma trace_qform X : fsum (map (qform X) (seq 0 dim)) = ctrace dim X.
Proof.
  unfold qform, ctrace. rewrite fsum_swap. apply fsum_map_ext. intros a Ha. apply in_seq in Ha. rewrite fsum_swap.
  rewrite <- (pick_nat dim a (fun b => X a b)) by lia. apply fsum_map_ext. intros b Hb. apply in_seq in Hb.
  transitivity (fmul (X a b) (fsum (map (fun j => fmul (w b j) (Cconj (w a j))) (seq 0 dim)))).
  - rewrite <- fsum_map_mul. apply fsum_map_ext. intros j _. ring.
  - rewrite complete by lia. rewrite (Nat.eqb_sym b a). destruct (Nat.eqb a b); ring.
Qed.
Lemma trace_spectral v : ctrace dim (spectral v) = RtoC (total dim v).
Proof. rewrite <- trace_qform. unfold total. rewrite RtoC_fsum. apply fsum_map_ext. intros j Hj. apply in_seq in Hj. apply qform_spectral. lia. Qed.
Lemma spectral_psd v : (forall j, j < dim -> (0 <= v j)%R) -> psd dim (spectral v).
Proof.
  intros Hv. apply (gram_psd dim _ 1%R (seq 0 dim) (fun j a => fmul (RtoC (sqrt (v j))) (w a j))); [lra|]. intros a b _ _. unfold spectral. 
  transitivity (fsum (map (fun j => fmul (fmul (RtoC (sqrt (v j))) (w a j)) (Cconj (fmul (RtoC (sqrt (v j))) (w b j)))) (seq 0 dim))); [|change (RtoC 1) with (f1 (F:=C)); ring].
  apply fsum_map_ext. intros j Hj. apply in_seq in Hj. rewrite cj_mul.
  replace (Cconj (RtoC (sqrt (v j)))) with (RtoC (sqrt (v j))) by (apply injective_projections; cbn; lra).
  transitivity (fmul (fmul (RtoC (sqrt (v j))) (RtoC (sqrt (v j)))) (fmul (w a j) (Cconj (w b j)))); [|ring]. f_equal. change (RtoC (v j) = Cmult (RtoC (sqrt (v j))) (RtoC (sqrt (v j)))). rewrite <- RtoC_mult, sqrt_sqrt; [reflexivity|]. apply Hv. lia.
Qed.
Lemma re_fsum {A} (f : A -> C) l : fst (fsum (map f l)) = fsum (HF:=Fld_R) (map (fun a => fst (f a)) l).
Proof. induction l as [|a l IH]; [reflexivity|]. cbn [map]. rewrite !fsum_cons, <- IH. reflexivity. Qed.
Lemma frob_inner (X : nat -> nat -> C) d : total dim (fun a => total dim (fun b => (fst (X a b) * fst (spectral d a b) + snd (X a b) * snd (spectral d a b))%R)) = total dim (fun j => (d j * fst (qform X j))%R).
Proof.
  transitivity (fst (fsum (map (fun a => fsum (map (fun b => fmul (X a b) (Cconj (spectral d a b))) (seq 0 dim))) (seq 0 dim)))).
  - rewrite re_fsum. unfold total. apply (fsum_map_ext (HF:=Fld_R)). intros a _. rewrite re_fsum. apply (fsum_map_ext (HF:=Fld_R)). intros b _. cbn. ring.
  - transitivity (fst (fsum (map (fun j => fmul (RtoC (d j)) (qform X j)) (seq 0 dim)))).
    + f_equal. transitivity (fsum (map (fun a => fsum (map (fun b => fsum (map (fun j => fmul (RtoC (d j)) (fmul (fmul (Cconj (w a j)) (X a b)) (w b j))) (seq 0 dim))) (seq 0 dim))) (seq 0 dim))).
      * apply fsum_map_ext. intros a _. apply fsum_map_ext. intros b _. unfold spectral. rewrite (cj_sum Cconj cj_add cj_0), <- fsum_map_mul. apply fsum_map_ext. intros j _. rewrite !cj_mul, cj_cj.
        replace (Cconj (RtoC (d j))) with (RtoC (d j)) by (apply injective_projections; cbn; lra). ring.
      * transitivity (fsum (map (fun a => fsum (map (fun j => fsum (map (fun b => fmul (RtoC (d j)) (fmul (fmul (Cconj (w a j)) (X a b)) (w b j))) (seq 0 dim))) (seq 0 dim))) (seq 0 dim))); [apply fsum_map_ext; intros; apply fsum_swap|].
        rewrite fsum_swap. apply fsum_map_ext. intros j _. unfold qform. rewrite <- fsum_map_mul. apply fsum_map_ext. intros a _. rewrite <- fsum_map_mul. apply fsum_map_ext. intros b _. ring.
    + rewrite re_fsum. unfold total. apply (fsum_map_ext (HF:=Fld_R)). intros j _. cbn. ring.
Qed.
Lemma qform_sub X Y j : qform (fun a b => fsub (X a b) (Y a b)) j = fsub (qform X j) (qform Y j).
Proof.
  unfold qform. transitivity (fadd (fsum (map (fun a => fsum (map (fun b => fmul (fmul (Cconj (w a j)) (X a b)) (w b j)) (seq 0 dim))) (seq 0 dim))) (fmul (fopp f1) (fsum (map (fun a => fsum (map (fun b => fmul (fmul (Cconj (w a j)) (Y a b)) (w b j)) (seq 0 dim))) (seq 0 dim))))); [|ring].
  rewrite <- fsum_map_mul, <- fsum_map_add. apply fsum_map_ext. intros a _. rewrite <- fsum_map_mul, <- fsum_map_add. apply fsum_map_ext. intros b _. ring.
Qed.
Lemma spectral_sub u v a b : fsub (spectral u a b) (spectral v a b) = spectral (fun j => (u j - v j)%R) a b.
Proof.
  unfold spectral. transitivity (fadd (fsum (map (fun j => fmul (RtoC (u j)) (fmul (w a j) (Cconj (w b j)))) (seq 0 dim))) (fmul (fopp f1) (fsum (map (fun j => fmul (RtoC (v j)) (fmul (w a j) (Cconj (w b j)))) (seq 0 dim))))); [ring|].
  rewrite <- fsum_map_mul, <- fsum_map_add. apply fsum_map_ext. intros j _. rewrite RtoC_minus. change (Cminus ?x ?y) with (fsub x y). ring.
Qed.
(** The rescaled matrix is the closest. *)
Lemma closest_matrix v P : ascending dim v -> (0 <= total dim v)%R -> psd dim P -> ctrace dim P = RtoC (total dim v) ->
  (frob2 dim (spectral (psd_values 0 dim v)) (spectral v) + frob2 dim P (spectral (psd_values 0 dim v)) <= frob2 dim P (spectral v))%R.
Proof.
  intros Hs Ht Hp Htr. set (u := psd_values 0 dim v).
  assert (Hq : forall j, exists r, (0 <= r)%R /\ qform P j = RtoC r) by (intros j; apply (Hp (fun a => w a j))).
  set (p := fun j => fst (qform P j)).
  assert (Hpj : forall j, (0 <= p j)%R) by (intros j; unfold p; destruct (Hq j) as (r & Hr & ->); exact Hr).
  assert (Hpt : total dim p = total dim v).
  { apply RtoC_inj. rewrite <- Htr, <- trace_qform. unfold total. rewrite RtoC_fsum. apply fsum_map_ext. intros j _. unfold p. destruct (Hq j) as (r & _ & ->). reflexivity. }
  assert (H := obtuse dim v Hs Ht p (fun k _ => Hpj k) Hpt). fold u in H.
  assert (E : frob2 dim P (spectral v) = (frob2 dim (spectral u) (spectral v) + frob2 dim P (spectral u) + 2 * total dim (fun k => (p k - u k) * (u k - v k)))%R); [|rewrite E; lra].
  assert (I := frob_inner (fun a b => fsub (P a b) (spectral u a b)) (fun j => (u j - v j)%R)).
  replace (total dim (fun k => (p k - u k) * (u k - v k))%R) with (total dim (fun j => ((u j - v j) * fst (qform (fun a b => fsub (P a b) (spectral u a b)) j))%R)).
  2:{ apply total_ext. intros j Hj. rewrite qform_sub, qform_spectral by assumption. unfold p. cbn. ring. }
  rewrite <- I. unfold frob2. rewrite <- total_mul, <- !total_add. apply total_ext. intros a _. rewrite <- total_mul, <- !total_add. apply total_ext. intros b _.
  rewrite <- spectral_sub. unfold sqmod. destruct (P a b) as [p1 p2], (spectral u a b) as [u1 u2], (spectral v a b) as [v1 v2]. cbn. ring.
Qed.
End Matrix.

(** * The function *)
Section Function.
Variable eigh : cmat -> (nat -> R) * (nat -> nat -> C).
Lemma mps_ok m eps v w : (0 <= eps)%R -> eigh m = (v, w) ->
  exists m', make_positive_semidefinite eigh m eps = Ok m' /\ m_rows m' = m_rows m /\ m_cols m' = m_rows m /\ forall a b, m_at m' a b = spectral (m_rows m) w (psd_values eps (m_rows m) v) a b.
Proof.
  intros He E. unfold make_positive_semidefinite. destruct (Rlt_dec eps 0) as [L|_]; [lra|]. rewrite E. eexists. split; [reflexivity|]. cbn [m_rows m_cols m_at]. split; [reflexivity|]. split; [reflexivity|].
  intros a b. rewrite csum_fsum. reflexivity.
Qed.
Lemma psd_ext dim A B : same_entries dim A B -> psd dim A -> psd dim B.
Proof.
  intros H HA x. destruct (HA x) as (r & Hr & E). exists r. split; [assumption|]. rewrite <- E. apply fsum_map_ext. intros a Ha. apply fsum_map_ext. intros b Hb. apply in_seq in Ha, Hb. rewrite H by lia. reflexivity.
Qed.
Lemma trace_ext dim A B : same_entries dim A B -> ctrace dim A = ctrace dim B.
Proof. intros H. unfold ctrace. apply fsum_map_ext. intros i Hi. apply in_seq in Hi. apply H; lia. Qed.
Lemma frob_ext dim A A' B B' : same_entries dim A A' -> same_entries dim B B' -> frob2 dim A B = frob2 dim A' B'.
Proof. intros HA HB. unfold frob2. apply total_ext. intros a Ha. apply total_ext. intros b Hb. rewrite HA, HB by assumption. reflexivity. Qed.

(** The result for a matrix [m] with the contract of [eigh]. *)
Lemma mps_matrix m v w : eigh m = (v, w) -> eigen_of (m_rows m) (m_at m) v w -> ascending (m_rows m) v ->
  exists m', make_positive_semidefinite eigh m 0 = Ok m' /\ m_rows m' = m_rows m /\ m_cols m' = m_rows m /\ psd (m_rows m) (m_at m') /\
  (psd (m_rows m) (m_at m) -> same_entries (m_rows m) (m_at m') (m_at m)) /\
  ((0 <= total (m_rows m) v)%R ->
    ctrace (m_rows m) (m_at m') = ctrace (m_rows m) (m_at m) /\
    forall P, psd (m_rows m) P -> ctrace (m_rows m) P = ctrace (m_rows m) (m_at m) ->
      (frob2 (m_rows m) (m_at m') (m_at m) + frob2 (m_rows m) P (m_at m') <= frob2 (m_rows m) P (m_at m))%R).
Proof.
  intros Ee He Hs. assert (Heig := He). destruct He as [Hm Hon]. destruct (mps_ok m 0 v w ltac:(lra) Ee) as (m' & E & Hr & Hc & Hat). exists m'. split; [exact E|]. split; [exact Hr|]. split; [exact Hc|].
  set (dim := m_rows m) in *.
  assert (S1 : same_entries dim (m_at m) (spectral dim w v)) by (intros a b Ha Hb; apply Hm; assumption).
  assert (S2 : same_entries dim (m_at m') (spectral dim w (psd_values 0 dim v))) by (intros a b _ _; apply Hat).
  split; [|split].
  - apply (psd_ext dim (spectral dim w (psd_values 0 dim v))); [intros a b Ha Hb; symmetry; apply S2; assumption|]. apply spectral_psd; [exact Hon|]. intros j Hj. apply psd_nonneg; [lra|assumption].
  - intros Hp a b Ha Hb. rewrite S2, S1 by assumption. rewrite psd_values_id by (intros j Hj; apply (eigen_nonneg dim (m_at m) v w); assumption). reflexivity.
  - intros Ht.
    assert (T1 : ctrace dim (m_at m) = RtoC (total dim v)) by (rewrite (trace_ext _ _ _ S1); apply trace_spectral; assumption).
    split; [rewrite T1, (trace_ext _ _ _ S2), trace_spectral, psd_total by (assumption || lra); reflexivity|].
    intros P HP HPt. rewrite (frob_ext dim (m_at m') _ (m_at m) _ S2 S1), (frob_ext dim P P (m_at m') _ (fun a b _ _ => eq_refl) S2), (frob_ext dim P P (m_at m) _ (fun a b _ _ => eq_refl) S1).
    apply closest_matrix; auto. rewrite HPt. exact T1.
Qed.
(** Positive, with trace [t], whatever the data were. *)
Lemma fit_physical lstsq data rows wt t : (0 <= t)%R ->
  forall m, (forall m0 : cmat, m_rows m0 = m_rows m ->
      (forall i j, m_at m0 i j = nth (i + j * m_rows m) (lstsq (fst (fit_system rows data wt)) (snd (fit_system rows data wt))) (RtoC 0)) ->
      let (v, w) := eigh m0 in
      (forall j k, j < m_rows m -> k < m_rows m -> fsum (map (fun a => fmul (Cconj (w a j)) (w a k)) (seq 0 (m_rows m))) = if Nat.eqb j k then f1 else f0) /\ ascending (m_rows m) v /\ (0 < total (m_rows m) v)%R) ->
  lstsq_fit lstsq eigh data rows wt true (Some t) = Ok m -> psd (m_rows m) (m_at m) /\ ctrace (m_rows m) (m_at m) = RtoC t.
Proof.
  intros Ht m He. unfold lstsq_fit.
  assert (Esys : (match wt with
                   | None => (rows, map RtoC data)
                   | Some w => (map (fun wr => map (Cmult (RtoC (fst wr))) (snd wr)) (combine w rows), map (fun wb => Cmult (RtoC (fst wb)) (snd wb)) (combine w (map RtoC data)))
                   end) = fit_system rows data wt).
  { clear. destruct wt as [w|]; [|reflexivity]. cbn [fit_system]. f_equal. revert data. induction w as [|k w IH]; intros [|y data]; cbn [map combine]; try reflexivity. rewrite IH. f_equal. cbn [fst snd]. symmetry. apply RtoC_mult. }
  rewrite Esys. clear Esys. destruct (fit_system rows data wt) as [a b]. cbn [fst snd] in He. set (x := lstsq a b) in *. set (dim := Nat.sqrt (length x)). destruct (negb _); [discriminate|]. intros H.
  set (m0 := {| m_rows := dim; m_cols := dim; m_at := fun i j => nth (i + j * dim) x (RtoC 0) |}) in H.
  destruct (eigh m0) as [v w] eqn:Ev. destruct (mps_ok m0 0 v w ltac:(lra) Ev) as (m' & E' & Hr & Hc & Hat). rewrite E' in H. cbn [bind] in H. injection H as <-. cbn [m_rows m_at] in He |- *.
  rewrite Hr in He |- *. cbn [m_rows m0] in He, Hat |- *. specialize (He m0 eq_refl (fun i j => eq_refl)). rewrite Ev in He. destruct He as (Hon & Hs & Hpos).
  set (u := psd_values 0 dim v) in *.
  assert (S2 : same_entries dim (m_at m') (spectral dim w u)) by (intros a0 b0 _ _; apply Hat).
  assert (T : trace_of m' = RtoC (total dim v)).
  { unfold trace_of. rewrite csum_fsum, Hr. cbn [m_rows m0]. change (ctrace dim (m_at m') = RtoC (total dim v)). rewrite (trace_ext _ _ _ S2), trace_spectral by assumption. unfold u. rewrite psd_total by (assumption || lra). reflexivity. }
  assert (K : Cdiv (RtoC t) (trace_of m') = RtoC (t / total dim v)) by (rewrite T; symmetry; apply RtoC_div; lra).
  assert (K0 : (0 <= t / total dim v)%R) by (unfold Rdiv; apply Rmult_le_pos; [assumption|left; apply Rinv_0_lt_compat; assumption]).
  rewrite K. split.
  - apply (psd_ext dim (spectral dim w (fun j => (t / total dim v * u j)%R))).
    + intros a0 b0 Ha Hb. rewrite S2 by assumption. unfold spectral. change (Cmult ?p ?q) with (fmul p q) at 1. rewrite <- fsum_map_mul_r. apply fsum_map_ext. intros j _. rewrite RtoC_mult. change (Cmult ?p ?q) with (fmul p q). ring.
    + apply spectral_psd; [exact Hon|]. intros j Hj. apply Rmult_le_pos; [assumption|]. apply psd_nonneg; [lra|assumption].
  - transitivity (fmul (ctrace dim (m_at m')) (RtoC (t / total dim v))); [unfold ctrace; rewrite <- fsum_map_mul_r; reflexivity|].
    change (ctrace dim (m_at m')) with (fsum (map (fun i => m_at m' i i) (seq 0 dim))). assert (T' := T). unfold trace_of in T'. rewrite csum_fsum, Hr in T'. cbn [m_rows m0] in T'. rewrite T'.
    change (fmul ?p ?q) with (Cmult p q). rewrite <- RtoC_mult. f_equal. field. lra.
Qed.
End Function.
