(** CPython's set order: sorted for at most 8 variables, not beyond. *)
From Coq Require Import QArith Setoid Morphisms.
From Verif Require Import Base DihedralModel DihedralSpec DihedralPolyProofs DihedralValueProofs DihedralGroupProofs DihedralGateProofs DihedralDecompProofs DihedralAlgebraProofs.
Open Scope nat_scope.

Definition union_ok (t I : list nat) : bool :=
  increasing (cpython_union t I) &&
  forallb (fun j => Bool.eqb (existsb (Nat.eqb j) (cpython_union t I)) (existsb (Nat.eqb j) t || existsb (Nat.eqb j) I)) (seq 0 8) &&
  forallb (fun j => j <? 8) (cpython_union t I).
Lemma union_check : forallb (fun t => forallb (union_ok t) (terms 8)) (terms 8) = true.
Proof. vm_compute. reflexivity. Qed.

Lemma In_existsb j l : In j l <-> existsb (Nat.eqb j) l = true.
Proof.
  rewrite existsb_exists. split; [intros H; exists j; split; [exact H | apply Nat.eqb_refl]|]. intros (k & H & E). apply Nat.eqb_eq in E. subst. exact H.
Qed.

Lemma terms_mono n m t : n <= m -> In t (terms n) -> In t (terms m).
Proof. intros H. rewrite !terms_In. intros (Hl & Hi & Hr). split; [exact Hl|]. split; [exact Hi|]. intros j Hj. specialize (Hr j Hj). lia. Qed.

Lemma cpython_sorted n : n <= 8 -> iterates_sorted n cpython_union.
Proof.
  intros Hn t I Ht HI. apply (terms_mono n 8) in Ht; [|exact Hn]. apply (terms_mono n 8) in HI; [|exact Hn].
  pose proof union_check as C. rewrite forallb_forall in C. specialize (C t Ht). rewrite forallb_forall in C. specialize (C I HI).
  unfold union_ok in C. apply andb_true_iff in C as [C C3]. apply andb_true_iff in C as [C1 C2]. split; [exact C1|]. intros j.
  rewrite forallb_forall in C2, C3. destruct (Nat.lt_ge_cases j 8) as [Hj|Hj].
  - specialize (C2 j ltac:(apply in_seq; lia)). apply Bool.eqb_prop in C2. rewrite !In_existsb, C2, orb_true_iff. tauto.
  - apply terms_In in Ht as (_ & _ & Rt). apply terms_In in HI as (_ & _ & RI). split.
    + intros H. specialize (C3 j H). apply Nat.ltb_lt in C3. lia.
    + intros [H|H]; [specialize (Rt j H) | specialize (RI j H)]; lia.
Qed.

Lemma foldM_err {A B} (f : B -> A -> result B) l a : In a l -> (forall b r, f b a <> Ok r) -> forall b r, foldM f l b <> Ok r.
Proof.
  intros Hin Ha. induction l as [|a' l IH]; [destruct Hin|]. intros b r H. cbn [foldM] in H. destruct (f b a') as [b'|] eqn:E; [|discriminate]. cbn [bind] in H.
  destruct Hin as [->|Hin]; [apply (Ha b b'), E | apply (IH Hin b' r), H].
Qed.

(** One monomial that cannot be multiplied. *)
Lemma mul_monomial_fails n p j k : wf_poly n p -> k < n -> j < n -> increasing (cpython_union [k] [j]) = false -> 1 < length (cpython_union [k] [j]) < 4 ->
  forall r, mul_monomial cpython_union p [j] <> Ok r.
Proof.
  intros W Hk Hj Hinc Hlen r H. unfold mul_monomial in H. change (4 <=? length [j]) with false in H. change (1 <? length [j]) with false in H. cbn [andb] in H. cbv iota in H.
  revert H. apply (foldM_err _ (terms (pn p)) [k]).
  - rewrite (wf_n n p W). apply terms_In. split; [cbn; lia|]. split; [reflexivity|]. intros q [<-|[]]. exact Hk.
  - intros b r' H. destruct (get_term p [k]) as [v|]; [|discriminate]. cbn [bind] in H. unfold add_term in H. unfold get_term in H.
    replace (4 <=? length (cpython_union [k] [j])) with false in H by (symmetry; apply Nat.leb_gt; lia).
    unfold bad_indices in H. replace (1 <? length (cpython_union [k] [j])) with true in H by (symmetry; apply Nat.ltb_lt; lia).
    rewrite Hinc in H. cbn [andb negb] in H. rewrite orb_true_r in H. discriminate.
Qed.

Lemma support_unit n i : i < n -> support n (nth i (eye n) []) = [i].
Proof.
  intros Hi. unfold support. rewrite (filter_ext_in _ (Nat.eqb i)) by (intros j Hj; apply in_seq in Hj; apply eye_nth; lia).
  replace n with (i + (1 + (n - i - 1))) by lia. rewrite seq_app, filter_app. cbn [Nat.add seq filter]. rewrite Nat.eqb_refl.
  assert (Z : forall l, ~ In i l -> filter (Nat.eqb i) l = []).
  { induction l as [|a l IH]; intros Hn; [reflexivity|]. cbn. destruct (Nat.eqb_spec i a) as [->|]; [exfalso; apply Hn; left; reflexivity | apply IH; intros H; apply Hn; right; exact H]. }
  rewrite !Z; [reflexivity| |]; rewrite in_seq; lia.
Qed.

Lemma single_In n j : j < n -> In [j] (terms n).
Proof. intros Hj. apply terms_In. split; [cbn; lia|]. split; [reflexivity|]. intros q [<-|[]]. exact Hj. Qed.

(** The element with phase [omega^(x_j)]. *)
Lemma t_gate n j : j < n -> exists e0 e, cdi_id n = Ok e0 /\ wf_cdi n e0 /\ phase e0 1 j = Ok e /\ wf_cdi n e /\ tm (dpoly e) [j] = 1%Z /\ dlin e0 = eye n /\ dshift e0 = repeat false n.
Proof.
  intros Hj. destruct (id_spec n) as (e0 & E0 & W0 & P0 & L0 & S0 & _ & _); [lia|]. destruct (phase_spec n e0 1 j W0 Hj) as (e & E & W & _ & _ & Tm & _).
  exists e0, e. split; [exact E0|]. split; [exact W0|]. split; [exact E|]. split; [exact W|]. split; [|auto].
  pose proof (single_In n j Hj) as Hin. apply eq8_reduced; [apply (tm_reduced n), Hin; apply (wd_poly n e W) | unfold reduced; lia|].
  assert (Er : forall a i, nth i (repeat false a) false = false) by (clear; induction a; intros [|i]; cbn; auto).
  rewrite Tm by (try exact Hin; rewrite S0; apply Er). rewrite P0, (zeros_tm n [j] Hin), L0, (support_unit n j Hj). cbn [length combs map app existsb].
  rewrite eqb_refl. reflexivity.
Qed.

Lemma variable_tm n v j : j < n -> wf_poly n v -> (forall x, eq8 (value v x) (bit (x j))) -> tm v [j] = 1%Z.
Proof.
  intros Hj W V. pose proof (single_In n j Hj) as Hin. destruct (set_term_spec n (zeros n) [j] 1 (zeros_wf n) Hin) as (p & Ep & Wp & Tp).
  assert (v = p).
  { apply (unique n); [exact W | exact Wp|]. intros x _. rewrite (V x).
    rewrite (value_set n (zeros n) p [j] (1 mod 8) x (zeros_wf n) Wp Hin Tp), zeros_value, (zeros_tm n [j] Hin). cbn [monomial]. change (1 mod 8)%Z with 1%Z. apply eq8_k with 0%Z. ring. }
  subst p. rewrite (Tp [j] Hin), eqb_refl. reflexivity.
Qed.

(** With nine or more variables the product of the T gate on qubit [j] (for
    [j] between 1 and 8) and the identity raises. *)
Lemma product_fails n j : 9 <= n -> 1 <= j <= 8 ->
  exists e0 e, cdi_id n = Ok e0 /\ wf_cdi n e0 /\ phase e0 1 j = Ok e /\ wf_cdi n e /\ forall r, cmul cpython_union e e0 <> Ok r.
Proof.
  intros Hn Hj. destruct (t_gate n j) as (e0 & e & E0 & W0 & E & W & T & L0 & S0); [lia|]. exists e0, e.
  split; [exact E0|]. split; [exact W0|]. split; [exact E|]. split; [exact W|].
  set (k := if j =? 8 then 1 else 8).
  assert (Bad : increasing (cpython_union [k] [j]) = false /\ 1 < length (cpython_union [k] [j]) < 4).
  { unfold k. destruct j as [|[|[|[|[|[|[|[|[|j]]]]]]]]]; try lia; vm_compute; auto. }
  assert (Hk : k < n) by (unfold k; destruct (j =? 8); lia).
  assert (Hjn : j < n) by lia. pose proof (single_In n j Hjn) as Hin.
  intros r H. unfold cmul in H. rewrite (wd_n n e W), (wd_n n e0 W0), Nat.eqb_refl in H.
  destruct (mapM_new_var n (dlin e0) (dshift e0) (seq 0 n)) as (vs & Ev & Lv & Hv & Vv); [intros i Hi; apply in_seq in Hi; lia|]. rewrite Ev in H. cbn [bind] in H.
  destruct (evaluate cpython_union (dpoly e) vs) as [q|] eqn:Eq; [|discriminate]. clear H. unfold evaluate in Eq.
  destruct (negb (length vs =? pn (dpoly e))); [discriminate|]. destruct (negb (forallb (fun q => pn q =? pn (dpoly e)) vs)); [discriminate|].
  revert Eq. rewrite (wf_n n _ (wd_poly n e W)). apply (foldM_err _ (terms n) [j] Hin). intros b r' H.
  rewrite (proj1 (get_term_tm n (dpoly e) [j] (wd_poly n e W) Hin)), T in H. cbn [bind] in H. change (1 =? 0)%Z with false in H. cbv iota in H.
  rewrite seq_length in Lv, Vv.
  rewrite (mapM_index vs (zeros n)) in H by (intros q' [<-|[]]; rewrite Lv; lia). cbn [bind map foldM] in H.
  destruct (pmul cpython_union (one n) (nth j vs (zeros n))) as [m|] eqn:Em; [|discriminate]. clear H.
  set (v := nth j vs (zeros n)) in *. assert (Wv : wf_poly n v) by (apply Hv, nth_In; lia).
  assert (Tv : tm v [j] = 1%Z).
  { apply (variable_tm n v j Hjn Wv). intros x. unfold v. rewrite (Vv x j Hjn), seq_nth by lia. cbn [Nat.add]. unfold aff. rewrite L0, S0.
    rewrite (parity_unit n _ j x Hjn) by (intros i Hi; apply eye_nth; assumption).
    assert (Er : forall a i, nth i (repeat false a) false = false) by (clear; induction a; intros [|i]; cbn; auto). rewrite Er, xorb_false_r. reflexivity. }
  unfold pmul in Em. rewrite (wf_n n v Wv) in Em. change (pn (one n)) with n in Em. rewrite Nat.eqb_refl in Em.
  revert Em. apply (foldM_err _ (terms n) [j] Hin). intros b2 r2 H. rewrite (proj1 (get_term_tm n v [j] Wv Hin)), Tv in H. cbn [bind] in H. change (1 =? 0)%Z with false in H. cbv iota in H.
  destruct (mul_monomial cpython_union (one n) [j]) as [mm|] eqn:Emm; [|discriminate]. revert Emm. apply (mul_monomial_fails n (one n) j k (one_wf n) Hk Hjn); apply Bad.
Qed.

(** ** [__rmul__] *)
Lemma rmul_same_shift set_list self other : dshift self = dshift other -> dn self = dn other -> crmul set_list self other = cmul set_list other self.
Proof. intros Hs Hn. unfold crmul, cmul. rewrite <- Hn, Nat.eqb_refl, Hs. reflexivity. Qed.

(** ** Satisfying the contract on determinants *)
Definition brute_force (m : list (list bool)) : bool :=
  let n := length m in
  forallb (fun l => forallb (fun l' =>
    eqb l l' || negb (forallb (fun i => Bool.eqb (parity n (nth i m []) (pt l)) (parity n (nth i m []) (pt l'))) (seq 0 n))) (all_bits n)) (all_bits n).
Lemma brute_force_decides : decides_invertible brute_force.
Proof.
  intros n m Hm _. unfold brute_force. rewrite Hm. split.
  - intros H x y E. rewrite forallb_forall in H. set (l := map x (seq 0 n)). set (l' := map y (seq 0 n)).
    assert (Ll : length l = n) by (unfold l; rewrite map_length, seq_length; reflexivity). assert (Ll' : length l' = n) by (unfold l'; rewrite map_length, seq_length; reflexivity).
    specialize (H l (all_bits_In n l Ll)). rewrite forallb_forall in H. specialize (H l' (all_bits_In n l' Ll')).
    apply orb_true_iff in H as [H|H].
    + destruct (eqb_spec l l') as [El|]; [|discriminate]. intros i Hi. rewrite (pt_same n x i Hi), (pt_same n y i Hi). unfold l, l' in El. rewrite El. reflexivity.
    + exfalso. apply negb_true_iff in H. revert H. apply not_false_iff_true. apply forallb_forall. intros i Hi. apply in_seq in Hi.
      rewrite (parity_ext n _ (pt l) x), (parity_ext n _ (pt l') y), (E i) by (try lia; intros j Hj; symmetry; apply (pt_same n _ j Hj)). apply Bool.eqb_reflx.
  - intros H. apply forallb_forall. intros l Hl. apply forallb_forall. intros l' Hl'. destruct (eqb_spec l l') as [|Hd]; [reflexivity|]. cbn [orb].
    apply negb_true_iff, not_true_iff_false. intros F. rewrite forallb_forall in F. apply Hd. apply (nth_ext _ _ false false).
    + rewrite (all_bits_length n l Hl), (all_bits_length n l' Hl'). reflexivity.
    + rewrite (all_bits_length n l Hl). intros i Hi. apply (H (pt l) (pt l')); [|exact Hi]. intros j Hj. apply Bool.eqb_prop, F, in_seq. lia.
Qed.
