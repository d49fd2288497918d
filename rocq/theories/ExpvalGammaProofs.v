(** Gamma, matrices and fidelity of the tensored mitigator (C31). *)
From Coq Require Import QArith QArith.Qcanon Lqa Qround.
From Verif Require Import LinAlg Base ResultFacts CountsModel CountsSpec CountsProofs QcFacts ExpvalModel ExpvalSpec
  ExpvalProofs ExpvalVecProofs ExpvalTensProofs.
Open Scope nat_scope.

(** ** Absolute values *)
Lemma abs_nonneg x : (0 <= abs_of x)%Qc.
Proof. unfold abs_of. destruct (Qclt_le_dec x 0) as [H|H]; [qlra | exact H]. Qed.
Lemma abs_pos x : (0 <= x)%Qc -> abs_of x = x.
Proof. intros H. unfold abs_of. destruct (Qclt_le_dec x 0) as [H'|_]; [|reflexivity]. exfalso. qlra. Qed.
Lemma abs_neg x : (x <= 0)%Qc -> abs_of x = (- x)%Qc.
Proof. intros H. unfold abs_of. destruct (Qclt_le_dec x 0) as [_|H']; [reflexivity|]. apply this_eq. to_q. lra. Qed.
Lemma abs_mul x y : abs_of (x * y) = (abs_of x * abs_of y)%Qc.
Proof.
  destruct (Qclt_le_dec x 0) as [Hx|Hx], (Qclt_le_dec y 0) as [Hy|Hy].
  - rewrite (abs_neg x), (abs_neg y), abs_pos by qnra. ring.
  - rewrite (abs_neg x), (abs_pos y), abs_neg by qnra. ring.
  - rewrite (abs_pos x), (abs_neg y), abs_neg by qnra. ring.
  - rewrite (abs_pos x), (abs_pos y), abs_pos by qnra. ring.
Qed.

(** ** Column sums of tensor products *)
Lemma tensor_colsum b bs n y : 
  sum_lt (2 ^ S n) (fun x => abs_of (tensor_entry (b :: bs) x y))
  = ((abs_of (b false (Nat.odd y)) + abs_of (b true (Nat.odd y))) * sum_lt (2 ^ n) (fun x => abs_of (tensor_entry bs x (y / 2))))%Qc.
Proof.
  unfold sum_lt. rewrite qsum_bit, <- qsum_mul. apply qsum_ext. intros x _. cbn [tensor_entry].
  rewrite half_even, half_odd, odd_double, odd_double1, !abs_mul. ring.
Qed.

Definition gmax2 (b : bool -> bool -> Qc) (g : Qc) : Prop :=
  (exists j, (abs_of (b false j) + abs_of (b true j))%Qc = g) /\ (forall j, (abs_of (b false j) + abs_of (b true j) <= g)%Qc).

Lemma tensor_gmax bs gs : Forall2 gmax2 bs gs -> max_column_sum (2 ^ length bs) (tensor_entry bs) (fprod gs).
Proof.
  induction 1 as [|b g bs gs [(j & Hj) Hle] Hr ((j' & Hj' & Ej') & Hle')]; cbn [length].
  - assert (E : forall j, sum_lt 1 (fun i => abs_of (tensor_entry [] i j)) = 1%Qc) by (intros; apply Qc_is_canon; reflexivity).
    split; [exists 0; split; [cbn; lia | apply E]|]. intros k _. change (2 ^ 0) with 1. rewrite E. cbv. discriminate.
  - rewrite qprod_cons. split.
    + exists (2 * j' + Nat.b2n j). split; [cbn [Nat.pow]; destruct j; cbn [Nat.b2n]; lia|].
      rewrite tensor_colsum.
      replace (Nat.odd (2 * j' + Nat.b2n j)) with j by (destruct j; cbn [Nat.b2n]; rewrite ?Nat.add_0_r, ?odd_double, ?odd_double1; reflexivity).
      replace ((2 * j' + Nat.b2n j) / 2) with j' by (destruct j; cbn [Nat.b2n]; rewrite ?Nat.add_0_r, ?half_even, ?half_odd; reflexivity).
      rewrite Hj, Ej'. reflexivity.
    + intros k Hk. rewrite tensor_colsum. specialize (Hle (Nat.odd k)). specialize (Hle' (k / 2) (half_lt _ _ Hk)).
      assert (H0 : (0 <= sum_lt (2 ^ length bs) (fun x => abs_of (tensor_entry bs x (k / 2))))%Qc) by (apply qsum_nonneg; intros; apply abs_nonneg).
      pose proof (abs_nonneg (b false (Nat.odd k))). pose proof (abs_nonneg (b true (Nat.odd k))).
      clear Ej' Hj. set (u := sum_lt _ _) in *. set (v1 := abs_of (b false _)) in *. set (v2 := abs_of (b true _)) in *. set (w := fprod gs) in *.
      apply Qcle_trans with (g * u)%Qc; [apply Qcmult_le_compat_r; assumption|].
      rewrite (Qcmult_comm g u), (Qcmult_comm g w). apply Qcmult_le_compat_r; [assumption|]. qlra.
Qed.

(** ** Gamma of one qubit *)

Lemma gamma2_spec pinv2 a : stochastic2 a -> low_error a ->
  exists g, gamma2 a = Some g /\ invertible2 a /\ gmax2 (mitigation2 pinv2 a) g /\ (1 <= g)%Qc.
Proof.
  unfold low_error. intros [Hp Hs] He. unfold gamma2.
  pose proof (Hs false) as H0. pose proof (Hs true) as H1.
  pose proof (Hp false false) as P00. pose proof (Hp false true) as P01. pose proof (Hp true false) as P10. pose proof (Hp true true) as P11.
  set (e0 := a true false) in *. set (e1 := a false true) in *.
  assert (A0 : a false false = (1 - e0)%Qc) by (rewrite <- H0; ring).
  assert (A1 : a true true = (1 - e1)%Qc) by (rewrite <- H1; ring).
  set (D := (1 - e0 - e1)%Qc). assert (HD : (0 < D)%Qc) by (unfold D; qlra).
  assert (Hdet : (a false false * a true true - a false true * a true false)%Qc = D).
  { rewrite A0, A1. fold e0 e1. unfold D. ring. }
  assert (Hi : invertible2 a) by (unfold invertible2; rewrite Hdet; apply Qc_pos_neq, HD).
  destruct (Qc_eqb_ok D 0) as [E|_]; [exfalso; apply (Qc_pos_neq _ HD E)|].
  eexists. split; [reflexivity|]. split; [exact Hi|].
  assert (Hm : mitigation2 pinv2 a = fun i j => match i, j with
      | false, false => a true true / D | false, true => - a false true / D
      | true, false => - a true false / D | true, true => a false false / D end%Qc).
  { unfold mitigation2, inv2, det2. rewrite Hdet. destruct (Qc_eqb_ok D 0) as [E|_]; [exfalso; apply (Qc_pos_neq _ HD E)|]. reflexivity. }
  rewrite Hm. change Qc_abs with abs_of.
  assert (Hdiv : forall x, (0 <= x)%Qc -> abs_of (x / D) = (x / D)%Qc) by (intros; apply abs_pos, Qc_div_nonneg; assumption).
  assert (Hdiv' : forall x, (0 <= x)%Qc -> abs_of (- x / D) = (x / D)%Qc).
  { intros x Hx. replace (- x / D)%Qc with (- (x / D))%Qc by (field; apply Qc_pos_neq, HD).
    pose proof (Qc_div_nonneg x D Hx HD). rewrite abs_neg by qlra. ring. }
  assert (Hc0 : (abs_of (a true true / D) + abs_of (- a true false / D))%Qc = ((1 - e1 + e0) / D)%Qc).
  { rewrite Hdiv, Hdiv' by assumption. rewrite A1. fold e0. field. apply Qc_pos_neq, HD. }
  assert (Hc1 : (abs_of (- a false true / D) + abs_of (a false false / D))%Qc = ((1 - e0 + e1) / D)%Qc).
  { rewrite (Hdiv (a false false)), (Hdiv' (a false true)) by assumption. rewrite A0. fold e1. field. apply Qc_pos_neq, HD. }
  assert (Hmono : forall u w, (u <= w)%Qc -> (u / D <= w / D)%Qc).
  { intros u w Huw. apply Qcmult_le_compat_r; [exact Huw|]. apply Qclt_le_weak, Qc_inv_pos, HD. }
  assert (H1' : forall w, (D <= w)%Qc -> (1 <= w / D)%Qc).
  { intros w Hw. apply Qc_le_div; [exact HD|]. rewrite Qcmult_1_l. exact Hw. }
  destruct (Qclt_le_dec e0 e1) as [Hlt|Hge].
  - rewrite (abs_neg (e0 - e1)) by qlra. split.
    + split; [exists true; rewrite Hc1; f_equal; ring|]. intros []; [rewrite Hc1|rewrite Hc0]; apply Hmono; qlra.
    + apply H1'. unfold D. qlra.
  - rewrite (abs_pos (e0 - e1)) by qlra. split.
    + split; [exists false; rewrite Hc0; f_equal; ring|]. intros []; [rewrite Hc1|rewrite Hc0]; apply Hmono; qlra.
    + apply H1'. unfold D. qlra.
Qed.

Lemma gamma_fold gs acc : fold_left (fun acc g => match acc, g with Some x, Some y => Some (x * y)%Qc | _, _ => None end)
  (map Some gs) (Some acc) = Some (acc * fprod gs)%Qc.
Proof.
  revert acc; induction gs as [|g gs IH]; intros acc; cbn [map fold_left].
  - change (fprod []) with 1%Qc. f_equal. ring.
  - rewrite IH, qprod_cons. f_equal. ring.
Qed.

Lemma qprod_ge1 gs : Forall (fun g => 1 <= g)%Qc gs -> (1 <= fprod gs)%Qc.
Proof. induction 1; [cbv; discriminate|]. rewrite qprod_cons. qnra. Qed.

Lemma Forall_exists_Forall2 {A B} (P : A -> B -> Prop) l : Forall (fun a => exists b, P a b) l -> exists m, Forall2 P l m.
Proof. induction 1 as [|a l (b & Hb) _ (m & Hm)]; [exists []; constructor | exists (b :: m); constructor; assumption]. Qed.

Lemma inverse_unique n (B A C : nat -> nat -> Qc) :
  left_inverse (2 ^ n) B A -> left_inverse (2 ^ n) A C ->
  forall x y, x < 2 ^ n -> y < 2 ^ n -> B x y = C x y.
Proof.
  intros HB HC x y Hx Hy. unfold left_inverse, sum_lt in *.
  transitivity (fsum (map (fun z => fsum (map (fun w => B x z * (A z w * C w y))%Qc (seq 0 (2 ^ n)))) (seq 0 (2 ^ n)))).
  - symmetry. transitivity (fsum (map (fun z => if eqb y z then B x z else 0%Qc) (seq 0 (2 ^ n)))).
    + apply qsum_ext. intros z Hz. apply in_seq in Hz. rewrite qsum_mul, HC by lia.
      change (eqb y z) with (y =? z). rewrite (Nat.eqb_sym y). destruct (_ =? _); ring.
    + rewrite (qsum_pick (seq 0 (2 ^ n)) y (fun z => B x z)); [reflexivity | apply seq_NoDup | apply in_seq; lia].
  - rewrite qsum_swap. transitivity (fsum (map (fun w => if eqb x w then C w y else 0%Qc) (seq 0 (2 ^ n)))).
    + apply qsum_ext. intros w Hw. apply in_seq in Hw.
      transitivity (fsum (map (fun z => B x z * A z w) (seq 0 (2 ^ n))) * C w y)%Qc.
      { rewrite <- qsum_mul_r. apply qsum_ext. intros; ring. }
      rewrite HB by lia. change (eqb x w) with (x =? w). destruct (_ =? _); ring.
    + rewrite (qsum_pick (seq 0 (2 ^ n)) x (fun w => C w y)); [reflexivity | apply seq_NoDup | apply in_seq; lia].
Qed.

Lemma tensor_left_inverse bs as' n : length bs = n -> Forall2 linv2 bs as' -> left_inverse (2 ^ n) (tensor_entry bs) (tensor_entry as').
Proof. intros <- H x x' Hx Hx'. apply tensor_product; assumption. Qed.

Lemma tensored_gamma_lemma pinv2 amats ms qubits :
  selected amats qubits ms -> Forall stochastic2 ms -> Forall low_error ms ->
  exists g, tensored_gamma (tensored_init pinv2 amats) qubits = Ok (Some g) /\ (1 <= g)%Qc /\
    forall B, left_inverse (2 ^ length ms) B (tensor_entry ms) -> max_column_sum (2 ^ length ms) B g.
Proof.
  intros Hsel Hs He.
  assert (Hall : Forall (fun a => exists g, gamma2 a = Some g /\ invertible2 a /\ gmax2 (mitigation2 pinv2 a) g /\ (1 <= g)%Qc) ms).
  { rewrite Forall_forall in *. intros a Ha. apply gamma2_spec; auto. }
  destruct (Forall_exists_Forall2 _ _ Hall) as (gs & Hgs). exists (fprod gs).
  unfold tensored_gamma. cbn [tensored_init tm_gammas]. rewrite (mapM_selected gamma2 amats qubits ms Hsel). cbn [bind].
  assert (Eg : map gamma2 ms = map Some gs) by (clear -Hgs; induction Hgs as [|a g ms gs (E & _) _ IH]; cbn; [reflexivity|]; rewrite E, IH; reflexivity).
  rewrite Eg, gamma_fold, Qcmult_1_l. split; [reflexivity|]. split.
  - apply qprod_ge1. clear -Hgs. induction Hgs as [|a g ms gs (_ & _ & _ & E) _ IH]; constructor; assumption.
  - intros B HB.
    assert (Hi : Forall invertible2 ms) by (clear -Hgs; induction Hgs as [|a g ms gs (_ & E & _) _ IH]; constructor; assumption).
    assert (Hg2 : Forall2 gmax2 (map (mitigation2 pinv2) ms) gs).
    { apply Forall2_map_l. clear -Hgs. induction Hgs as [|a g ms gs (_ & _ & E & _) _ IH]; constructor; assumption. }
    apply tensor_gmax in Hg2. rewrite map_length in Hg2.
    pose proof (inverse_unique (length ms) B (tensor_entry ms) (tensor_entry (map (mitigation2 pinv2) ms)) HB) as Hu.
    specialize (Hu (tensor_left_inverse _ _ _ eq_refl (proj2 (mitigation_linv pinv2 ms Hi)))).
    destruct Hg2 as ((j & Hj & Ej) & Hle). split.
    + exists j. split; [exact Hj|]. rewrite <- Ej. apply qsum_ext. intros x Hx. apply in_seq in Hx. rewrite Hu by lia. reflexivity.
    + intros k Hk. refine (eq_ind _ (fun z => (z <= _)%Qc) (Hle k Hk) _ _).
      apply qsum_ext. intros x Hx. apply in_seq in Hx. rewrite Hu by lia. reflexivity.
Qed.

(** The overhead is the least integer above gamma squared; the standard
    deviation reported by the mitigator is bounded by gamma. *)
Lemma overhead_lemma g : (g * g <= ofZ (overhead_of g))%Qc /\ (forall z, (g * g <= ofZ z)%Qc -> (overhead_of g <= z)%Z).
Proof.
  unfold overhead_of. change ofZ with iz. split.
  - unfold Qcle. rewrite this_iz. apply Qle_ceiling.
  - intros z Hz. unfold Qcle in Hz. rewrite this_iz in Hz. apply Qceiling_resp_le in Hz. rewrite Qceiling_Z in Hz. exact Hz.
Qed.

(** ** Matrices *)
Lemma odd_mod_pow i k : Nat.odd (i mod 2 ^ S k) = Nat.odd i.
Proof. rewrite <- !Nat.bit0_odd. apply Nat.mod_pow2_bits_low. lia. Qed.
Lemma mod_half i k : (i mod 2 ^ S k) / 2 = (i / 2) mod 2 ^ k.
Proof.
  apply Nat.bits_inj. intros b. change 2 with (2 ^ 1) at 3 4. 
  destruct (Nat.lt_ge_cases b k) as [Hb|Hb].
  - rewrite (Nat.div_pow2_bits _ 1), (Nat.mod_pow2_bits_low _ (S k)) by lia. change (2 ^ 1) with 2.
    rewrite (Nat.mod_pow2_bits_low _ k) by lia. change 2 with (2 ^ 1). rewrite Nat.div_pow2_bits. reflexivity.
  - rewrite (Nat.div_pow2_bits _ 1), (Nat.mod_pow2_bits_high _ (S k)) by lia. change (2 ^ 1) with 2.
    rewrite (Nat.mod_pow2_bits_high _ k) by lia. reflexivity.
Qed.

Lemma tensor_snoc ms a : forall i j, tensor_entry (ms ++ [a]) i j
  = (a (Nat.odd (i / 2 ^ length ms)) (Nat.odd (j / 2 ^ length ms)) * tensor_entry ms (i mod 2 ^ length ms) (j mod 2 ^ length ms))%Qc.
Proof.
  induction ms as [|m ms IH]; intros i j.
  - cbn [app tensor_entry length]. change (2 ^ 0) with 1. rewrite !Nat.div_1_r. ring.
  - cbn [app tensor_entry length]. rewrite !odd_mod_pow, !mod_half, IH.
    replace (2 ^ S (length ms)) with (2 * 2 ^ length ms) by reflexivity.
    rewrite <- !Nat.div_div by (try apply Nat.pow_nonzero; lia). ring.
Qed.

Definition is_tensor (ms : list (bool -> bool -> Qc)) (dm : nat * qmat) : Prop :=
  fst dm = 2 ^ length ms /\ forall i j, snd dm i j = tensor_entry ms i j \/ 2 ^ length ms <= i \/ 2 ^ length ms <= j.

Lemma kron_step ms a dm : is_tensor ms dm -> is_tensor (ms ++ [a]) (kron2 a dm).
Proof.
  intros [Hd Hm]. destruct dm as [d m]. cbn [fst snd] in *. unfold kron2, is_tensor. cbn [fst snd]. rewrite app_length. cbn [length].
  rewrite Nat.add_1_r. split; [rewrite Hd; reflexivity|]. intros i j. left. rewrite tensor_snoc, Hd. f_equal.
  assert (Hz : 2 ^ length ms <> 0) by (apply Nat.pow_nonzero; lia).
  pose proof (Nat.mod_upper_bound i _ Hz). pose proof (Nat.mod_upper_bound j _ Hz).
  destruct (Hm (i mod 2 ^ length ms) (j mod 2 ^ length ms)) as [H1|[H1|H1]]; [exact H1 | lia | lia].
Qed.

Lemma kron_fold (mats : list mat2) (qs : list nat) m : forall k dm,
  (forall i, k <= i < k + m -> nth_error qs i = Some i) -> k + m <= length mats -> is_tensor (firstn k mats) dm ->
  exists dm', foldM (fun m i => do q <- index_e qs i; do a <- index_e mats q; Ok (kron2 a m)) (seq k m) dm = Ok dm' /\
    is_tensor (firstn (k + m) mats) dm'.
Proof.
  induction m as [|m IH]; intros k dm Hq Hl Ht; cbn [seq foldM].
  - exists dm. rewrite Nat.add_0_r. auto.
  - rewrite (index_ok _ _ k) by (apply Hq; lia). cbn [bind].
    destruct (nth_error mats k) as [a|] eqn:Ea; [|apply nth_error_None in Ea; lia].
    rewrite (index_ok _ _ a Ea). cbn [bind].
    destruct (IH (S k) (kron2 a dm)) as (dm' & Hd & Ht').
    + intros i Hi. apply Hq. lia.
    + lia.
    + assert (E : firstn (S k) mats = firstn k mats ++ [a]).
      { clear -Ea. revert k Ea. induction mats as [|x mats IH]; intros [|k] Ea; try discriminate; cbn in *; [congruence|]. f_equal. apply IH, Ea. }
      rewrite E. apply kron_step, Ht.
    + exists dm'. split; [exact Hd|]. replace (k + S m) with (S k + m) by lia. exact Ht'.
Qed.

Lemma tensored_matrix_lemma mats qubits k :
  1 <= k <= length mats -> (qubits = None /\ k = length mats \/ qubits = Some (seq 0 k)) ->
  exists m, tensored_matrix mats qubits = Ok (2 ^ k, m) /\
    forall i j, i < 2 ^ k -> j < 2 ^ k -> m i j = tensor_entry (firstn k mats) i j.
Proof.
  intros Hk Hq. unfold tensored_matrix.
  assert (E : match qubits with Some qs => qs | None => seq 0 (length mats) end = seq 0 k) by (destruct Hq as [[-> ->]| ->]; reflexivity).
  rewrite E. destruct k as [|k]; [lia|]. rewrite (index_ok _ _ 0) by reflexivity. cbn [bind].
  destruct mats as [|a0 mats]; [cbn in Hk; lia|]. rewrite (index_ok _ _ a0) by reflexivity. cbn [bind].
  destruct (kron_fold (a0 :: mats) (seq 0 (S k)) k 1 (mat_of2 a0)) as ([d m] & Hd & Ht).
  - intros i Hi. rewrite nth_error_nth' with (d := 0) by (rewrite seq_length; lia). rewrite seq_nth by lia. reflexivity.
  - cbn [length] in *. lia.
  - split; [reflexivity|]. intros i j. destruct (Nat.lt_ge_cases i 2) as [Hi|Hi]; [|right; left; exact Hi].
    destruct (Nat.lt_ge_cases j 2) as [Hj|Hj]; [|right; right; exact Hj]. left.
    cbn [firstn tensor_entry mat_of2 snd]. ring.
  - exists m. replace (1 + k) with (S k) in Ht by lia. destruct Ht as [Hd' Hm]. cbn [fst snd] in *.
    rewrite firstn_length in Hd', Hm. cbn [length] in Hd', Hm, Hk. rewrite Nat.min_l in Hd', Hm by lia.
    split.
    + change (tl (seq 0 (S k))) with (seq 1 k). rewrite Hd, Hd'. reflexivity.
    + intros i j Hi Hj. destruct (Hm i j) as [H|[H|H]]; [exact H | lia | lia].
Qed.

Lemma tensored_matrix_single mats q a : nth_error mats q = Some a ->
  exists m, tensored_matrix mats (Some [q]) = Ok (2, m) /\ forall i j, m i j = a (Nat.odd i) (Nat.odd j).
Proof.
  intros H. unfold tensored_matrix. rewrite (index_ok _ _ q) by reflexivity. cbn [bind]. rewrite (index_ok _ _ a H).
  cbn [bind tl foldM]. eexists. split; [reflexivity|]. reflexivity.
Qed.

(** ** Fidelity *)
Lemma tensor_trace ms : sum_lt (2 ^ length ms) (fun x => tensor_entry ms x x)
  = fprod (map (fun a : bool -> bool -> Qc => (a false false + a true true)%Qc) ms).
Proof.
  unfold sum_lt. induction ms as [|a ms IH]; [apply Qc_is_canon; reflexivity|]. cbn [length map].
  rewrite qsum_bit, qprod_cons, <- IH, <- qsum_mul. apply qsum_ext. intros i _. cbn [tensor_entry].
  rewrite half_even, half_odd, odd_double, odd_double1. ring.
Qed.

Lemma fid_fold (f : bool * bool -> Qc) (amats : list mat2) qs ms acc :
  Forall2 (fun q a => nth_error amats q = Some a) qs ms ->
  foldM (fun fid i => do a <- index_e amats i; Ok (fid * ((a false false + a true true) / qz 2))%Qc) qs acc
  = Ok (acc * fprod (map (fun a : bool -> bool -> Qc => (a false false + a true true) / qz 2) ms))%Qc.
Proof.
  intros H; revert acc; induction H as [|q a qs ms Hq Hr IH]; intros acc; cbn [foldM map].
  - change (fprod []) with 1%Qc. f_equal. ring.
  - rewrite (index_ok _ _ a Hq). cbn [bind]. rewrite IH, qprod_cons. f_equal. ring.
Qed.

Lemma pow2_qz n : qz (Z.of_nat (2 ^ S n)) = (qz 2 * qz (Z.of_nat (2 ^ n)))%Qc.
Proof. change qz with iz. rewrite <- iz_mul. f_equal. cbn [Nat.pow]. lia. Qed.

Lemma fid_prod ms : fprod (map (fun a : bool -> bool -> Qc => (a false false + a true true) / qz 2)%Qc ms)
  = (fprod (map (fun a : bool -> bool -> Qc => a false false + a true true)%Qc ms) / qz (Z.of_nat (2 ^ length ms)))%Qc.
Proof.
  induction ms as [|a ms IH]; [apply Qc_is_canon; reflexivity|]. cbn [map length]. rewrite !qprod_cons, IH, pow2_qz.
  assert (H2 : qz 2 <> 0%Qc) by (change qz with iz; apply iz_neq_0; lia).
  assert (Hn : qz (Z.of_nat (2 ^ length ms)) <> 0%Qc).
  { change qz with iz. apply iz_neq_0. pose proof (Nat.pow_nonzero 2 (length ms)). lia. }
  field. split; assumption.
Qed.

Lemma selected_indices {A} (l : list A) : Forall2 (fun q a => nth_error l q = Some a) (seq 0 (length l)) l.
Proof.
  assert (G : forall p, Forall2 (fun q a => nth_error (p ++ l) q = Some a) (seq (length p) (length l)) l).
  { induction l as [|a l IH]; intros p; cbn [length seq]; constructor.
    - rewrite nth_error_app2, Nat.sub_diag by lia. reflexivity.
    - specialize (IH (p ++ [a])). rewrite app_length, <- app_assoc, Nat.add_1_r in IH. exact IH. }
  apply (G []).
Qed.

Lemma tensored_fidelity_lemma pinv2 amats ms qubits : selected amats qubits ms ->
  tensored_fidelity (tensored_init pinv2 amats) qubits
  = Ok (sum_lt (2 ^ length ms) (fun x => tensor_entry ms x x) / ofZ (Z.of_nat (2 ^ length ms)))%Qc.
Proof.
  intros H. unfold tensored_fidelity. cbn [tensored_init tm_amats].
  rewrite (fid_fold (fun _ => 0%Qc) amats _ ms).
  - rewrite fid_prod, <- tensor_trace. change qz with ofZ. f_equal. ring.
  - destruct qubits as [qs|]; cbn [selected] in H; [exact H|]. subst. apply selected_indices.
Qed.
