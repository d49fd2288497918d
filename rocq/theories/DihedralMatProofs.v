(** Matrices of CNOT-dihedral elements. *)
From Coq Require Import QArith QArith.Qcanon.
From Verif Require Import Base ResultFacts LinAlg QSem Cyc GateMat DihedralModel DihedralSpec DihedralPolyProofs DihedralValueProofs DihedralGroupProofs DihedralGateProofs DihedralDecompProofs DihedralAlgebraProofs DihedralAnyProofs ExpvalVecProofs RBSeqModel RBSeqSpec RBSeqDihProofs DihedralMatModel DihedralMatSpec.
Open Scope nat_scope.
Add Field CycFieldM : cyc_field.

(** ** Roots of unity *)
Lemma omega_0 : omega 0 = cy1. Proof. reflexivity. Qed.
Lemma omega_inj k l : omega k = omega l -> (k mod 8 = l mod 8)%Z.
Proof.
  unfold omega. destruct (mod8_cases k) as [E|[E|[E|[E|[E|[E|[E|E]]]]]]], (mod8_cases l) as [G|[G|[G|[G|[G|[G|[G|G]]]]]]]; rewrite E, G; intros H; try reflexivity; exfalso; discriminate H.
Qed.
Lemma omega_conj k : cconj (omega k) = omega (- k).
Proof.
  rewrite (omega_mod (- k) (- (k mod 8))). 2: { symmetry. rewrite <- (Z.mul_1_l k) at 1. rewrite <- Z.sub_0_l, Zminus_mod_idemp_r. f_equal. lia. }
  rewrite (omega_mod k (k mod 8)) by (rewrite Z.mod_mod; [reflexivity|lia]).
  destruct (mod8_cases k) as [E|[E|[E|[E|[E|[E|[E|E]]]]]]]; rewrite E; cyc_compute.
Qed.
Lemma cconj_0 : cconj cy0 = cy0. Proof. cyc_compute. Qed.

(** ** Points and indices *)
Definition tb (j : nat) : point := Nat.testbit j.
Fixpoint enc (n : nat) (z : point) : nat := match n with 0 => 0 | S n' => 2 * enc n' (fun i => z (S i)) + Nat.b2n (z 0) end.
Lemma enc_bit n : forall z i, Nat.testbit (enc n z) i = (i <? n) && z i.
Proof.
  induction n as [|n IH]; intros z i; [rewrite Nat.bits_0; reflexivity|]. cbn [enc]. destruct i as [|i]; [rewrite Nat.testbit_0_r; reflexivity|]. rewrite Nat.testbit_succ_r, IH. reflexivity.
Qed.
Lemma enc_same n z : same n (tb (enc n z)) z.
Proof. intros i Hi. unfold tb. rewrite enc_bit. apply Nat.ltb_lt in Hi. rewrite Hi. reflexivity. Qed.
Lemma enc_lt n z : enc n z < 2 ^ n.
Proof. apply lt_testbit. intros b Hb. rewrite enc_bit. destruct (Nat.ltb_spec b n); [lia|reflexivity]. Qed.
Lemma enc_eq n z i : i < 2 ^ n -> (i = enc n z <-> same n (tb i) z).
Proof.
  intros Hi. split; [intros ->; apply enc_same|]. intros H. apply (testbit_ext _ _ n Hi (enc_lt n z)). intros b Hb. rewrite (H b Hb : Nat.testbit i b = z b). symmetry. apply enc_same, Hb.
Qed.
Lemma same_sym' n x y : same n x y -> same n y x.
Proof. intros H i Hi. symmetry. apply H, Hi. Qed.
Lemma same_trans' n x y z : same n x y -> same n y z -> same n x z.
Proof. intros H K i Hi. rewrite (H i Hi). apply K, Hi. Qed.

(** ** The matrix of an element *)
Definition tgt (n : nat) (e : cdi) (j : nat) : nat := enc n (image e (tb j)).
Definition monomial_of (n : nat) (e : cdi) (g : Z) (M : matrix) : Prop :=
  forall i j, i < 2 ^ n -> j < 2 ^ n -> M i j = if i =? tgt n e j then omega (g + phase_at e (tb j)) else cy0.
Lemma tgt_lt n e j : tgt n e j < 2 ^ n. Proof. apply enc_lt. Qed.
Lemma tgt_inj n e i j : wf_cdi n e -> i < 2 ^ n -> j < 2 ^ n -> tgt n e i = tgt n e j -> i = j.
Proof.
  intros W Hi Hj E. apply (testbit_ext _ _ n Hi Hj). apply (wd_inj n e W). apply (same_trans' n _ (tb (tgt n e i))); [apply same_sym', enc_same|]. rewrite E. apply enc_same.
Qed.
Lemma bits_eq_same n x y : bits_of n x = bits_of n y -> same n x y.
Proof. intros H i Hi. rewrite <- (nth_bits_of n x i Hi), H. apply nth_bits_of, Hi. Qed.
Lemma image_same n e x y : wf_cdi n e -> same n x y -> same n (image e x) (image e y).
Proof. intros W H i _. apply (image_ext n e x y W H). Qed.
Section Det.
Variable det_odd : list (list bool) -> bool.
Hypothesis Hdet : decides_invertible det_odd.
Lemma to_matrix_spec n e : wf_cdi n e -> w0 (dpoly e) = 0%Z -> exists M g, to_matrix det_odd e = Ok M /\ monomial_of n e g M /\ forall i, i < 2 ^ n -> exists j, j < 2 ^ n /\ tgt n e j = i.
Proof.
  intros W Z0. destruct (decompose_facts det_odd Hdet n e (conj W Z0)) as (c & Ec & Hf & Hv & Hi). destruct (element_apply n c e Hf Hv Hi) as (g & Hg).
  exists (operator (dn e) c), g. unfold to_matrix. rewrite Ec. split; [reflexivity|]. rewrite (wd_n n e W).
  assert (Ho : forall i, i < 2 ^ n -> exists j, j < 2 ^ n /\ tgt n e j = i).
  { intros i Hlt. destruct (image_onto n c e Hv Hi (tb i)) as (x & Hx). exists (enc n x). split; [apply enc_lt|]. symmetry. apply enc_eq; [exact Hlt|]. apply same_sym'. apply (same_trans' n _ (image e x)); [|exact Hx]. apply (image_same n e _ _ W), enc_same. }
  split; [|exact Ho]. intros i j Hlt Hj. destruct (Ho i Hlt) as (j' & Hj' & Et). unfold operator. change (index_bits n i) with (bits_of n (tb i)).
  assert (Eb : bits_of n (tb i) = bits_of n (image e (tb j'))) by (apply bits_of_same; rewrite <- Et; apply enc_same). rewrite Eb, Hg. change (index_bits n j) with (bits_of n (tb j)).
  destruct (Nat.eqb_spec i (tgt n e j)) as [E|E].
  - assert (j' = j) by (apply (tgt_inj n e j' j W Hj' Hj); congruence). subst j'. rewrite eqb_refl. ring.
  - destruct (eqb_spec (bits_of n (tb j')) (bits_of n (tb j))) as [K|K]; [|ring]. exfalso. apply E. rewrite <- Et. f_equal. apply (testbit_ext _ _ n Hj' Hj). exact (bits_eq_same n _ _ K).
Qed.
End Det.

Lemma ok_eq {A} (a b : A) : Ok a = Ok b -> a = b.
Proof. congruence. Qed.
(** ** Sums *)
Lemma fsum_at N a (f : nat -> cyc) : a < N -> (forall k, k < N -> k <> a -> f k = cy0) -> fsum (map f (seq 0 N)) = f a.
Proof.
  intros Ha H. rewrite <- (fsum_pick (seq 0 N) a f (seq_NoDup N 0) ltac:(apply in_seq; lia)). apply fsum_map_ext. intros k Hk. apply in_seq in Hk. destruct (eqb_spec a k) as [->|Hn]; [reflexivity|]. apply H; [lia|auto].
Qed.
Lemma monomial_sum n e g M (f : nat -> cyc) j : monomial_of n e g M -> j < 2 ^ n ->
  fsum (map (fun k => cymul (f k) (M k j)) (seq 0 (2 ^ n))) = cymul (f (tgt n e j)) (omega (g + phase_at e (tb j))).
Proof.
  intros HM Hj. rewrite (fsum_map_ext _ (fun k => cymul (f k) (if k =? tgt n e j then omega (g + phase_at e (tb j)) else cy0))).
  - rewrite (fsum_at (2 ^ n) (tgt n e j)); [rewrite Nat.eqb_refl; reflexivity|apply tgt_lt|]. intros k _ Hk. destruct (Nat.eqb_spec k (tgt n e j)); [contradiction|ring].
  - intros k Hk. apply in_seq in Hk. rewrite (HM k j ltac:(lia) Hj). reflexivity.
Qed.
Definition onto (n : nat) (e : cdi) : Prop := forall i, i < 2 ^ n -> exists j, j < 2 ^ n /\ tgt n e j = i.
Lemma unitary n e g M : wf_cdi n e -> monomial_of n e g M -> onto n e ->
  meq n (mmul n (mconj (mtr M)) M) mid /\ meq n (mmul n M (mconj (mtr M))) mid.
Proof.
  intros W HM Ho. split; intros i j Hi Hj; unfold mmul, mid.
  - rewrite (monomial_sum n e g M _ j HM Hj). unfold mconj, mtr. rewrite (HM _ i (tgt_lt n e j) Hi). destruct (Nat.eqb_spec i j) as [->|Hn].
    + rewrite Nat.eqb_refl, omega_conj, <- omega_add. rewrite (omega_mod _ 0); [reflexivity|]. f_equal. lia.
    + destruct (Nat.eqb_spec (tgt n e j) (tgt n e i)) as [E|E]; [exfalso; apply Hn; symmetry; apply (tgt_inj n e j i W Hj Hi E)|]. rewrite cconj_0. ring.
  - destruct (Ho i Hi) as (a & Ha & Ea). rewrite (fsum_at (2 ^ n) a _ Ha).
    + unfold mconj, mtr. rewrite (HM i a Hi Ha), (HM j a Hj Ha), Ea, Nat.eqb_refl. rewrite (Nat.eqb_sym i j). destruct (Nat.eqb_spec j i) as [->|Hn].
      * rewrite omega_conj, <- omega_add. rewrite (omega_mod _ 0); [reflexivity|]. f_equal. lia.
      * rewrite cconj_0. ring.
    + intros k Hlt Hk. unfold mconj, mtr. rewrite (HM i k Hi Hlt). destruct (Nat.eqb_spec i (tgt n e k)) as [E|E]; [|ring]. exfalso. apply Hk. apply (tgt_inj n e k a W Hlt Ha). congruence.
Qed.

(** ** Operations *)
Lemma enc_ext n x y : same n x y -> enc n x = enc n y.
Proof. intros H. apply enc_eq; [apply enc_lt|]. apply (same_trans' n _ x); [apply enc_same|exact H]. Qed.
Lemma omega_eq8 a b : eq8 a b -> omega a = omega b.
Proof. apply omega_mod. Qed.
Lemma eq8_plus a b c d : eq8 a b -> eq8 c d -> eq8 (a + c) (b + d).
Proof. unfold eq8. intros H K. rewrite Zplus_mod, H, K, <- Zplus_mod. reflexivity. Qed.
Lemma compose_matrix n a b c ga gb gc Ma Mb Mc g : wf_cdi n a -> wf_cdi n b -> wf_cdi n c -> monomial_of n a ga Ma -> monomial_of n b gb Mb -> monomial_of n c gc Mc ->
  (forall x, same n (image c x) (image b (image a x))) -> (forall x, eq8 (phase_at c x) (g + phase_at a x + phase_at b (image a x))) ->
  up_to_phase n Mc (mmul n Mb Ma).
Proof.
  intros Wa Wb Wc HA HB HC Hi Hp. exists (gc + g - ga - gb)%Z. intros i j Hlt Hj. unfold mmul. rewrite (monomial_sum n a ga Ma _ j HA Hj), (HB i _ Hlt (tgt_lt n a j)), (HC i j Hlt Hj).
  assert (E : tgt n b (tgt n a j) = tgt n c j). { unfold tgt. apply enc_ext. apply (same_trans' n _ (image b (image a (tb j)))); [apply (image_same n b _ _ Wb), enc_same|apply same_sym', Hi]. }
  rewrite E. destruct (i =? tgt n c j); [|ring]. rewrite <- !omega_add. apply omega_eq8. rewrite (phase_ext n b (tb (tgt n a j)) (image a (tb j)) Wb (enc_same n _)).
  match goal with |- eq8 ?l ?r => replace r with (gc + (g + phase_at a (tb j) + phase_at b (image a (tb j))))%Z by ring end. apply eq8_plus; [reflexivity|apply Hp].
Qed.
Lemma inverse_tgt n e e' i j : wf_cdi n e -> wf_cdi n e' -> onto n e -> (forall x, same n (image e' (image e x)) x) -> i < 2 ^ n -> j < 2 ^ n -> (i =? tgt n e' j) = (j =? tgt n e i).
Proof.
  intros W W' Ho H Hi Hj. assert (B : forall a, a < 2 ^ n -> tgt n e' (tgt n e a) = a).
  { intros a Ha. symmetry. unfold tgt at 1. apply enc_eq; [exact Ha|]. apply same_sym'. apply (same_trans' n _ (image e' (image e (tb a)))); [apply (image_same n e' _ _ W'), enc_same|apply H]. }
  destruct (Ho j Hj) as (a & Ha & <-). rewrite (B a Ha). destruct (Nat.eqb_spec i a) as [->|Hn]; [rewrite Nat.eqb_refl; reflexivity|]. destruct (Nat.eqb_spec (tgt n e a) (tgt n e i)) as [E|_]; [|reflexivity]. exfalso. apply Hn. symmetry. apply (tgt_inj n e a i W Ha Hi E).
Qed.
Lemma adjoint_matrix n e e' g0 g' M M' g : wf_cdi n e -> wf_cdi n e' -> onto n e -> monomial_of n e g0 M -> monomial_of n e' g' M' ->
  (forall x, same n (image e' (image e x)) x) -> (forall x, eq8 (phase_at e' (image e x) + phase_at e x) g) -> up_to_phase n M' (mconj (mtr M)).
Proof.
  intros W W' Ho HM HM' Hi Hp. exists (g' + g + g0)%Z. intros i j Hlt Hj. unfold mconj, mtr. rewrite (HM j i Hj Hlt), (HM' i j Hlt Hj), (inverse_tgt n e e' i j W W' Ho Hi Hlt Hj).
  destruct (Nat.eqb_spec j (tgt n e i)) as [E|E]; [|rewrite cconj_0; ring]. rewrite omega_conj, <- omega_add. apply omega_eq8. rewrite E, (phase_ext n e' (tb (tgt n e i)) (image e (tb i)) W' (enc_same n _)).
  specialize (Hp (tb i)). replace (g' + phase_at e' (image e (tb i)))%Z with (g' - phase_at e (tb i) + (phase_at e' (image e (tb i)) + phase_at e (tb i)))%Z by ring.
  replace (g' + g + g0 + - (g0 + phase_at e (tb i)))%Z with (g' - phase_at e (tb i) + g)%Z by ring. apply eq8_plus; [reflexivity|exact Hp].
Qed.
Lemma transpose_matrix n e e' g0 g' M M' g : wf_cdi n e -> wf_cdi n e' -> onto n e -> monomial_of n e g0 M -> monomial_of n e' g' M' ->
  (forall x, same n (image e' (image e x)) x) -> (forall x, eq8 (phase_at e' (image e x)) (g + phase_at e x)) -> up_to_phase n M' (mtr M).
Proof.
  intros W W' Ho HM HM' Hi Hp. exists (g' + g - g0)%Z. intros i j Hlt Hj. unfold mtr. rewrite (HM j i Hj Hlt), (HM' i j Hlt Hj), (inverse_tgt n e e' i j W W' Ho Hi Hlt Hj).
  destruct (Nat.eqb_spec j (tgt n e i)) as [E|E]; [|ring]. rewrite <- omega_add. apply omega_eq8. rewrite E, (phase_ext n e' (tb (tgt n e i)) (image e (tb i)) W' (enc_same n _)).
  replace (g' + g - g0 + (g0 + phase_at e (tb i)))%Z with (g' + (g + phase_at e (tb i)))%Z by ring. apply eq8_plus; [reflexivity|apply Hp].
Qed.
Lemma conjugate_matrix n e e' g0 g' M M' g : wf_cdi n e -> wf_cdi n e' -> monomial_of n e g0 M -> monomial_of n e' g' M' ->
  (forall x, same n (image e' x) (image e x)) -> (forall x, eq8 (phase_at e' x) (g - phase_at e x)) -> up_to_phase n M' (mconj M).
Proof.
  intros W W' HM HM' Hi Hp. exists (g' + g + g0)%Z. intros i j Hlt Hj. unfold mconj. rewrite (HM i j Hlt Hj), (HM' i j Hlt Hj).
  assert (E : tgt n e' j = tgt n e j) by apply enc_ext, Hi. rewrite E. destruct (i =? tgt n e j); [|rewrite cconj_0; ring]. rewrite omega_conj, <- omega_add. apply omega_eq8.
  replace (g' + g + g0 + - (g0 + phase_at e (tb j)))%Z with (g' + (g - phase_at e (tb j)))%Z by ring. apply eq8_plus; [reflexivity|apply Hp].
Qed.
(** [e] is [e0] on the low qubits and [e1] on the others. *)
Lemma tensor_matrix n0 n1 e0 e1 e g0 g1 g M0 M1 M k : wf_cdi n0 e0 -> wf_cdi n1 e1 -> wf_cdi (n0 + n1) e -> monomial_of n0 e0 g0 M0 -> monomial_of n1 e1 g1 M1 -> monomial_of (n0 + n1) e g M ->
  (forall x i, i < n0 -> image e x i = image e0 x i) -> (forall x i, i < n1 -> image e x (i + n0) = image e1 (fun j => x (j + n0)) i) ->
  (forall x, eq8 (phase_at e x) (k + phase_at e0 x + phase_at e1 (fun j => x (j + n0)))) -> up_to_phase (n0 + n1) M (kron n0 M1 M0).
Proof.
  intros W0 W1 W H0 H1 HM I0 I1 P. exists (g + k - g0 - g1)%Z. intros i j Hi Hj. unfold kron.
  assert (Lm : forall a, a mod 2 ^ n0 < 2 ^ n0) by (intros a; apply Nat.mod_upper_bound, Nat.pow_nonzero; discriminate).
  assert (Ld : forall a, a < 2 ^ (n0 + n1) -> a / 2 ^ n0 < 2 ^ n1) by (intros a Ha; apply Nat.div_lt_upper_bound; [apply Nat.pow_nonzero; discriminate|rewrite <- Nat.pow_add_r; exact Ha]).
  assert (Sm : forall a, same n0 (tb (a mod 2 ^ n0)) (tb a)) by (intros a b Hb; apply Nat.mod_pow2_bits_low, Hb).
  assert (Sd : forall a, same n1 (tb (a / 2 ^ n0)) (fun q => tb a (q + n0))) by (intros a b Hb; apply Nat.div_pow2_bits).
  rewrite (HM i j Hi Hj), (H0 _ _ (Lm i) (Lm j)), (H1 _ _ (Ld i Hi) (Ld j Hj)).
  assert (E : (i =? tgt (n0 + n1) e j) = (i mod 2 ^ n0 =? tgt n0 e0 (j mod 2 ^ n0)) && (i / 2 ^ n0 =? tgt n1 e1 (j / 2 ^ n0))).
  { apply Bool.eq_iff_eq_true. rewrite Bool.andb_true_iff, !Nat.eqb_eq. unfold tgt. rewrite !enc_eq by auto. split.
    - intros S. split.
      + apply (same_trans' n0 _ (tb i)); [apply Sm|]. intros b Hb. rewrite (S b ltac:(lia)), (I0 _ b Hb). apply (image_same n0 e0 _ _ W0 (same_sym' _ _ _ (Sm j)) b Hb).
      + apply (same_trans' n1 _ _ _ (Sd i)). intros b Hb. rewrite (S (b + n0) ltac:(lia)), (I1 _ b Hb). apply (image_same n1 e1 _ _ W1 (same_sym' _ _ _ (Sd j)) b Hb).
    - intros [A B] b Hb. destruct (Nat.lt_ge_cases b n0) as [Hl|Hg].
      + rewrite <- (Sm i b Hl), (A b Hl), (I0 _ b Hl). apply (image_same n0 e0 _ _ W0 (Sm j) b Hl).
      + replace b with (b - n0 + n0) by lia. assert (Hl : b - n0 < n1) by lia. rewrite <- (Sd i _ Hl : _ = tb i (b - n0 + n0)), (B _ Hl), (I1 _ _ Hl). apply (image_same n1 e1 _ _ W1 (Sd j) _ Hl). }
  rewrite E. destruct (i mod 2 ^ n0 =? _), (i / 2 ^ n0 =? _); cbn [andb]; try ring. rewrite <- !omega_add. apply omega_eq8.
  rewrite (phase_ext n0 e0 _ _ W0 (Sm j)), (phase_ext n1 e1 _ _ W1 (Sd j)).
  match goal with |- eq8 ?l ?r => replace r with (g + (k + phase_at e0 (tb j) + phase_at e1 (fun q => tb j (q + n0)%nat)))%Z by ring end. apply eq8_plus; [reflexivity|apply P].
Qed.

(** ** The matrix determines the element *)
Lemma parity_zero n row : parity n row (fun _ => false) = false.
Proof. unfold parity. generalize (seq 0 n). intros l. induction l as [|j l IHl]; [reflexivity|]. cbn. rewrite IHl, Bool.andb_false_r. reflexivity. Qed.
Lemma parity_point n row j : j < n -> parity n row (Nat.eqb j) = nth j row false.
Proof.
  intros Hj. unfold parity. assert (G : forall m s, fold_right xorb false (map (fun k => nth k row false && (j =? k)) (seq s m)) = ((s <=? j) && (j <? s + m)) && nth j row false).
  { induction m as [|m IH]; intros s; cbn [seq map fold_right].
    - destruct (Nat.leb_spec s j), (Nat.ltb_spec j (s + 0)); cbn; try reflexivity; lia.
    - rewrite IH. destruct (Nat.eqb_spec j s) as [->|Hn].
      + rewrite Nat.leb_refl. destruct (Nat.leb_spec (S s) s); [lia|]. destruct (Nat.ltb_spec s (s + S m)); [|lia]. cbn. rewrite Bool.andb_true_r, Bool.xorb_false_r. reflexivity.
      + rewrite Bool.andb_false_r, Bool.xorb_false_l. f_equal. destruct (Nat.leb_spec (S s) j), (Nat.leb_spec s j), (Nat.ltb_spec j (S s + m)), (Nat.ltb_spec j (s + S m)); cbn; try reflexivity; lia. }
  rewrite G. destruct (Nat.ltb_spec j (0 + n)); [reflexivity|lia].
Qed.
Lemma cdi_ext n a b g : wf_cdi n a -> wf_cdi n b -> w0 (dpoly a) = 0%Z -> w0 (dpoly b) = 0%Z -> (forall x, same n (image a x) (image b x)) -> (forall x, eq8 (phase_at a x) (g + phase_at b x)) -> a = b.
Proof.
  intros Wa Wb Za Zb Hi Hp. pose (z := fun _ : nat => false).
  assert (V : forall e, wf_cdi n e -> w0 (dpoly e) = 0%Z -> value (dpoly e) z = 0%Z).
  { intros e W Ze. rewrite (value_tm n _ _ (wd_poly n e W)). erewrite zsum_map_ext; [apply zsum_map_zero|]. intros t Ht. cbn beta. destruct t as [|i t]; [rewrite tm_0, Ze; reflexivity|]. unfold z. cbn [monomial bit]. ring. }
  assert (G : eq8 g 0). { specialize (Hp z). unfold phase_at in Hp. rewrite (V a Wa Za), (V b Wb Zb), Z.add_0_r in Hp. symmetry. exact Hp. }
  assert (Pol : dpoly a = dpoly b). { apply (unique n); [apply (wd_poly n a Wa)|apply (wd_poly n b Wb)|]. intros x _. specialize (Hp x). unfold phase_at in Hp. unfold eq8 in *. rewrite Hp, Zplus_mod, G, <- Zplus_mod. reflexivity. }
  assert (Sh : forall i, i < n -> nth i (dshift a) false = nth i (dshift b) false). { intros i Hlt. specialize (Hi z i Hlt). unfold image in Hi. rewrite (wd_n n a Wa), (wd_n n b Wb) in Hi. unfold z in Hi. rewrite !parity_zero, !Bool.xorb_false_l in Hi. exact Hi. }
  assert (ShE : dshift a = dshift b). { apply (nth_ext _ _ false false); [rewrite (wd_shift n a Wa), (wd_shift n b Wb); reflexivity|]. rewrite (wd_shift n a Wa). exact Sh. }
  assert (Li : dlin a = dlin b).
  { apply (nth_ext _ _ [] []); [rewrite (wd_lin n a Wa), (wd_lin n b Wb); reflexivity|]. rewrite (wd_lin n a Wa). intros i Hlt. pose proof (rows_len n a Wa i Hlt) as La. pose proof (rows_len n b Wb i Hlt) as Lb.
    apply (nth_ext _ _ false false); [congruence|]. rewrite La. intros j Hj. specialize (Hi (Nat.eqb j) i Hlt). unfold image in Hi. rewrite (wd_n n a Wa), (wd_n n b Wb), !parity_point, (Sh i Hlt) in Hi by exact Hj. destruct (nth j (nth i (dlin a) []) false), (nth j (nth i (dlin b) []) false), (nth i (dshift b) false); cbn in Hi; congruence. }
  pose proof (wd_n n a Wa) as Na. pose proof (wd_n n b Wb) as Nb. destruct a, b. cbn in *. subst. reflexivity.
Qed.
Lemma faithful n a b ga gb Ma Mb : wf_cdi n a -> wf_cdi n b -> w0 (dpoly a) = 0%Z -> w0 (dpoly b) = 0%Z -> monomial_of n a ga Ma -> monomial_of n b gb Mb -> up_to_phase n Ma Mb -> a = b.
Proof.
  intros Wa Wb Za Zb HA HB (k & H).
  assert (T : forall j, j < 2 ^ n -> tgt n a j = tgt n b j /\ eq8 (ga + phase_at a (tb j)) (k + (gb + phase_at b (tb j)))).
  { intros j Hj. specialize (H (tgt n a j) j (tgt_lt n a j) Hj). cbn beta in H. rewrite (HA _ j (tgt_lt n a j) Hj), (HB _ j (tgt_lt n a j) Hj), Nat.eqb_refl in H. destruct (Nat.eqb_spec (tgt n a j) (tgt n b j)) as [E|E].
    - split; [exact E|]. rewrite <- omega_add in H. apply omega_inj, H.
    - exfalso. apply (omega_neq_0 (ga + phase_at a (tb j))). rewrite H. ring. }
  apply (cdi_ext n a b (k + gb - ga)%Z Wa Wb Za Zb).
  - intros x. destruct (T (enc n x) (enc_lt n x)) as [E _]. apply (same_trans' n _ (image a (tb (enc n x)))); [apply (image_same n a _ _ Wa), same_sym', enc_same|]. apply (same_trans' n _ (image b (tb (enc n x)))); [|apply (image_same n b _ _ Wb), enc_same]. apply (same_trans' n _ (tb (tgt n a (enc n x)))); [apply same_sym', enc_same|]. rewrite E. apply enc_same.
  - intros x. destruct (T (enc n x) (enc_lt n x)) as [_ E]. rewrite (phase_ext n a _ _ Wa (enc_same n x)), (phase_ext n b _ _ Wb (enc_same n x)) in E. unfold eq8 in *.
    replace (phase_at a x) with (ga + phase_at a x - ga)%Z by ring. rewrite Zminus_mod, E, <- Zminus_mod. f_equal. ring.
Qed.
