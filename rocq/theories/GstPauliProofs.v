(** Pauli operators of any number of qubits: orthogonality, completeness, and the
    conversions between transfer matrices and Choi matrices. *)
From Coq Require Import QArith Reals Lra.
From Coquelicot Require Import Coquelicot.
From Verif Require Import LinAlg Base ResultFacts PyStr CtmpSpec EntSpec LinInv TomoModel TomoFitModel TomoFitSpec TomoPsdSpec TomoPtrProofs GstModel GstOptModel GstOptSpec.
Local Open Scope list_scope.
Local Open Scope nat_scope.

Lemma sum_to_csumn n f : sum_to n f = csumn n f. Proof. reflexivity. Qed.
Lemma csumn_ext n f g : (forall k, k < n -> f k = g k) -> csumn n f = csumn n g.
Proof. intros H. apply fsum_map_ext. intros k Hk. apply in_seq in Hk. apply H. lia. Qed.
Lemma csumn_mul n k f : csumn n (fun a => fmul k (f a)) = fmul k (csumn n f). Proof. apply fsum_map_mul. Qed.
Lemma csumn_mul_r n k f : csumn n (fun a => fmul (f a) k) = fmul (csumn n f) k. Proof. apply fsum_map_mul_r. Qed.
Lemma csumn_add n f g : csumn n (fun a => fadd (f a) (g a)) = fadd (csumn n f) (csumn n g). Proof. apply fsum_map_add. Qed.
Lemma csumn_swap n m f : csumn n (fun a => csumn m (f a)) = csumn m (fun b => csumn n (fun a => f a b)). Proof. apply fsum_swap. Qed.
Lemma csumn_pairs m n g : 0 < n -> csumn (m * n) (fun k => g (k / n) (k mod n)) = csumn m (fun a => csumn n (g a)).
Proof. intros H. exact (sum_pairs g n m H). Qed.
Lemma csumn_pick n j g : j < n -> csumn n (fun k => if j =? k then g k else f0) = g j. Proof. intros H. exact (pick_nat n j g H). Qed.
Lemma csumn_zero n f : (forall k, k < n -> f k = f0) -> csumn n f = f0.
Proof. intros H. apply fsum_map_zero'. intros k Hk. apply in_seq in Hk. apply H. lia. Qed.
(** A double sum of products. *)
Lemma csumn_prod n m f g : csumn n (fun a => csumn m (fun b => fmul (f a) (g b))) = fmul (csumn n f) (csumn m g).
Proof. rewrite <- csumn_mul_r. apply csumn_ext. intros a _. apply csumn_mul. Qed.

Lemma pow2_pos m : 0 < 2 ^ m. Proof. pose proof (Nat.pow_nonzero 2 m). lia. Qed.
Lemma pow4_pos m : 0 < 4 ^ m. Proof. pose proof (Nat.pow_nonzero 4 m). lia. Qed.
Lemma div_lt k n m : 0 < n -> k < m * n -> k / n < m. Proof. intros Hn H. apply Nat.div_lt_upper_bound; lia. Qed.

Definition two : C := RtoC 2.
Lemma sigma_orth i k : i < 4 -> k < 4 -> csumn 2 (fun r => csumn 2 (fun c => fmul (sigma i r c) (sigma k c r))) = if i =? k then two else f0.
Proof.
  intros Hi Hk. unfold csumn, two. cbn [seq map]. rewrite !fsum_cons, !fsum_nil.
  do 4 (destruct i as [|i]; [do 4 (destruct k as [|k]; [apply injective_projections; cbn; lra|]); lia|]). lia.
Qed.
Lemma sigma_complete r s t u : r < 2 -> s < 2 -> t < 2 -> u < 2 ->
  csumn 4 (fun i => fmul (sigma i r s) (sigma i t u)) = if (r =? u) && (s =? t) then two else f0.
Proof.
  intros Hr Hs Ht Hu. unfold csumn, two. cbn [seq map]. rewrite !fsum_cons, !fsum_nil.
  destruct r as [|[|r]], s as [|[|s]], t as [|[|t]], u as [|[|u]]; try lia; apply injective_projections; cbn; lra.
Qed.

Lemma eqb_divmod n i k : 0 < n -> (i =? k) = ((i / n =? k / n) && (i mod n =? k mod n)).
Proof.
  intros Hn. pose proof (Nat.div_mod i n) as A. pose proof (Nat.div_mod k n) as B.
  destruct (Nat.eqb_spec i k) as [->|H].
  - rewrite !Nat.eqb_refl. reflexivity.
  - destruct (Nat.eqb_spec (i / n) (k / n)) as [E|]; [|reflexivity]. destruct (Nat.eqb_spec (i mod n) (k mod n)) as [E'|]; [|reflexivity].
    exfalso. apply H. rewrite A, B by lia. rewrite E, E'. reflexivity.
Qed.
Lemma dim_S m : RtoC (INR (2 ^ S m)) = fmul two (RtoC (INR (2 ^ m))).
Proof. change (fmul ?a ?b) with (Cmult a b). unfold two. rewrite <- RtoC_mult. f_equal. cbn [Nat.pow]. rewrite mult_INR. reflexivity. Qed.

Lemma pauli_orth n : forall i k, i < 4 ^ n -> k < 4 ^ n ->
  csumn (2 ^ n) (fun r => csumn (2 ^ n) (fun c => fmul (pauli n i r c) (pauli n k c r))) = if i =? k then RtoC (INR (2 ^ n)) else f0.
Proof.
  induction n as [|n IH]; intros i k Hi Hk.
  - cbn in Hi, Hk. assert (i = 0) by lia. assert (k = 0) by lia. subst. unfold csumn. cbn [Nat.pow seq map]. rewrite !fsum_cons, !fsum_nil. apply injective_projections; cbn; lra.
  - pose proof (pow2_pos n) as P2. pose proof (pow4_pos n) as P4. change (4 ^ S n) with (4 * 4 ^ n) in *. change (2 ^ S n) with (2 * 2 ^ n) at 1 2. 
    assert (Qi : i / 4 ^ n < 4) by (apply div_lt; lia). assert (Qk : k / 4 ^ n < 4) by (apply div_lt; lia).
    pose proof (Nat.mod_upper_bound i (4 ^ n)) as Mi. pose proof (Nat.mod_upper_bound k (4 ^ n)) as Mk.
    set (i1 := i / 4 ^ n) in *. set (i0 := i mod 4 ^ n) in *. set (k1 := k / 4 ^ n) in *. set (k0 := k mod 4 ^ n) in *.
    transitivity (csumn 2 (fun r1 => csumn (2 ^ n) (fun r0 => csumn 2 (fun c1 => csumn (2 ^ n) (fun c0 =>
        fmul (fmul (sigma i1 r1 c1) (sigma k1 c1 r1)) (fmul (pauli n i0 r0 c0) (pauli n k0 c0 r0))))))).
    + rewrite <- (csumn_pairs 2 (2 ^ n) (fun r1 r0 => csumn 2 (fun c1 => csumn (2 ^ n) (fun c0 => fmul (fmul (sigma i1 r1 c1) (sigma k1 c1 r1)) (fmul (pauli n i0 r0 c0) (pauli n k0 c0 r0)))))) by exact P2.
      apply csumn_ext. intros r _.
      rewrite <- (csumn_pairs 2 (2 ^ n) (fun c1 c0 => fmul (fmul (sigma i1 (r / 2 ^ n) c1) (sigma k1 c1 (r / 2 ^ n))) (fmul (pauli n i0 (r mod 2 ^ n) c0) (pauli n k0 c0 (r mod 2 ^ n))))) by exact P2.
      apply csumn_ext. intros c _. cbn [pauli]. fold i1 i0 k1 k0. change (Cmult ?a ?b) with (fmul a b). ring.
    + transitivity (fmul (csumn 2 (fun r1 => csumn 2 (fun c1 => fmul (sigma i1 r1 c1) (sigma k1 c1 r1)))) (csumn (2 ^ n) (fun r0 => csumn (2 ^ n) (fun c0 => fmul (pauli n i0 r0 c0) (pauli n k0 c0 r0))))).
      * rewrite <- csumn_prod. apply csumn_ext. intros r1 _. apply csumn_ext. intros r0 _. apply csumn_prod.
      * rewrite sigma_orth by assumption. rewrite IH by (try apply Mi; try apply Mk; lia). rewrite (eqb_divmod (4 ^ n) i k) by exact P4. fold i1 i0 k1 k0. rewrite dim_S.
        destruct (i1 =? k1), (i0 =? k0); cbn [andb]; try ring.
Qed.
Lemma pauli_complete n : forall r s t u, r < 2 ^ n -> s < 2 ^ n -> t < 2 ^ n -> u < 2 ^ n ->
  csumn (4 ^ n) (fun i => fmul (pauli n i r s) (pauli n i t u)) = if (r =? u) && (s =? t) then RtoC (INR (2 ^ n)) else f0.
Proof.
  induction n as [|n IH]; intros r s t u Hr Hs Ht Hu.
  - cbn in Hr, Hs, Ht, Hu. assert (r = 0) by lia. assert (s = 0) by lia. assert (t = 0) by lia. assert (u = 0) by lia. subst. unfold csumn. cbn [Nat.pow seq map]. rewrite !fsum_cons, !fsum_nil. apply injective_projections; cbn; lra.
  - pose proof (pow2_pos n) as P2. pose proof (pow4_pos n) as P4. change (4 ^ S n) with (4 * 4 ^ n) in *. change (2 ^ S n) with (2 * 2 ^ n) in Hr, Hs, Ht, Hu.
    assert (D : forall a, a < 2 * 2 ^ n -> a / 2 ^ n < 2 /\ a mod 2 ^ n < 2 ^ n) by (intros a Ha; split; [apply div_lt; lia|apply Nat.mod_upper_bound; lia]).
    destruct (D r Hr) as [R1 R0], (D s Hs) as [S1 S0], (D t Ht) as [T1 T0], (D u Hu) as [U1 U0].
    transitivity (csumn 4 (fun i1 => csumn (4 ^ n) (fun i0 => fmul (fmul (sigma i1 (r / 2 ^ n) (s / 2 ^ n)) (sigma i1 (t / 2 ^ n) (u / 2 ^ n))) (fmul (pauli n i0 (r mod 2 ^ n) (s mod 2 ^ n)) (pauli n i0 (t mod 2 ^ n) (u mod 2 ^ n)))))).
    + rewrite <- (csumn_pairs 4 (4 ^ n) (fun i1 i0 => fmul (fmul (sigma i1 (r / 2 ^ n) (s / 2 ^ n)) (sigma i1 (t / 2 ^ n) (u / 2 ^ n))) (fmul (pauli n i0 (r mod 2 ^ n) (s mod 2 ^ n)) (pauli n i0 (t mod 2 ^ n) (u mod 2 ^ n))))) by exact P4.
      apply csumn_ext. intros i _. cbn [pauli]. change (Cmult ?a ?b) with (fmul a b). ring.
    + rewrite csumn_prod, sigma_complete by assumption. rewrite IH by assumption.
      rewrite (eqb_divmod (2 ^ n) r u), (eqb_divmod (2 ^ n) s t), dim_S by exact P2.
      destruct (r / 2 ^ n =? u / 2 ^ n), (s / 2 ^ n =? t / 2 ^ n), (r mod 2 ^ n =? u mod 2 ^ n), (s mod 2 ^ n =? t mod 2 ^ n); cbn [andb]; try ring.
Qed.

(** The model's operators are those of the letters. *)
Lemma sigma_letter p (r c : bool) : p < 4 -> sigma p (Nat.b2n r) (Nat.b2n c) = letter p r c.
Proof. intros H. do 4 (destruct p as [|p]; [destruct r, c; apply injective_projections; cbn; lra|]). lia. Qed.
Lemma digit_mod b i m k : 0 < b -> k < m -> (i mod b ^ m) / b ^ k mod b = i / b ^ k mod b.
Proof.
  intros Hb Hk. assert (0 < b ^ k) by (pose proof (Nat.pow_nonzero b k); lia). assert (0 < b ^ (m - k - 1)) by (pose proof (Nat.pow_nonzero b (m - k - 1)); lia).
  replace (b ^ m) with (b ^ k * (b * b ^ (m - k - 1))) by (replace m with (k + (1 + (m - k - 1))) at 2 by lia; rewrite !Nat.pow_add_r, Nat.pow_1_r; lia).
  rewrite Nat.mod_mul_r by nia. rewrite (Nat.mul_comm (b ^ k) (_ mod _)), Nat.div_add by lia. rewrite (Nat.div_small (i mod b ^ k)) by (apply Nat.mod_upper_bound; lia). cbn [Nat.add].
  rewrite Nat.mod_mul_r by lia. rewrite (Nat.mul_comm b), Nat.mod_add by lia. apply Nat.mod_mod. lia.
Qed.
Lemma testbit_top r m : r < 2 ^ S m -> r / 2 ^ m = Nat.b2n (Nat.testbit r m).
Proof.
  intros H. rewrite Nat.testbit_spec' . rewrite Nat.mod_small; [reflexivity|]. apply Nat.div_lt_upper_bound; [apply Nat.pow_nonzero; lia|]. cbn [Nat.pow] in H. lia.
Qed.
Lemma testbit_mod r m k : k < m -> Nat.testbit (r mod 2 ^ m) k = Nat.testbit r k.
Proof. intros H. apply Nat.mod_pow2_bits_low. exact H. Qed.
Lemma pauli_pauli_op n : forall i r c, i < 4 ^ n -> r < 2 ^ n -> c < 2 ^ n -> pauli n i r c = pauli_op n i r c.
Proof.
  induction n as [|m IH]; intros i r c Hi Hr Hc; [reflexivity|].
  pose proof (pow2_pos m) as P2. pose proof (pow4_pos m) as P4. unfold pauli_op. rewrite seq_S, map_app, fprod_app. cbn [map Nat.add pauli]. rewrite fprod_cons, fprod_nil.
  assert (Q : i / 4 ^ m < 4) by (apply div_lt; [lia|cbn [Nat.pow] in Hi; lia]).
  rewrite (testbit_top r m Hr), (testbit_top c m Hc), sigma_letter by exact Q. rewrite (Nat.mod_small (i / 4 ^ m) 4) by exact Q.
  rewrite IH by (apply Nat.mod_upper_bound; lia). change (Cmult ?a ?b) with (fmul a b). rewrite fmul_1_r, fmul_comm. f_equal. unfold pauli_op. f_equal. apply map_ext_in. intros k Hk. apply in_seq in Hk.
  rewrite digit_mod, !testbit_mod by lia. reflexivity.
Qed.

(** ** Conversions *)
Lemma qubits_of_pow m n : m_rows m = 4 ^ n -> m_cols m = 4 ^ n -> qubits_of m = Ok n.
Proof.
  intros H1 H2. unfold qubits_of. rewrite H1, H2, Nat.eqb_refl. assert (E : Nat.log2 (4 ^ n) / 2 = n).
  { replace (4 ^ n) with (2 ^ (2 * n)) by (rewrite Nat.pow_mul_r; reflexivity). rewrite Nat.log2_pow2 by lia. rewrite Nat.mul_comm. apply Nat.div_mul. lia. }
  rewrite E, Nat.eqb_refl. reflexivity.
Qed.
Lemma dim_nz n : RtoC (INR (2 ^ n)) <> f0.
Proof. intros H. apply RtoC_inj in H. apply (not_0_INR (2 ^ n)); [apply Nat.pow_nonzero; lia|exact H]. Qed.
Lemma pow4_sq n : 2 ^ n * 2 ^ n = 4 ^ n. Proof. rewrite <- Nat.pow_mul_l. reflexivity. Qed.

Lemma tr2_unit d A a b : a < d -> b < d -> tr2 d A (unit_op a b) = A b a.
Proof.
  intros Ha Hb. unfold tr2, unit_op. rewrite <- (csumn_pick d b (fun r => A r a)) by exact Hb. apply csumn_ext. intros r Hr.
  rewrite (csumn_ext d _ (fun s => if a =? s then (if b =? r then A r s else f0) else f0)).
  - rewrite csumn_pick by exact Ha. reflexivity.
  - intros s _. destruct (a =? s), (b =? r); cbn [andb]; ring.
Qed.
(** The model's Choi matrix is the matrix of the images. *)
Lemma choi_spec m n : m_rows m = 4 ^ n -> m_cols m = 4 ^ n -> exists k, choi_of_ptm m = Ok k /\ m_rows k = 4 ^ n /\ m_cols k = 4 ^ n /\ same_entries (4 ^ n) (m_at k) (choi_matrix n (m_at m)).
Proof.
  intros H1 H2. unfold choi_of_ptm. rewrite (qubits_of_pow m n H1 H2). cbn [bind]. eexists. split; [reflexivity|]. cbn [m_rows m_cols m_at]. repeat split; [exact H1|exact H2|].
  intros x y Hx Hy. rewrite <- pow4_sq in Hx, Hy. pose proof (pow2_pos n) as P.
  assert (D : forall a, a < 2 ^ n * 2 ^ n -> a / 2 ^ n < 2 ^ n /\ a mod 2 ^ n < 2 ^ n) by (intros a Ha; split; [apply div_lt; lia|apply Nat.mod_upper_bound; lia]).
  destruct (D x Hx), (D y Hy). unfold choi_matrix, transfer. change (Cmult ?a ?b) with (fmul a b). change (Cinv ?a) with (finv a). rewrite !sum_to_csumn.
  transitivity (fmul (finv (RtoC (INR (2 ^ n)))) (csumn (4 ^ n) (fun i => csumn (4 ^ n) (fun j => fmul (fmul (m_at m i j) (tr2 (2 ^ n) (pauli_op n j) (unit_op (x / 2 ^ n) (y / 2 ^ n)))) (pauli_op n i (x mod 2 ^ n) (y mod 2 ^ n)))))).
  - f_equal. apply csumn_ext. intros i Hi. rewrite sum_to_csumn. apply csumn_ext. intros j Hj. rewrite tr2_unit, !pauli_pauli_op by assumption. repeat change (Cmult ?a ?b) with (fmul a b). ring.
  - rewrite fmul_comm. symmetry. apply (Fdiv_def fth).
Qed.
Lemma ptm_of_choi_ok k n : m_rows k = 4 ^ n -> m_cols k = 4 ^ n -> exists m, ptm_of_choi k = Ok m /\ m_rows m = 4 ^ n /\ m_cols m = 4 ^ n /\
  forall i j, m_at m i j = fmul (finv (RtoC (INR (2 ^ n)))) (csumn (2 ^ n) (fun a => csumn (2 ^ n) (fun b => csumn (2 ^ n) (fun c => csumn (2 ^ n) (fun e =>
    fmul (m_at k (a * 2 ^ n + c) (b * 2 ^ n + e)) (fmul (pauli n i e c) (pauli n j a b))))))).
Proof.
  intros H1 H2. unfold ptm_of_choi. rewrite (qubits_of_pow k n H1 H2). cbn [bind]. eexists. split; [reflexivity|]. cbn [m_rows m_cols m_at]. repeat split; assumption.
Qed.
Lemma div_mod_pair d a c : c < d -> (a * d + c) / d = a /\ (a * d + c) mod d = c.
Proof. intros H. split; [rewrite Nat.add_comm, Nat.div_add, Nat.div_small; lia|rewrite Nat.add_comm, Nat.mod_add, Nat.mod_small; lia]. Qed.

(** There and back. *)
Lemma ptm_choi_ptm (G : nat -> nat -> C) k n : m_rows k = 4 ^ n -> m_cols k = 4 ^ n -> same_entries (4 ^ n) (m_at k) (choi_matrix n G) ->
  exists m, ptm_of_choi k = Ok m /\ m_rows m = 4 ^ n /\ m_cols m = 4 ^ n /\ same_entries (4 ^ n) (m_at m) G.
Proof.
  intros H1 H2 H. destruct (ptm_of_choi_ok k n H1 H2) as (m & A & B & D & E). exists m. repeat (split; [assumption|]). intros i j Hi Hj. rewrite E.
  pose proof (dim_nz n) as Nz. pose proof (pow2_pos n) as P. set (D1 := RtoC (INR (2 ^ n))) in *. set (d := 2 ^ n) in *.
  transitivity (fmul (finv D1) (csumn d (fun a => csumn d (fun b => csumn d (fun c => csumn d (fun e => csumn (4 ^ n) (fun i' => csumn (4 ^ n) (fun j' =>
     fmul (fmul (finv D1) (G i' j')) (fmul (fmul (pauli n i e c) (pauli n i' c e)) (fmul (pauli n j a b) (pauli n j' b a))))))))))).
  - f_equal. apply csumn_ext. intros a Ha. apply csumn_ext. intros b Hb. apply csumn_ext. intros c Hc. apply csumn_ext. intros e He.
    rewrite H by (unfold d in *; rewrite <- pow4_sq; nia). unfold choi_matrix, transfer. fold d D1.
    destruct (div_mod_pair d a c Hc) as [-> ->]. destruct (div_mod_pair d b e He) as [-> ->].
    rewrite (Fdiv_def fth).
    transitivity (fmul (csumn (4 ^ n) (fun i0 => csumn (4 ^ n) (fun j0 => fmul (fmul (G i0 j0) (pauli n j0 b a)) (pauli n i0 c e)))) (fmul (finv D1) (fmul (pauli n i e c) (pauli n j a b)))).
    + rewrite (csumn_ext (4 ^ n) (fun i0 => csumn (4 ^ n) (fun j0 => fmul (fmul (G i0 j0) (tr2 d (pauli_op n j0) (unit_op a b))) (pauli_op n i0 c e))) (fun i0 => csumn (4 ^ n) (fun j0 => fmul (fmul (G i0 j0) (pauli n j0 b a)) (pauli n i0 c e)))); [ring|].
      intros i0 Hi0. apply csumn_ext. intros j0 Hj0. rewrite tr2_unit by assumption. rewrite <- !pauli_pauli_op by assumption. reflexivity.
    + rewrite <- csumn_mul_r. apply csumn_ext. intros i0 _. rewrite <- csumn_mul_r. apply csumn_ext. intros j0 _. ring.
  - transitivity (fmul (finv D1) (csumn (4 ^ n) (fun i' => csumn (4 ^ n) (fun j' => fmul (fmul (finv D1) (G i' j'))
       (fmul (csumn d (fun c => csumn d (fun e => fmul (pauli n i e c) (pauli n i' c e)))) (csumn d (fun a => csumn d (fun b => fmul (pauli n j a b) (pauli n j' b a))))))))).
    + f_equal.
      (* bring the two sums over operators outside *)
      assert (SW : forall (m : nat) (f : nat -> nat -> nat -> nat -> nat -> C),
        csumn d (fun a => csumn d (fun b => csumn d (fun c => csumn d (fun e => csumn m (f a b c e))))) = csumn m (fun z => csumn d (fun a => csumn d (fun b => csumn d (fun c => csumn d (fun e => f a b c e z)))))).
      { intros m0 f. rewrite csumn_swap. rewrite <- csumn_swap. 
        transitivity (csumn d (fun a => csumn d (fun b => csumn d (fun c => csumn m0 (fun z => csumn d (fun e => f a b c e z)))))); [apply csumn_ext; intros; apply csumn_ext; intros; apply csumn_ext; intros; apply csumn_swap|].
        transitivity (csumn d (fun a => csumn d (fun b => csumn m0 (fun z => csumn d (fun c => csumn d (fun e => f a b c e z)))))); [apply csumn_ext; intros; apply csumn_ext; intros; apply csumn_swap|].
        transitivity (csumn d (fun a => csumn m0 (fun z => csumn d (fun b => csumn d (fun c => csumn d (fun e => f a b c e z)))))); [apply csumn_ext; intros; apply csumn_swap|]. apply csumn_swap. }
      rewrite SW. apply csumn_ext. intros i' _. rewrite SW. apply csumn_ext. intros j' _.
      transitivity (csumn d (fun a => csumn d (fun b => fmul (fmul (finv D1) (G i' j')) (fmul (csumn d (fun c => csumn d (fun e => fmul (pauli n i e c) (pauli n i' c e)))) (fmul (pauli n j a b) (pauli n j' b a)))))).
      * apply csumn_ext. intros a _. apply csumn_ext. intros b _. rewrite <- csumn_mul_r, <- csumn_mul. apply csumn_ext. intros c _. rewrite <- csumn_mul_r, <- csumn_mul. apply csumn_ext. intros e _. reflexivity.
      * rewrite <- !csumn_mul. apply csumn_ext. intros a _. rewrite <- !csumn_mul. reflexivity.
    + transitivity (fmul (finv D1) (csumn (4 ^ n) (fun i' => if i =? i' then csumn (4 ^ n) (fun j' => if j =? j' then fmul (fmul (finv D1) (G i' j')) (fmul D1 D1) else f0) else f0))).
      * f_equal. apply csumn_ext. intros i' Hi'.
        pose proof (fun a b => pauli_orth n a b) as PO. fold d D1 in PO.
        rewrite (csumn_swap d d (fun c e => fmul (pauli n i e c) (pauli n i' c e))), (PO i i') by assumption.
        destruct (i =? i').
        -- apply csumn_ext. intros j' Hj'. rewrite (PO j j') by assumption. destruct (j =? j'); [reflexivity|ring].
        -- apply csumn_zero. intros j' Hj'. ring.
      * rewrite csumn_pick, csumn_pick by assumption. transitivity (fmul (fmul (fmul (finv D1) D1) (fmul (finv D1) D1)) (G i j)); [ring|]. rewrite (Finv_l fth) by exact Nz. ring.
Qed.
Lemma choi_ptm_choi k n : m_rows k = 4 ^ n -> m_cols k = 4 ^ n ->
  exists m, ptm_of_choi k = Ok m /\ m_rows m = 4 ^ n /\ m_cols m = 4 ^ n /\ same_entries (4 ^ n) (choi_matrix n (m_at m)) (m_at k).
Proof.
  intros H1 H2. destruct (ptm_of_choi_ok k n H1 H2) as (m & A & B & D & E). exists m. repeat (split; [assumption|]). intros x y Hx Hy. rewrite <- pow4_sq in Hx, Hy.
  pose proof (dim_nz n) as Nz. pose proof (pow2_pos n) as P.
  pose proof (fun r s t u => pauli_complete n r s t u) as PC.
  assert (DM : forall a, a < 2 ^ n * 2 ^ n -> a / 2 ^ n < 2 ^ n /\ a mod 2 ^ n < 2 ^ n) by (intros a Ha; split; [apply div_lt; lia|apply Nat.mod_upper_bound; lia]).
  unfold choi_matrix, transfer. set (D1 := RtoC (INR (2 ^ n))) in *. set (d := 2 ^ n) in *.
  destruct (DM x Hx) as [Xa Xc], (DM y Hy) as [Yb Ye].
  pose proof (Nat.div_mod x d ltac:(lia)) as Ex. pose proof (Nat.div_mod y d ltac:(lia)) as Ey.
  set (a := x / d) in *. set (c := x mod d) in *. set (b := y / d) in *. set (e := y mod d) in *.
  rewrite (Fdiv_def fth).
  transitivity (fmul (csumn (4 ^ n) (fun i => csumn (4 ^ n) (fun j => csumn d (fun a' => csumn d (fun b' => csumn d (fun c' => csumn d (fun e' =>
      fmul (fmul (finv D1) (m_at k (a' * d + c') (b' * d + e'))) (fmul (fmul (pauli n i e' c') (pauli n i c e)) (fmul (pauli n j a' b') (pauli n j b a)))))))))) (finv D1)).
  - f_equal. apply csumn_ext. intros i Hi. apply csumn_ext. intros j Hj. rewrite tr2_unit by assumption. rewrite <- !pauli_pauli_op by assumption. rewrite E.
    transitivity (fmul (fmul (finv D1) (fmul (pauli n j b a) (pauli n i c e))) (csumn d (fun a0 => csumn d (fun b0 => csumn d (fun c0 => csumn d (fun e0 => fmul (m_at k (a0 * d + c0) (b0 * d + e0)) (fmul (pauli n i e0 c0) (pauli n j a0 b0)))))))); [ring|].
    rewrite <- csumn_mul. apply csumn_ext. intros a' _. rewrite <- csumn_mul. apply csumn_ext. intros b' _. rewrite <- csumn_mul. apply csumn_ext. intros c' _. rewrite <- csumn_mul. apply csumn_ext. intros e' _. ring.
  - assert (SW : forall (m : nat) (f : nat -> nat -> nat -> nat -> nat -> C),
        csumn m (fun z => csumn d (fun a => csumn d (fun b => csumn d (fun c => csumn d (fun e => f a b c e z))))) = csumn d (fun a => csumn d (fun b => csumn d (fun c => csumn d (fun e => csumn m (f a b c e)))))).
    { intros m0 f. symmetry.
      transitivity (csumn d (fun a => csumn d (fun b => csumn d (fun c => csumn m0 (fun z => csumn d (fun e => f a b c e z)))))); [apply csumn_ext; intros; apply csumn_ext; intros; apply csumn_ext; intros; apply csumn_swap|].
      transitivity (csumn d (fun a => csumn d (fun b => csumn m0 (fun z => csumn d (fun c => csumn d (fun e => f a b c e z)))))); [apply csumn_ext; intros; apply csumn_ext; intros; apply csumn_swap|].
      transitivity (csumn d (fun a => csumn m0 (fun z => csumn d (fun b => csumn d (fun c => csumn d (fun e => f a b c e z)))))); [apply csumn_ext; intros; apply csumn_swap|]. apply csumn_swap. }
    transitivity (fmul (csumn d (fun a' => csumn d (fun b' => csumn d (fun c' => csumn d (fun e' => fmul (fmul (finv D1) (m_at k (a' * d + c') (b' * d + e')))
       (fmul (csumn (4 ^ n) (fun i => fmul (pauli n i e' c') (pauli n i c e))) (csumn (4 ^ n) (fun j => fmul (pauli n j a' b') (pauli n j b a))))))))) (finv D1)).
    + f_equal. transitivity (csumn (4 ^ n) (fun i => csumn d (fun a' => csumn d (fun b' => csumn d (fun c' => csumn d (fun e' => csumn (4 ^ n) (fun j =>
          fmul (fmul (finv D1) (m_at k (a' * d + c') (b' * d + e'))) (fmul (fmul (pauli n i e' c') (pauli n i c e)) (fmul (pauli n j a' b') (pauli n j b a)))))))))); [apply csumn_ext; intros i _; apply SW|].
      rewrite SW. apply csumn_ext. intros a' _. apply csumn_ext. intros b' _. apply csumn_ext. intros c' _. apply csumn_ext. intros e' _.
      rewrite <- csumn_prod, <- csumn_mul. apply csumn_ext. intros i _. rewrite <- csumn_mul. apply csumn_ext. intros j _. reflexivity.
    + transitivity (fmul (csumn d (fun a' => if a =? a' then csumn d (fun b' => if b =? b' then csumn d (fun c' => if c =? c' then csumn d (fun e' => if e =? e' then
         fmul (fmul (finv D1) (m_at k (a' * d + c') (b' * d + e'))) (fmul D1 D1) else f0) else f0) else f0) else f0)) (finv D1)).
      * f_equal. apply csumn_ext. intros a' Ha'. destruct (Nat.eqb_spec a a') as [Ea|Na].
        -- apply csumn_ext. intros b' Hb'. destruct (Nat.eqb_spec b b') as [Eb|Nb].
           ++ apply csumn_ext. intros c' Hc'. destruct (Nat.eqb_spec c c') as [Ec|Nc].
              ** apply csumn_ext. intros e' He'. rewrite !PC by assumption. destruct (Nat.eqb_spec e e') as [Ee|Ne].
                 --- subst a' b' c' e'. rewrite !Nat.eqb_refl. reflexivity.
                 --- destruct (Nat.eqb_spec e' e); [lia|]. cbn [andb]. ring.
              ** apply csumn_zero. intros e' He'. rewrite !PC by assumption. destruct (Nat.eqb_spec c' c); [lia|]. rewrite andb_false_r. ring.
           ++ apply csumn_zero. intros c' Hc'. apply csumn_zero. intros e' He'. rewrite !PC by assumption. destruct (Nat.eqb_spec b' b); [lia|]. rewrite andb_false_r. ring.
        -- apply csumn_zero. intros b' Hb'. apply csumn_zero. intros c' Hc'. apply csumn_zero. intros e' He'. rewrite !PC by assumption. destruct (Nat.eqb_spec a' a); [lia|]. cbn [andb]. ring.
      * rewrite !csumn_pick by assumption. transitivity (fmul (fmul (fmul (finv D1) D1) (fmul (finv D1) D1)) (m_at k (a * d + c) (b * d + e))); [ring|]. rewrite (Finv_l fth) by exact Nz.
        rewrite (Nat.mul_comm d a) in Ex. rewrite (Nat.mul_comm d b) in Ey. rewrite <- Ex, <- Ey. ring.
Qed.

(** ** Traces *)
Lemma pauli_id n : forall r c, r < 2 ^ n -> c < 2 ^ n -> pauli n 0 r c = if r =? c then f1 else f0.
Proof.
  induction n as [|n IH]; intros r c Hr Hc.
  - cbn in Hr, Hc. assert (r = 0) by lia. assert (c = 0) by lia. subst. reflexivity.
  - pose proof (pow2_pos n) as P2. pose proof (pow4_pos n). cbn [pauli]. rewrite Nat.div_0_l, Nat.mod_0_l by lia. rewrite IH by (apply Nat.mod_upper_bound; lia). rewrite (eqb_divmod (2 ^ n) r c) by exact P2.
    assert (R1 : r / 2 ^ n < 2) by (apply div_lt; [lia|cbn [Nat.pow] in Hr; lia]). assert (C1 : c / 2 ^ n < 2) by (apply div_lt; [lia|cbn [Nat.pow] in Hc; lia]).
    change (Cmult ?a ?b) with (fmul a b). destruct (r / 2 ^ n) as [|[|?]], (c / 2 ^ n) as [|[|?]]; try lia; destruct (r mod 2 ^ n =? c mod 2 ^ n); cbn [andb Nat.eqb sigma]; try reflexivity; change (RtoC 1) with (f1 (F:=C)); change (RtoC 0) with (f0 (F:=C)); ring.
Qed.
Lemma pauli_trace n i : i < 4 ^ n -> csumn (2 ^ n) (fun r => pauli n i r r) = if i =? 0 then RtoC (INR (2 ^ n)) else f0.
Proof.
  intros Hi. rewrite <- (pauli_orth n i 0) by (try assumption; apply pow4_pos). apply csumn_ext. intros r Hr. symmetry.
  rewrite (csumn_ext _ _ (fun c => if r =? c then pauli n i r c else f0)); [apply csumn_pick; exact Hr|]. intros c Hc. rewrite pauli_id, Nat.eqb_sym by assumption. destruct (r =? c); ring.
Qed.
Lemma transfer_trace n G X : csumn (2 ^ n) (fun r => transfer n G X r r) = csumn (4 ^ n) (fun j => fmul (G 0 j) (tr2 (2 ^ n) (pauli n j) X)).
Proof.
  pose proof (dim_nz n) as Nz. pose proof (pow4_pos n) as P4. pose proof (fun i => pauli_trace n i) as PT. unfold transfer. set (D1 := RtoC (INR (2 ^ n))) in *.
  transitivity (fmul (csumn (2 ^ n) (fun r => csumn (4 ^ n) (fun i => csumn (4 ^ n) (fun j => fmul (fmul (G i j) (tr2 (2 ^ n) (pauli n j) X)) (pauli n i r r))))) (finv D1)).
  - rewrite <- csumn_mul_r. apply csumn_ext. intros r Hr. rewrite (Fdiv_def fth). f_equal. apply csumn_ext. intros i Hi. apply csumn_ext. intros j Hj. rewrite pauli_pauli_op by assumption. f_equal. f_equal.
    unfold tr2. apply csumn_ext. intros a Ha. apply csumn_ext. intros b Hb. rewrite pauli_pauli_op by assumption. reflexivity.
  - rewrite csumn_swap. rewrite (csumn_ext (4 ^ n) _ (fun i => if 0 =? i then csumn (4 ^ n) (fun j => fmul (fmul (G i j) (tr2 (2 ^ n) (pauli n j) X)) D1) else f0)).
    + rewrite csumn_pick by exact P4. rewrite csumn_mul_r. transitivity (fmul (fmul (finv D1) D1) (csumn (4 ^ n) (fun a => fmul (G 0 a) (tr2 (2 ^ n) (pauli n a) X)))); [ring|]. rewrite (Finv_l fth) by exact Nz. ring.
    + intros i Hi. rewrite csumn_swap. transitivity (csumn (4 ^ n) (fun j => fmul (fmul (G i j) (tr2 (2 ^ n) (pauli n j) X)) (csumn (2 ^ n) (fun r => pauli n i r r)))); [apply csumn_ext; intros j _; rewrite <- csumn_mul; reflexivity|].
      rewrite PT by exact Hi. rewrite (Nat.eqb_sym 0 i). destruct (i =? 0); [reflexivity|]. apply csumn_zero. intros j _. ring.
Qed.
(** Traces are preserved exactly when the first row is 1, 0, ..., 0. *)
Lemma trace_row n G : trace_preserving n G <-> forall j, j < 4 ^ n -> G 0 j = if j =? 0 then f1 else f0.
Proof.
  pose proof (dim_nz n) as Nz. pose proof (pow4_pos n) as P4. unfold trace_preserving. split.
  - intros H j Hj. specialize (H (pauli n j)). rewrite transfer_trace, pauli_trace in H by exact Hj.
    rewrite (csumn_ext (4 ^ n) _ (fun k => if j =? k then fmul (G 0 k) (RtoC (INR (2 ^ n))) else f0)) in H.
    + rewrite csumn_pick in H by exact Hj. transitivity (fmul (fmul (G 0 j) (RtoC (INR (2 ^ n)))) (finv (RtoC (INR (2 ^ n))))).
      * transitivity (fmul (G 0 j) (fmul (finv (RtoC (INR (2 ^ n)))) (RtoC (INR (2 ^ n))))); [rewrite (Finv_l fth) by exact Nz; ring|ring].
      * rewrite H. destruct (j =? 0); [rewrite fmul_comm; apply (Finv_l fth); exact Nz|ring].
    + intros k Hk. unfold tr2. rewrite pauli_orth by assumption. rewrite Nat.eqb_sym. destruct (j =? k); [reflexivity|ring].
  - intros H X. rewrite transfer_trace. rewrite (csumn_ext (4 ^ n) _ (fun j => if 0 =? j then tr2 (2 ^ n) (pauli n j) X else f0)).
    + rewrite csumn_pick by exact P4. unfold tr2. apply csumn_ext. intros a Ha. rewrite (csumn_ext _ _ (fun b => if a =? b then X b a else f0)); [apply (csumn_pick (2 ^ n) a (fun b => X b a)); exact Ha|]. intros b Hb. rewrite pauli_id by assumption. destruct (a =? b); ring.
    + intros j Hj. rewrite H, Nat.eqb_sym by exact Hj. destruct (0 =? j); ring.
Qed.
Lemma choi_ext n G G' : same_entries (4 ^ n) G G' -> forall x y, choi_matrix n G x y = choi_matrix n G' x y.
Proof. intros H x y. unfold choi_matrix, transfer. f_equal. apply csumn_ext. intros i Hi. apply csumn_ext. intros j Hj. rewrite H by assumption. reflexivity. Qed.
