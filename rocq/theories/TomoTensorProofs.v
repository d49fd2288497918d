(** Numbers, bits, outcomes, and products of single-qubit matrices. *)
From Coq Require Import QArith Reals Lra.
From Coquelicot Require Import Coquelicot.
From Verif Require Import LinAlg Base ResultFacts CountsModel CountsSpec CountsProofs QSem DihedralModel RBSeqModel RBSeqSpec CtmpSpec StdGates AccSpec EntSpec TomoModel TomoSpec TomoFitModel TomoFitSpec TomoCircProofs TomoLayerProofs.
Local Open Scope list_scope.
Local Open Scope nat_scope.

(** * Numbers and bits *)
Lemma length_lebits n : forall k, length (lebits n k) = n.
Proof. induction n as [|n IH]; intros k; cbn; auto. Qed.
Lemma odd_mod2 k : Nat.odd k = negb (k mod 2 =? 0).
Proof.
  pose proof (Nat.div_mod k 2 ltac:(lia)) as E. pose proof (Nat.mod_upper_bound k 2 ltac:(lia)) as B.
  destruct (Nat.eqb_spec (k mod 2) 0) as [Ek|Ek]; cbn.
  - rewrite E, Ek, Nat.add_0_r, Nat.odd_mul. reflexivity.
  - assert (Ek' : k mod 2 = 1) by lia. rewrite E, Ek', Nat.odd_add, Nat.odd_mul. reflexivity.
Qed.
Lemma lebits_add n : forall k t, lebits n (k + 2 ^ n * t) = lebits n k.
Proof.
  induction n as [|n IH]; intros k t; [reflexivity|]. cbn [lebits]. f_equal.
  - rewrite Nat.odd_add, Nat.pow_succ_r', <- Nat.mul_assoc, Nat.odd_mul. cbn. now rewrite xorb_false_r.
  - rewrite <- (IH (k / 2) t). f_equal. rewrite Nat.pow_succ_r', <- Nat.mul_assoc, (Nat.mul_comm 2), Nat.div_add by lia. reflexivity.
Qed.
Lemma lebits_mod n k : lebits n (k mod 2 ^ n) = lebits n k.
Proof.
  assert (Hp : 2 ^ n <> 0) by (apply Nat.pow_nonzero; lia).
  rewrite (Nat.div_mod k (2 ^ n) Hp) at 2. rewrite Nat.add_comm. now rewrite lebits_add.
Qed.
Lemma lebits_snoc n : forall k, lebits (S n) k = lebits n k ++ [Nat.odd (k / 2 ^ n)].
Proof.
  induction n as [|n IH]; intros k; [cbn [lebits]; now rewrite Nat.div_1_r|].
  replace (lebits (S (S n)) k) with (Nat.odd k :: lebits (S n) (k / 2)) by reflexivity. rewrite IH.
  replace (k / 2 / 2 ^ n) with (k / 2 ^ (S n)) by (rewrite Nat.pow_succ_r', <- Nat.div_div by (try apply Nat.pow_nonzero; lia); reflexivity).
  reflexivity.
Qed.
Lemma lebits_inj n : forall j k, j < 2 ^ n -> k < 2 ^ n -> lebits n j = lebits n k -> j = k.
Proof.
  induction n as [|n IH]; intros j k Hj Hk E; [cbn in *; lia|]. change (Nat.odd j :: lebits n (j / 2) = Nat.odd k :: lebits n (k / 2)) in E. assert (E1 : Nat.odd j = Nat.odd k) by congruence. assert (E2 : lebits n (j / 2) = lebits n (k / 2)) by congruence.
  rewrite Nat.pow_succ_r' in Hj, Hk. apply IH in E2; [|apply Nat.div_lt_upper_bound; lia..].
  rewrite !odd_mod2 in E1. pose proof (Nat.div_mod j 2 ltac:(lia)). pose proof (Nat.div_mod k 2 ltac:(lia)).
  pose proof (Nat.mod_upper_bound j 2 ltac:(lia)). pose proof (Nat.mod_upper_bound k 2 ltac:(lia)).
  destruct (Nat.eqb_spec (j mod 2) 0), (Nat.eqb_spec (k mod 2) 0); cbn in E1; try discriminate; lia.
Qed.

Lemma map_seq_add {A} (f : nat -> A) a n : map f (seq a n) = map (fun i => f (a + i)) (seq 0 n).
Proof. revert a; induction n as [|n IH]; intros a; [reflexivity|]. cbn. rewrite Nat.add_0_r. f_equal. rewrite (IH (S a)). rewrite <- (seq_shift n 0), map_map. apply map_ext. intros i. f_equal. lia. Qed.
Lemma outcomes_lebits n : outcome_tuples n = map (fun k => rev (lebits n k)) (seq 0 (2 ^ n)).
Proof.
  induction n as [|n IH]; [reflexivity|]. cbn [outcome_tuples]. rewrite IH, !map_map, Nat.pow_succ_r'.
  replace (2 * 2 ^ n) with (2 ^ n + 2 ^ n) by lia. rewrite seq_app, map_app. cbn [Nat.add]. f_equal.
  - apply map_ext_in. intros k Hk. apply in_seq in Hk. rewrite lebits_snoc, rev_app_distr. rewrite Nat.div_small by lia. reflexivity.
  - rewrite (map_seq_add _ (2 ^ n)). apply map_ext_in. intros k Hk. apply in_seq in Hk. rewrite lebits_snoc, rev_app_distr.
    replace (2 ^ n + k) with (k + 2 ^ n * 1) by lia. rewrite lebits_add. replace (k + 2 ^ n * 1) with (k + 1 * 2 ^ n) by lia.
    rewrite Nat.div_add by (apply Nat.pow_nonzero; lia). rewrite Nat.div_small by lia. reflexivity.
Qed.
Lemma length_outcomes n : length (outcome_tuples n) = 2 ^ n.
Proof. rewrite outcomes_lebits, map_length, seq_length. reflexivity. Qed.
Lemma keys_outcomes n : 1 <= n -> count_keys n = map (fun k => key_of (lebits n k)) (seq 0 (2 ^ n)).
Proof.
  intros Hn. rewrite count_keys_all_bits by assumption. unfold key_of. rewrite <- (map_map (fun k => rev (lebits n k)) (map (fun b : bool => if b then "1"%char else "0"%char))).
  rewrite <- outcomes_lebits. clear Hn. induction n as [|n IH]; [reflexivity|]. cbn [outcome_tuples all_bits]. rewrite map_app, !map_map. rewrite IH, !map_map. reflexivity.
Qed.

(** * Sums *)
Section Sums.
Context {F : Type} {HF : Fld F}.
Add Field FldFieldTT : fth.
Local Open Scope fld_scope.
Lemma fsum_divmod (f : nat -> nat -> F) a b :
  fsum (map (fun k => f (k mod a)%nat (k / a)%nat) (seq 0 (a * b))) = fsum (map (fun j => fsum (map (fun i => f i j) (seq 0 a))) (seq 0 b)).
Proof.
  destruct (Nat.eq_dec a 0) as [->|Ha]; [cbn; symmetry; apply fsum_map_zero'; reflexivity|].
  induction b as [|b IH]; [rewrite Nat.mul_0_r; reflexivity|].
  rewrite Nat.mul_succ_r, seq_app, map_app, fsum_app, IH. rewrite seq_S, map_app, fsum_app. cbn [map Nat.add]. rewrite fsum_cons, fsum_nil.
  rewrite (map_seq_add _ (a * b)). rewrite (fsum_map_ext _ (fun i => f i b) (seq 0 a)); [ring|]. intros i Hi. apply in_seq in Hi.
  rewrite (Nat.mul_comm a b), Nat.add_comm, Nat.mod_add, Nat.div_add by assumption. rewrite Nat.mod_small, Nat.div_small by lia. reflexivity.
Qed.
Lemma fsum_lebits n : forall f : bits -> F, fsum (map (fun k => f (lebits n k)) (seq 0 (2 ^ n))) = fsum (map f (cube n)).
Proof.
  induction n as [|n IH]; intros f; [reflexivity|]. cbn [cube]. rewrite map_app, fsum_app, !map_map. rewrite Nat.pow_succ_r'.
  rewrite (fsum_map_ext _ (fun k => (fun i j => f (negb (i =? 0)%nat :: lebits n j)) (k mod 2)%nat (k / 2)%nat)).
  2:{ intros k _. cbn [lebits]. now rewrite odd_mod2. }
  rewrite (fsum_divmod (fun i j => f (negb (i =? 0)%nat :: lebits n j))). cbn [seq map].
  rewrite <- (IH (fun z => f (false :: z))), <- (IH (fun z => f (true :: z))), <- fsum_map_add. apply fsum_map_ext. intros k _. rewrite !fsum_cons, fsum_nil. cbn. ring.
Qed.
Lemma tensor_snoc (ms : list (bool -> bool -> F)) m a b x y : length a = length ms -> length b = length ms ->
  tensor (ms ++ [m]) (a ++ [x]) (b ++ [y]) = tensor ms a b * m x y.
Proof. revert a b; induction ms as [|m' ms IH]; intros [|x' a] [|y' b] Ha Hb; try discriminate; cbn [app tensor]; [ring|]. rewrite IH by (cbn in *; lia). ring. Qed.
End Sums.

(** * Products of matrices *)
Definition is_tensor (m : cmat) (ms : list (bool -> bool -> C)) : Prop :=
  let n := length ms in
  m_rows m = 2 ^ n /\ m_cols m = 2 ^ n /\ forall i j, i < 2 ^ n -> j < 2 ^ n -> m_at m i j = tensor ms (lebits n i) (lebits n j).
Lemma eye1_tensor : is_tensor eye1 [].
Proof. repeat split. Qed.
Lemma b2n_odd k : k < 2 -> Nat.b2n (Nat.odd k) = k.
Proof. destruct k as [|[|k]]; cbn; auto; lia. Qed.
Lemma b2n_odd' k : Nat.b2n (Nat.odd k) = k mod 2.
Proof. rewrite odd_mod2. pose proof (Nat.mod_upper_bound k 2 ltac:(lia)). destruct (Nat.eqb_spec (k mod 2) 0); cbn [negb Nat.b2n]; lia. Qed.
Lemma kron_low m ms b M : is_tensor m ms -> m_rows b = 2 -> m_cols b = 2 -> (forall x y, at2 b x y = M x y) -> is_tensor (kron m b) (M :: ms).
Proof.
  intros (Hr & Hc & Ha) Hr' Hc' HM. unfold is_tensor. cbn [length kron m_rows m_cols m_at]. rewrite Hr, Hc, Hr', Hc', Nat.pow_succ_r'.
  split; [lia|]. split; [lia|]. intros i j Hi Hj. rewrite Ha by (apply Nat.div_lt_upper_bound; lia). cbn [lebits tensor]. rewrite <- HM. unfold at2. rewrite !b2n_odd'.
  change (@eq C (Cmult (tensor ms (lebits (length ms) (i / 2)) (lebits (length ms) (j / 2))) (m_at b (i mod 2) (j mod 2))) (Cmult (m_at b (i mod 2) (j mod 2)) (tensor ms (lebits (length ms) (i / 2)) (lebits (length ms) (j / 2))))). apply Cmult_comm.
Qed.
Lemma kron_high m ms b M : is_tensor m ms -> m_rows b = 2 -> m_cols b = 2 -> (forall x y, at2 b x y = M x y) -> is_tensor (kron b m) (ms ++ [M]).
Proof.
  intros (Hr & Hc & Ha) Hr' Hc' HM. unfold is_tensor. rewrite app_length. cbn [length kron m_rows m_cols m_at]. rewrite Hr, Hc, Hr', Hc', Nat.add_1_r, Nat.pow_succ_r'.
  split; [lia|]. split; [lia|]. intros i j Hi Hj. assert (Hp : 2 ^ length ms <> 0) by (apply Nat.pow_nonzero; lia).
  rewrite Ha by (apply Nat.mod_upper_bound; assumption). rewrite !lebits_mod. rewrite !lebits_snoc, tensor_snoc by apply length_lebits.
  rewrite <- HM. unfold at2. rewrite !b2n_odd by (apply Nat.div_lt_upper_bound; lia).
  apply Cmult_comm.
Qed.


(** The operators of a basis, for given labels. *)
Lemma measurement_op_tensor b d : tb_meas b = Some d -> (forall l, In l (md_labels d) -> forall o, m_rows (md_matrix d l o) = 2 /\ m_cols (md_matrix d l o) = 2) ->
  forall m os, Forall (fun l => In l (md_labels d)) m -> length os = length m ->
  exists op, measurement_op (Some b) (map VStr m) (rev os) = Ok op /\ is_tensor op (map (fun lo => at2 (md_matrix d (fst lo) (snd lo))) (combine m os)).
Proof.
  intros Hb Hsh. induction m as [|l m IH]; intros [|o os] Hm Ho; try discriminate; [exists eye1; split; [reflexivity|apply eye1_tensor]|].
  inversion Hm; subst. destruct (IH os) as (op & E & T); [assumption|cbn in Ho; lia|]. unfold measurement_op in *. cbn [map rev]. 
  rewrite AccProbProofs.combine_app by (rewrite !rev_length, map_length; cbn in Ho; lia). rewrite foldM_app', E. cbn [combine foldM fst snd bind].
  unfold measurement_matrix. rewrite Hb. rewrite (proj2 (mem_In l (md_labels d))) by assumption. cbn [bind]. eexists. split; [reflexivity|]. cbn [combine map fst snd].
  destruct (Hsh l ltac:(assumption) o) as [Hr Hc]. apply kron_low; auto.
Qed.
Lemma preparation_op_tensor b d : tb_prep b = Some d -> (forall l, In l (pd_labels d) -> m_rows (pd_matrix d l) = 2 /\ m_cols (pd_matrix d l) = 2) ->
  forall p, Forall (fun l => In l (pd_labels d)) p ->
  exists op, preparation_op (map VStr p) (Some b) = Ok op /\ is_tensor op (map (fun l => at2 (pd_matrix d l)) p).
Proof.
  intros Hb Hsh. induction p as [|l p IH] using rev_ind; intros Hp; [exists eye1; split; [reflexivity|apply eye1_tensor]|].
  apply Forall_app in Hp. destruct Hp as [Hp Hl]. inversion Hl; subst. destruct (IH Hp) as (op & E & T). unfold preparation_op in *. rewrite !map_app, foldM_app', E. cbn [map foldM bind].
  unfold preparation_matrix. rewrite Hb. rewrite (proj2 (mem_In l (pd_labels d))) by assumption. cbn [bind]. eexists. split; [reflexivity|].
  destruct (Hsh l ltac:(assumption)) as [Hr Hc]. apply kron_high; auto.
Qed.
