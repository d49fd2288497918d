(** Proofs about the purity estimate, for C25. *)
From Coq Require Import QArith Lqa Permutation.
From Verif Require Import Base ResultFacts PyStr CountsModel CountsSpec CountsProofs MeasCalModel RBSeqModel RBFitModel RBFitSpec RBFitProofs.
Open Scope nat_scope.

(** ** Digits *)
Fixpoint num (m : nat) (l : list nat) : nat := match l with [] => 0 | c :: l' => c + m * num m l' end.
Lemma basis_num b : basis_index b = num 3 b.
Proof. induction b as [|c b IH]; cbn [basis_index num]; [reflexivity | rewrite IH; reflexivity]. Qed.
Lemma seq_blocks m k : flat_map (fun t => map (fun c => c + m * t) (seq 0 m)) (seq 0 k) = seq 0 (m * k).
Proof.
  induction k as [|k IH]; [rewrite Nat.mul_0_r; reflexivity|]. rewrite seq_S, flat_map_app, IH. cbn [flat_map Nat.add]. rewrite app_nil_r.
  replace (m * S k) with (m * k + m) by lia. rewrite seq_app. f_equal. cbn [Nat.add]. generalize (m * k) as a. intros a. clear.
  assert (X : forall s n, map (fun c => c + a) (seq s n) = seq (s + a) n) by (intros s n; revert s; induction n as [|n IH]; intros s; cbn [seq map]; [reflexivity | rewrite IH; reflexivity]).
  apply X.
Qed.
Lemma all_lists_num m n : map (num m) (all_lists m n) = seq 0 (m ^ n).
Proof.
  induction n as [|n IH]; [reflexivity|]. cbn [all_lists Nat.pow]. rewrite <- seq_blocks, <- IH, !flat_map_concat_map, concat_map, !map_map. f_equal. apply map_ext. intros t. rewrite map_map. reflexivity.
Qed.
Lemma all_lists_In m n l : In l (all_lists m n) <-> length l = n /\ Forall (fun c => c < m) l.
Proof.
  revert l. induction n as [|n IH]; intros l; cbn [all_lists].
  - split; [intros [<-|[]]; auto | intros [H _]; destruct l; [left; reflexivity | discriminate]].
  - rewrite in_flat_map. split.
    + intros (t & Ht & H). apply in_map_iff in H as (c & <- & Hc). apply in_seq in Hc. apply IH in Ht as [H1 H2]. cbn. split; [lia | constructor; [lia | exact H2]].
    + intros [H1 H2]. destruct l as [|c t]; [discriminate|]. inversion H2; subst. exists t. split; [apply IH; cbn in H1; auto | apply in_map_iff; exists c; split; [reflexivity | apply in_seq; lia]].
Qed.
Fixpoint support (p : list nat) : nat := match p with [] => 0 | c :: p' => (if c =? 0 then 0 else 1) + 2 * support p' end.
Lemma support_lt p : support p < 2 ^ length p.
Proof. induction p as [|c p IH]; cbn [support length Nat.pow]; [lia|]. destruct (c =? 0); lia. Qed.

Lemma F234_iff n : forall a b p, a < 2 ^ n -> length b = n -> Forall (fun c => c < 3) b -> length p = n -> Forall (fun c => c < 4) p ->
  (F234 n a (num 3 b) = num 4 p <-> measures b p = true /\ a = support p).
Proof.
  induction n as [|n IH]; intros a b p Ha Lb Hb Lp Hp.
  - destruct b; [|discriminate]. destruct p; [|discriminate]. cbn in *. split; [intros _; split; [reflexivity | lia] | reflexivity].
  - destruct b as [|x b]; [discriminate|]. destruct p as [|c p]; [discriminate|]. inversion Hb as [|? ? Hx Hb']; subst. inversion Hp as [|? ? Hc Hp']; subst. cbn [F234 num measures support].
    replace ((x + 3 * num 3 b) mod 3) with x by (rewrite Nat.mul_comm, Nat.mod_add by lia; symmetry; apply Nat.mod_small; lia).
    replace ((x + 3 * num 3 b) / 3) with (num 3 b) by (rewrite Nat.mul_comm, Nat.div_add by lia; rewrite (Nat.div_small x 3) by lia; lia).
    assert (Ha' : a / 2 < 2 ^ n) by (apply Nat.div_lt_upper_bound; cbn in Ha; lia).
    specialize (IH (a / 2) b p Ha' (eq_add_S _ _ Lb) Hb' (eq_add_S _ _ Lp) Hp').
    pose proof (Nat.div_mod a 2 (ltac:(lia))) as Ea. assert (Hm : a mod 2 < 2) by (apply Nat.mod_upper_bound; lia).
    assert (HL : LUT (a mod 2) x < 4).
    { clear - Hm Hx. unfold LUT. destruct (a mod 2) as [|[|]]; [| |lia]; destruct x as [|[|[|]]]; cbn; lia. }
    assert (Hlut : LUT (a mod 2) x = c <-> (c = 0 \/ c = pauli_of_basis x) /\ a mod 2 = if c =? 0 then 0 else 1).
    { clear - Hm Hx Hc. unfold LUT. destruct (a mod 2) as [|[|]]; [| |lia]; destruct x as [|[|[|]]]; try lia; destruct c as [|[|[|[|]]]]; cbn; try lia; intuition (try lia; try discriminate). }
    assert (Hcb : ((c =? 0) || (c =? pauli_of_basis x)) = true <-> c = 0 \/ c = pauli_of_basis x) by (rewrite Bool.orb_true_iff, !Nat.eqb_eq; reflexivity).
    rewrite Bool.andb_true_iff, Hcb. split.
    + intros E. assert (E1 : LUT (a mod 2) x = c) by lia. assert (E2 : F234 n (a / 2) (num 3 b) = num 4 p) by lia. apply Hlut in E1 as [E1 E1']. apply IH in E2 as [E2 E2']. split; [auto | lia].
    + intros [[E1 E2] E3]. assert (Hs : a / 2 = support p /\ a mod 2 = (if c =? 0 then 0 else 1)) by (destruct (c =? 0); lia).
      rewrite (proj2 Hlut (conj E1 (proj2 Hs))). rewrite (proj2 IH (conj E2 (proj1 Hs))). reflexivity.
Qed.

(** ** The accumulated vectors *)
Lemma vec_add_nth v i x k d : k < length v ->
  nth k (vec_add v i x) d = if k =? i then ((fst (nth k v d) + x)%Q, S (snd (nth k v d))) else nth k v d.
Proof.
  unfold vec_add. intros Hk. rewrite (nth_indep _ d (let p := (0, d) in if fst p =? i then ((fst (snd p) + x)%Q, S (snd (snd p))) else snd p)) by (rewrite map_length, combine_length, seq_length; lia).
  rewrite map_nth with (f := fun p : nat * (Q * nat) => if fst p =? i then ((fst (snd p) + x)%Q, S (snd (snd p))) else snd p). rewrite combine_nth by apply seq_length. cbn [fst snd]. rewrite seq_nth by exact Hk. reflexivity.
Qed.
Lemma vec_add_length v i x : length (vec_add v i x) = length v.
Proof. unfold vec_add. rewrite map_length, combine_length, seq_length. lia. Qed.
Lemma vec_fold {A} (ix : A -> nat) (xv : A -> Q) l : forall v k d, k < length v ->
  let w := fold_left (fun v a => vec_add v (ix a) (xv a)) l v in
  length w = length v /\ (fst (nth k w d) == fst (nth k v d) + qsum (map xv (filter (fun a => ix a =? k) l)))%Q /\
  snd (nth k w d) = snd (nth k v d) + length (filter (fun a => ix a =? k) l).
Proof.
  induction l as [|a l IH]; intros v k d Hk w; subst w; cbn [fold_left filter map].
  - unfold qsum. cbn. split; [reflexivity|]. split; [lra | lia].
  - destruct (IH (vec_add v (ix a) (xv a)) k d) as (I1 & I2 & I3); [rewrite vec_add_length; exact Hk|]. split; [rewrite I1; apply vec_add_length|].
    rewrite I2, I3, vec_add_nth by exact Hk. rewrite Nat.eqb_sym. destruct (ix a =? k); cbn [fst snd map filter length]; unfold qsum; cbn [fold_right]; (split; [lra | lia]).
Qed.

Lemma filter_prod {A B} (f : A * B -> bool) (la : list A) (lb : list B) :
  filter f (list_prod la lb) = flat_map (fun a => map (pair a) (filter (fun b => f (a, b)) lb)) la.
Proof.
  induction la as [|a la IH]; [reflexivity|]. cbn [list_prod flat_map]. rewrite filter_app, IH. f_equal. clear. induction lb as [|b lb IH]; [reflexivity|]. cbn [map filter]. rewrite IH. destruct (f (a, b)); reflexivity.
Qed.
Lemma filter_nil {A} (P : A -> bool) l : (forall y, In y l -> P y = false) -> filter P l = [].
Proof. induction l as [|a l IH]; intros H; [reflexivity|]. cbn [filter]. rewrite (H a (or_introl eq_refl)). apply IH. intros y Hy. apply H. right. exact Hy. Qed.
Lemma filter_one (l : list nat) (P : nat -> bool) x : NoDup l -> In x l -> (forall y, In y l -> P y = true <-> y = x) -> filter P l = [x].
Proof.
  intros Hn Hi HP. induction l as [|a l IH]; [destruct Hi|]. inversion Hn as [|? ? Hna Hn']; subst. cbn [filter]. destruct Hi as [->|Hi].
  - rewrite (proj2 (HP x (or_introl eq_refl)) eq_refl). f_equal. apply filter_nil. intros y Hy. destruct (P y) eqn:E; [|reflexivity]. apply HP in E; [subst; contradiction | right; exact Hy].
  - destruct (P a) eqn:E; [apply HP in E; [subst; contradiction | left; reflexivity]|]. apply IH; auto. intros y Hy. apply HP. right. exact Hy.
Qed.
Lemma flat_map_filter {A B} (f : A -> B) (P : A -> bool) l : flat_map (fun a => if P a then [f a] else []) l = map f (filter P l).
Proof. induction l as [|a l IH]; [reflexivity|]. cbn [flat_map filter]. rewrite IH. destruct (P a); reflexivity. Qed.
Lemma contributions n p : In p (all_lists 4 n) ->
  filter (fun a => F234 n (snd a) (fst a) =? num 4 p) (list_prod (seq 0 (3 ^ n)) (seq 0 (2 ^ n))) =
  map (fun b => (num 3 b, support p)) (filter (fun b => measures b p) (all_lists 3 n)).
Proof.
  intros Hp. apply all_lists_In in Hp as [Lp Fp]. rewrite filter_prod, <- (all_lists_num 3), <- flat_map_filter. rewrite !flat_map_concat_map, map_map. f_equal. apply map_ext_in. intros b Hb. apply all_lists_In in Hb as [Lb Fb]. cbn [fst snd]. destruct (measures b p) eqn:M.
  - rewrite (filter_one _ _ (support p)); [reflexivity | apply seq_NoDup | apply in_seq; pose proof (support_lt p); rewrite Lp in *; lia|].
    intros y Hy. apply in_seq in Hy. rewrite Nat.eqb_eq, F234_iff by (auto; lia). tauto.
  - replace (filter _ _) with (@nil nat); [reflexivity|]. symmetry. apply filter_nil. intros y Hy. apply in_seq in Hy. apply Nat.eqb_neq. intros E. apply F234_iff in E as [E _]; auto; [congruence | lia].
Qed.

Lemma mapM_nth {A B} (f : A -> result B) l m : mapM f l = Ok m -> length m = length l /\ forall k a, nth_error l k = Some a -> exists b, nth_error m k = Some b /\ f a = Ok b.
Proof.
  intros H. apply mapM_inv in H. split; [symmetry; apply (Forall2_length' _ _ _ H)|]. induction H as [|a b l m Hab H IH]; intros [|k] a' E; try discriminate; cbn in *; [injection E as <-; eauto | apply IH, E].
Qed.
Lemma qsum_ext (l m : list Q) : Forall2 Qeq l m -> (qsum l == qsum m)%Q.
Proof. unfold qsum. induction 1 as [|a b l m Hab H IH]; cbn; [lra | rewrite Hab, IH; lra]. Qed.
Lemma Forall2_map_in {A} (f g : A -> Q) l : (forall a, In a l -> f a == g a)%Q -> Forall2 Qeq (map f l) (map g l).
Proof. induction l as [|a l IH]; intros H; cbn; constructor; [apply H; left; reflexivity | apply IH; intros b Hb; apply H; right; exact Hb]. Qed.

Lemma purity_of_spec n corr v : purity_of n (3 ^ n) corr = Ok v ->
  (v == purity_spec n (fun b p => corr (num 3 b) (support p)))%Q.
Proof.
  unfold purity_of. cbn zeta. intros H. inv_bind H. injection H as <-. rename v0 into sq. unfold purity_spec. apply Qmult_comp; [|reflexivity].
  set (l := list_prod (seq 0 (3 ^ n)) (seq 0 (2 ^ n))) in *.
  set (w := fold_left (fun v p => vec_add v (F234 n (snd p) (fst p)) (corr (fst p) (snd p))) l (repeat (0%Q, 0) (4 ^ n))) in *.
  destruct (mapM_nth _ _ _ E) as [Lsq Nsq]. apply qsum_ext.
  assert (Lw : length w = 4 ^ n).
  { unfold w. assert (X : forall l v, length (fold_left (fun v p => vec_add v (F234 n (snd p) (fst p)) (corr (fst p) (snd p))) l v) = length v) by (clear; induction l as [|a l IH]; intros v; cbn [fold_left]; [reflexivity | rewrite IH; apply vec_add_length]). rewrite X. apply repeat_length. }
  assert (Lall : length (all_lists 4 n) = 4 ^ n) by (rewrite <- (map_length (num 4)), all_lists_num; apply seq_length).
  assert (Hk : forall k, k < 4 ^ n -> exists p x, nth_error (all_lists 4 n) k = Some p /\ nth_error sq k = Some x /\ (x == pauli_mean n (fun b p => corr (num 3 b) (support p)) p * pauli_mean n (fun b p => corr (num 3 b) (support p)) p)%Q).
  { intros k Hk. destruct (nth_error_lt (all_lists 4 n) k) as (p & Ep); [lia|]. destruct (nth_error_lt w k) as (e & Ee); [lia|]. destruct (Nsq k e Ee) as (x & Ex & Ev). exists p, x. split; [exact Ep|]. split; [exact Ex|].
    assert (Np : num 4 p = k).
    { assert (X : nth_error (map (num 4) (all_lists 4 n)) k = Some (num 4 p)) by (rewrite nth_error_map, Ep; reflexivity). rewrite all_lists_num in X. apply nth_error_nth with (d := 0) in X. rewrite seq_nth in X by exact Hk. symmetry. exact X. }
    destruct (vec_fold (fun p => F234 n (snd p) (fst p)) (fun p => corr (fst p) (snd p)) l (repeat (0%Q, 0) (4 ^ n)) k (0%Q, 0)) as (_ & V1 & V2); [rewrite repeat_length; exact Hk|].
    fold w in V1, V2. rewrite (nth_error_nth _ _ _ Ee) in V1, V2. rewrite nth_repeat in V1, V2. cbn [fst snd Nat.add] in V1, V2.
    assert (C : filter (fun a => F234 n (snd a) (fst a) =? k) l = map (fun b => (num 3 b, support p)) (filter (fun b => measures b p) (all_lists 3 n))) by (rewrite <- Np; apply contributions; eapply nth_error_In, Ep).
    rewrite C in V1, V2. rewrite map_map in V1. rewrite map_length in V2. cbn [fst snd] in V1. unfold pauli_mean, qmean. rewrite map_length, <- V2.
    destruct (snd e =? 0); [discriminate|]. injection Ev as <-. unfold qsum in V1. rewrite Qplus_0_l in V1. rewrite V1. reflexivity. }
  clear - Hk Lsq Lw Lall. assert (L : length sq = length (all_lists 4 n)) by lia. rewrite <- Lall in Hk. clear Lsq Lw Lall. revert sq L Hk. generalize (all_lists 4 n). generalize (fun b p => corr (num 3 b) (support p)). intros co ps.
  induction ps as [|p ps IH]; intros [|x sq] L Hk; try discriminate; cbn [map]; [constructor|]. constructor.
  - destruct (Hk 0) as (p' & x' & E1 & E2 & E3); [cbn; lia|]. cbn in E1, E2. injection E1 as <-. injection E2 as <-. exact E3.
  - apply IH; [cbn in L; lia|]. intros k Hl. destruct (Hk (S k)) as (p' & x' & E1 & E2 & E3); [cbn; lia|]. eauto.
Qed.
(** Every Pauli string is measured by 3^(number of identities) bases; so the
    estimate is always defined. *)
Lemma measured_count n p : In p (all_lists 4 n) -> length (filter (fun b => measures b p) (all_lists 3 n)) = 3 ^ count_occ Nat.eq_dec p 0.
Proof.
  revert p. induction n as [|n IH]; intros p Hp; apply all_lists_In in Hp as [Lp Fp].
  - destruct p; [reflexivity | discriminate].
  - destruct p as [|c p]; [discriminate|]. inversion Fp as [|? ? Hc Fp']; subst. assert (Hp : In p (all_lists 4 n)) by (apply all_lists_In; cbn in Lp; auto). specialize (IH p Hp). cbn [all_lists].
    assert (X : forall ts, length (filter (fun b => measures b (c :: p)) (flat_map (fun t => map (fun x => x :: t) (seq 0 3)) ts)) = (if c =? 0 then 3 else 1) * length (filter (fun b => measures b p) ts)).
    { clear - Hc. induction ts as [|t ts IH]; cbn [flat_map]; [cbn; lia|]. rewrite filter_app, app_length, IH. cbn [filter]. clear IH. destruct c as [|[|[|[|]]]]; try lia; cbn [seq map filter measures Nat.eqb pauli_of_basis orb andb]; destruct (measures t p); cbn [length]; lia. }
    rewrite X, IH. destruct c as [|c]; cbn [Nat.eqb count_occ]; destruct (Nat.eq_dec _ 0); try lia; cbn [Nat.pow]; lia.
Qed.

(** ** Correlators *)
Lemma count1_snoc s c : count1 (s ++ [c]) = count1 s + (if eqb ch1 c then 1 else 0).
Proof. unfold count1. rewrite filter_app, app_length. cbn [filter]. destruct (eqb ch1 c); reflexivity. Qed.
Lemma popcount_step (b : bool) m : popcount (Nat.b2n b + 2 * m) = Nat.b2n b + popcount m.
Proof.
  unfold popcount. destruct m as [|m].
  - destruct b; reflexivity.
  - assert (E : N.of_nat (S m) = N.pos (Pos.of_succ_nat m)) by reflexivity. destruct b; cbn [Nat.b2n].
    + replace (N.of_nat (1 + 2 * S m)) with (N.pos (Pos.of_succ_nat m)~1) by lia. rewrite E. cbn [bin_str pos_bin]. rewrite count1_snoc. change (eqb ch1 ch1) with true. cbn iota. lia.
    + replace (N.of_nat (0 + 2 * S m)) with (N.pos (Pos.of_succ_nat m)~0) by lia. rewrite E. cbn [bin_str pos_bin]. rewrite count1_snoc. change (eqb ch1 ch0) with false. cbn iota. lia.
Qed.
Lemma land_step (b1 b2 : bool) m1 m2 : Nat.land (Nat.b2n b1 + 2 * m1) (Nat.b2n b2 + 2 * m2) = Nat.b2n (b1 && b2) + 2 * Nat.land m1 m2.
Proof.
  apply Nat.bits_inj. intros k. rewrite Nat.land_spec. destruct k as [|k].
  - rewrite !Nat.add_b2n_double_bit0. reflexivity.
  - assert (X : forall b m, Nat.testbit (Nat.b2n b + 2 * m) (S k) = Nat.testbit m k) by (intros b m; rewrite Nat.add_comm; apply Nat.testbit_succ_r).
    rewrite !X, Nat.land_spec. reflexivity.
Qed.
Lemma positions_popcount p : forall r pre, length p = length r -> is_bits r ->
  popcount (Nat.land (support p) (binary_value 0 (rev r))) = length (filter (fun q => eqb (nth q (pre ++ r) "?"%char) "1"%char) (positions (length pre) p)).
Proof.
  induction p as [|c p IH]; intros [|x r] pre L Hb; try discriminate; [reflexivity|]. apply is_bits_cons in Hb as [Hx Hb]. cbn [rev support positions]. rewrite binary_value_app. cbn [binary_value].
  specialize (IH r (pre ++ [x]) (eq_add_S _ _ L) Hb). rewrite <- app_assoc in IH. cbn [app] in IH. rewrite app_length in IH. cbn [length] in IH. rewrite Nat.add_1_r in IH.
  rewrite filter_app, app_length, <- IH.
  replace (if c =? 0 then 0 else 1) with (Nat.b2n (negb (c =? 0))) by (destruct (c =? 0); reflexivity).
  replace (2 * binary_value 0 (rev r) + (if Ascii.eqb x "1" then 1 else 0)) with (Nat.b2n (Ascii.eqb x "1") + 2 * binary_value 0 (rev r)) by (destruct (Ascii.eqb x "1"); cbn; lia).
  rewrite land_step, popcount_step. f_equal. destruct (c =? 0); [reflexivity|]. cbn [negb andb filter]. rewrite app_nth2, Nat.sub_diag by lia. cbn [nth]. destruct Hx as [-> | ->]; reflexivity.
Qed.
Lemma zdict_get n p k : 1 <= n -> length p = n -> length k = n -> is_bits k ->
  dget (zdict_op n (support p)) k = Some (if Nat.even (ones_on (positions 0 p) k) then 1 else -1)%Z.
Proof.
  intros Hn Lp Lk Hk. apply dget_In_NoDup.
  - unfold zdict_op, dkeys. rewrite map_map. cbn [fst]. change (NoDup (count_keys n)). rewrite count_keys_all_bits by exact Hn. apply all_bits_NoDup.
  - unfold zdict_op. apply in_map_iff. exists (binary_value 0 k). split.
    + f_equal.
      * rewrite <- Lk. apply zfill_bin_value; [exact Hk | destruct k; cbn in Lk; [lia | discriminate]].
      * unfold ones_on, qubit_bit. rewrite <- (rev_involutive k) at 1. rewrite (positions_popcount p (rev k) []); [reflexivity | rewrite rev_length; congruence | apply is_bits_rev, Hk].
    + apply in_seq. pose proof (binary_value_lt k). rewrite Lk in *. lia.
Qed.
Lemma average_data_spec n p c : 1 <= n -> length p = n -> (forall k v, In (k, v) c -> length k = n /\ is_bits k) ->
  (average_data c (zdict_op n (support p)) == inject_Z (parity_spec c (positions 0 p)) / inject_Z (total c))%Q.
Proof.
  intros Hn Lp Hc. unfold average_data. change (zsum (dvals c)) with (total c). generalize (total c) as t. intros t. revert Hc. unfold parity_spec. induction c as [|[k v] c IH]; intros Hc; cbn [map fold_right zsum fst snd].
  - unfold Qdiv. rewrite Qmult_0_l. reflexivity.
  - rewrite IH by (intros k' v' H; apply (Hc k' v'); right; exact H). destruct (Hc k v (or_introl eq_refl)) as [Lk Hk]. rewrite zdict_get by assumption. rewrite inject_Z_plus. unfold Qdiv. rewrite Qmult_plus_distr_l.
    apply Qplus_comp; [|reflexivity]. apply Qmult_comp; [|reflexivity]. destruct (Nat.even _); f_equiv; f_equal; lia.
Qed.
Lemma parity_wsum c qs : parity_spec c qs = (wsum (fun k => Nat.even (ones_on qs k)) c - wsum (fun k => negb (Nat.even (ones_on qs k))) c)%Z.
Proof. unfold parity_spec, wsum. induction c as [|[k v] c IH]; cbn [map zsum fst snd]; [reflexivity|]. rewrite IH. destruct (Nat.even _); cbn [negb]; lia. Qed.
Lemma parity_build l qs : parity_spec (build_counts l) qs = zsum (map (fun c => parity_spec c qs) l).
Proof.
  rewrite parity_wsum, !wsum_build. unfold shots_with. induction l as [|c l IH]; cbn [map zsum]; [reflexivity|]. rewrite <- IH. rewrite parity_wsum. unfold wsum. lia.
Qed.
Lemma positions_shift start p : positions start p = map (fun q => start + q) (positions 0 p).
Proof.
  assert (X : forall s, positions (start + s) p = map (fun q => start + q) (positions s p)).
  { induction p as [|c p IH]; intros s; cbn [positions]; [reflexivity|]. rewrite map_app, <- IH, <- Nat.add_succ_r. destruct (c =? 0); reflexivity. }
  rewrite <- X, Nat.add_0_r. reflexivity.
Qed.
Lemma positions_lt p : forall s q, In q (positions s p) -> s <= q < s + length p.
Proof. induction p as [|c p IH]; intros s q Hq; cbn [positions length] in *; [destruct Hq|]. apply in_app_or in Hq as [Hq|Hq]; [destruct (c =? 0); [destruct Hq | destruct Hq as [<-|[]]; lia] | apply IH in Hq; lia]. Qed.
Lemma ones_on_outcome start p s : ones_on (positions 0 p) (outcome_on (seq start (length p)) s) = ones_on (positions start p) s.
Proof.
  unfold ones_on. rewrite (positions_shift start p). assert (H : forall q, In q (positions 0 p) -> q < length p) by (intros q Hq; apply positions_lt in Hq; lia). revert H. generalize (positions 0 p) as l. induction l as [|q l IH]; intros H; [reflexivity|]. cbn [map filter].
  rewrite qubit_bit_outcome by (rewrite seq_length; apply H; left; reflexivity). rewrite seq_nth by (apply H; left; reflexivity). specialize (IH (fun x Hx => H x (or_intror Hx))). destruct (eqb (qubit_bit s (start + q)) "1"%char); cbn [length]; rewrite IH; reflexivity.
Qed.
Lemma parity_marginal n c start p sub : valid_counts n c -> (forall k v, In (k, v) c -> strip k = k) -> p <> [] -> start + length p <= n ->
  marginal_counts c (Some (seq start (length p))) false = Ok sub ->
  parity_spec sub (positions 0 p) = parity_spec c (positions start p) /\ total sub = total c /\ (forall k v, In (k, v) sub -> length k = length p /\ is_bits k).
Proof.
  intros Hv Hsp Hp Hn E. destruct (marginal_counts_exact_lemma n c (seq start (length p)) (seq start (length p)) false Hv) as (r & Er & Hg & Ht & Hnd & Hk & _).
  - split; [apply CountsProofs.seq_sorted | apply Permutation_refl].
  - intros q Hq. apply in_seq in Hq. lia.
  - destruct p; [contradiction | discriminate].
  - rewrite Er in E. injection E as <-. rewrite seq_length in Hk. split; [|split; [exact Ht|]].
    + unfold parity_spec. set (f := fun k => (if Nat.even (ones_on (positions 0 p) k) then 1 else -1)%Z).
      transitivity (zsum (map (fun kv => f (fst kv) * snd kv)%Z r)); [apply zsum_map_ext; intros [k v] _; unfold f; cbn [fst snd]; destruct (Nat.even _); lia|].
      rewrite (sum_over_dict r (length p) f Hnd Hk).
      rewrite (zsum_map_ext _ (fun k => zsum (map (fun kv => if eqb (outcome_on (seq start (length p)) (strip (fst kv))) k then f k * snd kv else 0)%Z c))).
      * rewrite zsum_swap. apply zsum_map_ext. intros [k v] Hkv. cbn [fst snd]. destruct Hv as (_ & _ & Hv). destruct (Hv k v Hkv) as [Hl Hb].
        rewrite (zsum_pick (all_bits (length p)) (outcome_on (seq start (length p)) (strip k)) (fun z => f z * v)%Z).
        -- unfold f. rewrite ones_on_outcome, (Hsp k v Hkv). destruct (Nat.even _); lia.
        -- apply all_bits_NoDup.
        -- apply all_bits_In. split; [rewrite outcome_on_length; apply seq_length|]. apply outcome_on_bits; [exact Hb|]. intros q Hq. apply in_seq in Hq. lia.
      * intros k _. rewrite Hg. unfold marginal_spec. rewrite <- zsum_map_mul. apply zsum_map_ext. intros [k' v'] _. cbn [fst snd]. destruct (eqb _ k); lia.
    + intros k v Hi. apply Hk. apply in_map_iff. exists (k, v). auto.
Qed.

(** ** The raw data *)
Lemma type_index_inv {A} (l : list A) k v : index_e l k = Ok v -> nth_error l k = Some v.
Proof. unfold index_e. destruct (nth_error l k); congruence. Qed.
Lemma collect_inv f np ty d : (forall i, i < length (f_seeds f) * np -> exists r e, nth_error (f_results f) i = Some r /\ nth_error r 0 = Some e /\ before (str "_length") (e_name e) = ty (i mod np)) ->
  collect_purity f np = Ok d -> forall pur k seed c, dget d (pur, k, seed) = Some c -> c = build_counts (count_list (f_results f) (ty pur ++ len_seed k seed)).
Proof.
  intros Ht H. unfold collect_purity in H. inv_bind H. rename v into l0. inv_bind H. rename v into st. injection H as <-.
  assert (X : forall L i0 d0 st, (forall j sp, nth_error L j = Some sp -> snd sp = (i0 + j) mod np) -> i0 + length L <= length (f_seeds f) * np ->
    (forall pur k seed c, dget d0 (pur, k, seed) = Some c -> c = build_counts (count_list (f_results f) (ty pur ++ len_seed k seed))) ->
    foldM (fun (st : nat * dict (nat * nat * Z) counts) (sp : Z * nat) =>
      let (seed, pur) := sp in
      do r <- index_e (f_results f) (fst st);
      do e <- index_e r 0;
      let name_type := before (str "_length") (e_name e) in
      Ok (S (fst st), fold_left (fun d k => dset d (pur, k, seed) (build_counts (count_list (f_results f) (name_type ++ len_seed k seed)))) (seq 0 (length l0)) (snd st))) L (i0, d0) = Ok st ->
    forall pur k seed c, dget (snd st) (pur, k, seed) = Some c -> c = build_counts (count_list (f_results f) (ty pur ++ len_seed k seed))).
  { clear E0 st. induction L as [|[seed pur] L IH]; intros i0 d0 st HL Hlen Hd Hs; cbn [foldM] in Hs; [injection Hs as <-; exact Hd|].
    inv_bind Hs. rename v into st1. inv_bind E0. rename v into r. inv_bind E0. rename v into e. injection E0 as <-. cbn [fst snd] in *. revert Hs. apply IH.
    - intros j sp Hj. rewrite (HL (S j) sp Hj). f_equal. lia.
    - cbn [length] in Hlen. lia.
    - assert (Ep : pur = i0 mod np) by (rewrite <- (Nat.add_0_r i0); exact (HL 0 (seed, pur) eq_refl)).
      destruct (Ht i0) as (r' & e' & E3 & E4 & E5); [cbn [length] in Hlen; lia|]. apply type_index_inv in E1, E2. assert (r' = r) by congruence. subst r'. assert (e' = e) by congruence. subst e'. change (before _ (e_name e)) with (before (str "_length") (e_name e)). rewrite E5, <- Ep.
      revert Hd. generalize d0. generalize (seq 0 (length l0)). clear. induction l as [|k l IH]; intros d Hd; cbn [fold_left]; [exact Hd|]. apply IH. intros pur' k' seed' c. rewrite dget_dset. destruct (eqb_spec (pur', k', seed') (pur, k, seed)) as [Eq|]; [|apply Hd]. injection Eq as -> -> ->. congruence. }
  revert E0. apply X.
  - assert (Hp : forall j sp, nth_error (list_prod (f_seeds f) (seq 0 np)) j = Some sp -> snd sp = j mod np).
    { clear. induction (f_seeds f) as [|s sds IH]; intros j sp Hj; cbn [list_prod] in Hj; [destruct j; discriminate|]. destruct (Nat.lt_ge_cases j np) as [Hl|Hl].
      - rewrite nth_error_app1 in Hj by (rewrite map_length, seq_length; exact Hl). rewrite nth_error_map in Hj. rewrite nth_error_nth' with (d := 0) in Hj by (rewrite seq_length; exact Hl). rewrite seq_nth in Hj by exact Hl. injection Hj as <-. cbn. rewrite Nat.mod_small by exact Hl. reflexivity.
      - rewrite nth_error_app2 in Hj by (rewrite map_length, seq_length; exact Hl). rewrite map_length, seq_length in Hj. rewrite (IH _ _ Hj). destruct np; [rewrite Nat.sub_0_r; reflexivity|]. rewrite <- (Nat.mod_add (j - S np) 1 (S np)) by lia. f_equal. lia. }
    exact Hp.
  - rewrite prod_length, seq_length. cbn. lia.
  - intros pur k seed c Hc. discriminate.
Qed.

Lemma purity_raw_entry_ok n nq rs d ty start k seed v : results_fine n rs -> 0 < nq -> start + nq <= n ->
  (forall pur k seed c, dget d (pur, k, seed) = Some c -> c = build_counts (count_list rs (ty pur ++ len_seed k seed))) ->
  purity_raw_entry d nq (3 ^ nq) start nq k seed = Ok v ->
  (v == purity_spec nq (fun b p => correlator rs (ty (basis_index b) ++ len_seed k seed) (positions start p)))%Q.
Proof.
  intros Hf Hq Hs Hd H. unfold purity_raw_entry in H. inv_bind H. rename v0 into cs. unfold purity_entry in H. apply purity_of_spec in H. rewrite H. clear H v.
  unfold purity_spec. apply Qmult_comp; [|reflexivity]. apply qsum_ext, Forall2_map_in. intros p Hp. apply all_lists_In in Hp as [Lp _].
  assert (M : (pauli_mean nq (fun b p0 => average_data (nth (num 3 b) cs []) (zdict_op nq (support p0))) p == pauli_mean nq (fun b p0 => correlator rs (ty (basis_index b) ++ len_seed k seed) (positions start p0)) p)%Q); [|rewrite M; reflexivity].
  unfold pauli_mean. apply qmean_eq, Forall2_map_in. intros b Hb. apply filter_In in Hb as [Hb _].
  assert (Hnum : num 3 b < 3 ^ nq).
  { assert (In (num 3 b) (seq 0 (3 ^ nq))) by (rewrite <- all_lists_num; apply in_map, Hb). apply in_seq in H. lia. }
  destruct (mapM_nth _ _ _ E) as [Lc Nc]. destruct (Nc (num 3 b) (num 3 b)) as (sub & Esub & Em); [rewrite nth_error_nth' with (d := 0) by (rewrite seq_length; exact Hnum); rewrite seq_nth by exact Hnum; reflexivity|].
  rewrite (nth_error_nth _ _ _ Esub). inv_bind Em. rename v into c. unfold dget_e in E0. destruct (dget d (num 3 b, k, seed)) as [c'|] eqn:Ed; [|discriminate]. injection E0 as ->. apply Hd in Ed. rewrite (count_list_recorded n) in Ed by exact Hf. subst c.
  rewrite basis_num. set (name := ty (num 3 b) ++ len_seed k seed) in *.
  assert (Hne : build_counts (recorded rs name) <> []) by (intros E0; rewrite E0 in Em; discriminate).
  assert (Hv : valid_counts n (build_counts (recorded rs name))) by (apply merged_valid; [intros c0 Hc0; eapply recorded_fine; eassumption | exact Hne]).
  assert (Hsp : forall k0 v0, In (k0, v0) (build_counts (recorded rs name)) -> strip k0 = k0).
  { intros k0 v0 Hi. destruct (build_keys (recorded rs name)) as [_ K2]; [intros c0 Hc0; eapply recorded_fine; eassumption|]. destruct (K2 k0) as (c0 & Hc0 & Hk0); [apply in_map_iff; exists (k0, v0); auto|].
    apply in_map_iff in Hk0 as ([k' w'] & E0 & Hk0). cbn in E0. subst k'. apply strip_bits. apply (proj2 (recorded_fine n _ _ _ Hf Hc0) _ _ Hk0). }
  destruct (parity_marginal n _ start p sub Hv Hsp) as (P1 & P2 & P3); [destruct p; [cbn in Lp; lia | discriminate] | lia | rewrite Lp; exact Em|].
  rewrite average_data_spec by (auto; intros k0 v0 Hi; rewrite <- Lp; apply (P3 k0 v0 Hi)). rewrite P1, P2, parity_build. unfold correlator.
  replace (total (build_counts (recorded rs name))) with (shots_with always (recorded rs name)); [reflexivity|]. rewrite <- wsum_build. reflexivity.
Qed.

Lemma purity_patterns_inv d nq np nlen seeds pats : forall start raw, purity_patterns d nq np nlen seeds pats start = Ok raw ->
  length raw = length pats /\
  forall i pat rows, nth_error pats i = Some pat -> nth_error raw i = Some rows ->
    length rows = length seeds /\
    forall j seed row, nth_error seeds j = Some seed -> nth_error rows j = Some row ->
      length row = nlen /\ forall k v, nth_error row k = Some v -> purity_raw_entry d nq np (start + start_of pats i) (length pat) k seed = Ok v.
Proof.
  induction pats as [|p pats IH]; intros start raw H; cbn [purity_patterns] in H; [injection H as <-; split; [reflexivity|]; intros [|i]; discriminate|].
  inv_bind H. rename v into here. inv_bind H. rename v into more. injection H as <-. destruct (IH _ _ E0) as [I1 I2]. split; [cbn; lia|]. intros [|i] pat rows Hi Hr; cbn [nth_error] in Hi, Hr.
  - injection Hi as <-. injection Hr as <-. destruct (mapM_nth _ _ _ E) as [L N]. split; [exact L|]. intros j seed row Hj Hrow. destruct (N j seed Hj) as (row' & E1 & E2). assert (row' = row) by congruence. subst row'.
    destruct (mapM_nth _ _ _ E2) as [L2 N2]. rewrite seq_length in L2. split; [exact L2|]. intros k v Hk. assert (Hl : k < nlen) by (rewrite <- L2; apply nth_error_Some; congruence).
    destruct (N2 k k) as (v' & E3 & E4); [rewrite nth_error_nth' with (d := 0) by (rewrite seq_length; exact Hl); rewrite seq_nth by exact Hl; reflexivity|]. assert (v' = v) by congruence. subst v'. unfold start_of. cbn. rewrite Nat.add_0_r. exact E4.
  - destruct (I2 i pat rows Hi Hr) as [L N]. split; [exact L|]. intros j seed row Hj Hrow. destruct (N j seed row Hj Hrow) as [L2 N2]. split; [exact L2|]. intros k v Hk. rewrite <- (N2 k v Hk). f_equal. unfold start_of. cbn [firstn concat]. rewrite app_length. lia.
Qed.

Lemma purity_added n nq f rs f' ty : purity_add (3 ^ nq) f (Some rs) true = (f', None) -> results_fine n (f_results f') ->
  0 < nq -> Forall (fun p => length p = nq) (f_pattern f') -> length (concat (f_pattern f')) <= n ->
  types_in_order (f_results f') (length (f_seeds f')) (3 ^ nq) ty ->
  f_results f' = f_results f ++ rs /\
  exists l0, nth_error (f_lengths f') 0 = Some l0 /\
  forall i j k seed, i < length (f_pattern f') -> nth_error (f_seeds f') j = Some seed -> k < length l0 ->
    exists v, raw_at f' i j k = Some v /\
      (v == purity_spec nq (fun b p => correlator (f_results f') (ty (basis_index b) ++ len_seed k seed) (positions (start_of (f_pattern f') i) p)))%Q.
Proof.
  intros H Hf Hq Hp Hn Ht. unfold purity_add, then_ in H. destruct (add_data f (Some rs) true) as [f1 err] eqn:E. cbn [fst snd] in H. destruct err; [discriminate|]. destruct (add_data_inv _ _ _ _ E) as (A & _).
  unfold purity_recompute in H. destruct (purity_calc_data f1 (3 ^ nq)) as [raw|] eqn:Ec; [|discriminate]. injection H as <-. cbn [set_data f_results f_pattern f_lengths f_seeds f_raw] in *. split; [exact A|].
  unfold purity_calc_data in Ec. inv_bind Ec. rename v into p0. inv_bind Ec. rename v into l0. inv_bind Ec. rename v into d. apply type_index_inv in E0, E1. exists l0. split; [exact E1|].
  assert (Hp0 : length p0 = nq) by (rewrite Forall_forall in Hp; apply Hp; eapply nth_error_In, E0). rewrite Hp0 in Ec. destruct (purity_patterns_inv _ _ _ _ _ _ _ _ Ec) as [L R].
  intros i j k seed Hi Hj Hk. destruct (nth_error_lt (f_pattern f1) i Hi) as (pat & Epat). destruct (nth_error_lt raw i) as (rows & Erows); [lia|]. destruct (R i pat rows Epat Erows) as [L1 R1].
  destruct (nth_error_lt rows j) as (row & Erow); [rewrite L1; apply nth_error_Some; congruence|]. destruct (R1 j seed row Hj Erow) as [L2 R2]. destruct (nth_error_lt row k) as (v & Ev); [lia|]. exists v.
  split; [unfold raw_at; cbn [set_data f_raw]; rewrite Erows, Erow; exact Ev|].
  assert (Hpat : length pat = nq) by (rewrite Forall_forall in Hp; apply Hp; eapply nth_error_In, Epat). specialize (R2 k v Ev). rewrite Hpat in R2. cbn [Nat.add] in R2.
  apply (purity_raw_entry_ok n nq (f_results f1) d ty _ k seed v Hf Hq); [|eapply collect_inv; eassumption | exact R2].
  pose proof (start_bound _ _ _ Epat). lia.
Qed.
(** When every basis gives the same value for each Pauli string. *)
Lemma qsum_const {A} (l : list A) (x : Q) : (qsum (map (fun _ => x) l) == inject_Z (Z.of_nat (length l)) * x)%Q.
Proof. unfold qsum. induction l as [|a l IH]; cbn [map fold_right length]; [change (inject_Z (Z.of_nat 0)) with 0%Q; lra|]. rewrite IH, Nat2Z.inj_succ, <- Z.add_1_r, inject_Z_plus. change (inject_Z 1) with 1%Q. lra. Qed.
Lemma purity_consistent n corr ex : (forall b p, In b (all_lists 3 n) -> In p (all_lists 4 n) -> measures b p = true -> corr b p == ex p)%Q ->
  (purity_spec n corr == qsum (map (fun p => ex p * ex p) (all_lists 4 n)) / inject_Z (Z.of_nat (2 ^ n)))%Q.
Proof.
  intros H. unfold purity_spec. apply Qmult_comp; [|reflexivity]. apply qsum_ext, Forall2_map_in. intros p Hp. assert (M : (pauli_mean n corr p == ex p)%Q); [|rewrite M; reflexivity].
  unfold pauli_mean. set (bs := filter (fun b => measures b p) (all_lists 3 n)). assert (E : Forall2 Qeq (map (fun b => corr b p) bs) (map (fun _ => ex p) bs)).
  { apply Forall2_map_in. intros b Hb. apply filter_In in Hb as [Hb Hm]. apply H; assumption. }
  rewrite (qmean_eq _ _ E). unfold qmean. fold (qsum (map (fun _ : list nat => ex p) bs)). rewrite qsum_const, map_length. unfold bs. rewrite measured_count by exact Hp. unfold Qdiv. rewrite Qmult_comm, Qmult_assoc, (Qmult_comm (/ _)), Qmult_inv_r, Qmult_1_l; [reflexivity|].
  intros Z0. assert (0 < 3 ^ count_occ Nat.eq_dec p 0) by (apply Nat.neq_0_lt_0, Nat.pow_nonzero; lia). unfold Qeq in Z0. cbn in Z0. lia.
Qed.
