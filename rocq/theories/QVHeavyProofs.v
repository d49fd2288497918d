(** Proofs about heavy outputs. *)
From Coq Require Import QArith Lqa Sorting.Sorted Sorting.Permutation SetoidList.
From Verif Require Import Base ResultFacts PyStr CountsModel CountsSpec CountsProofs MeasCalModel QVModel QVSpec.
Open Scope nat_scope.

(** ** Sorting and the median *)
Lemma qinsert_perm x l : Permutation (x :: l) (qinsert x l).
Proof.
  induction l as [|a l IH]; cbn [qinsert]; auto. destruct (Qle_bool x a); auto.
  eapply perm_trans; [apply perm_swap|]. constructor. exact IH.
Qed.
Lemma qsort_perm l : Permutation l (qsort l).
Proof.
  induction l as [|a l IH]; cbn [qsort fold_right]; auto. eapply perm_trans; [apply perm_skip, IH | apply qinsert_perm].
Qed.
Lemma qinsert_sorted x l : Sorted Qle l -> Sorted Qle (qinsert x l).
Proof.
  induction l as [|a l IH]; intros H; cbn [qinsert]; [repeat constructor|].
  destruct (Qle_bool x a) eqn:E.
  - apply Qle_bool_iff in E. constructor; auto.
  - apply Sorted_inv in H. destruct H as [H1 H2]. constructor; auto.
    assert (Hax : (a <= x)%Q) by (destruct (Qlt_le_dec x a) as [Hl|Hl]; [exfalso; apply Qlt_le_weak, Qle_bool_iff in Hl; congruence | exact Hl]).
    destruct l as [|b l]; cbn [qinsert]; [constructor; exact Hax|]. inversion H2; subst. destruct (Qle_bool x b); constructor; auto.
Qed.
Lemma qsort_sorted l : Sorted Qle (qsort l).
Proof. induction l as [|a l IH]; cbn [qsort fold_right]; [constructor | apply qinsert_sorted, IH]. Qed.

Lemma np_median_is l : is_median l (np_median l).
Proof.
  exists (qsort l). split; [apply qsort_perm|]. split; [apply qsort_sorted|].
  unfold np_median. rewrite <- (Permutation_length (qsort_perm l)). set (s := qsort l). set (n := length l).
  destruct (Nat.even n) eqn:E.
  - apply Nat.even_spec in E. destruct E as [k E]. destruct k as [|k].
    + replace n with 0 by lia. cbn. destruct s; cbn; field.
    + replace ((n - 1) / 2) with k; [replace (n / 2 - 1) with k|].
      * field.
      * replace n with (S k * 2) by lia. rewrite Nat.div_mul by lia. lia.
      * replace (n - 1) with (1 + k * 2) by lia. rewrite Nat.div_add by lia. reflexivity.
  - assert (O : Nat.odd n = true) by (unfold Nat.odd; rewrite E; reflexivity). apply Nat.odd_spec in O. destruct O as [k O].
    replace ((n - 1) / 2) with k; [replace (n / 2) with k|].
    + ring.
    + replace n with (1 + k * 2) by lia. rewrite Nat.div_add by lia. reflexivity.
    + replace (n - 1) with (k * 2) by lia. rewrite Nat.div_mul by lia. reflexivity.
Qed.

Lemma sorted_nth s : Sorted Qle s -> forall i j, i <= j < length s -> (nth i s 0 <= nth j s 0)%Q.
Proof.
  intros H. apply Sorted_StronglySorted in H; [|intros a b c; apply Qle_trans].
  induction H as [|a s H IH Ha]; cbn [length]; intros i j Hij; [lia|].
  destruct i as [|i], j as [|j]; cbn [nth]; [lra| |lia|apply IH; lia].
  rewrite Forall_forall in Ha. apply Ha, nth_In. lia.
Qed.

Lemma sorted_unique s s' : Permutation s s' -> Sorted Qle s -> Sorted Qle s' -> forall i, (nth i s 0 == nth i s' 0)%Q.
Proof.
  intros Hp Hs Hs' i.
  (* counting the values below a bound *)
  set (le x := fun y : Q => Qle_bool y x).
  assert (Hc : forall x, length (filter (le x) s) = length (filter (le x) s')).
  { intros x. clear - Hp. induction Hp; cbn [filter]; auto; repeat match goal with |- context [if ?b then _ else _] => destruct b end; cbn [length]; lia. }
  assert (Hbelow : forall t x, Sorted Qle t -> forall i, i < length t -> (nth i t 0 <= x)%Q <-> i < length (filter (le x) t)).
  { clear. intros t x Ht. pose proof (sorted_nth t Ht) as Hn. clear Ht. induction t as [|a t IH]; cbn [length]; intros i Hi; [lia|].
    assert (Hn' : forall i j, i <= j < length t -> (nth i t 0 <= nth j t 0)%Q) by (intros p q Hpq; apply (Hn (S p) (S q)); cbn [length]; lia).
    cbn [filter]. unfold le at 1. destruct (Qle_bool a x) eqn:E.
    - apply Qle_bool_iff in E. cbn [length]. destruct i as [|i]; cbn [nth]; [split; [lia | auto]|]. rewrite (IH Hn' i) by lia. lia.
    - assert (Hx : (x < a)%Q) by (destruct (Qlt_le_dec x a) as [Hl|Hl]; [exact Hl | apply Qle_bool_iff in Hl; congruence]).
      assert (Hz : length (filter (le x) t) = 0).
      { destruct (Nat.eq_dec (length t) 0) as [E0|E0]; [destruct t; [reflexivity | discriminate]|].
        destruct (length (filter (le x) t)) as [|k] eqn:E1; auto. exfalso.
        assert (H0 : (nth 0 t 0 <= x)%Q) by (apply (IH Hn'); lia).
        specialize (Hn 0 1). cbn [nth length] in Hn. assert (a <= nth 0 t 0)%Q by (apply Hn; lia). lra. }
      rewrite Hz. split; [|lia]. intros H. exfalso. assert (a <= nth i (a :: t) 0)%Q by (apply (Hn 0 i); cbn [length]; lia). lra. }
  destruct (Nat.lt_ge_cases i (length s)) as [Hi|Hi].
  - assert (Hi' : i < length s') by (rewrite <- (Permutation_length Hp); exact Hi).
    apply Qle_antisym.
    + apply (Hbelow s _ Hs i Hi). rewrite Hc. apply (Hbelow s' _ Hs' i Hi'). lra.
    + apply (Hbelow s' _ Hs' i Hi'). rewrite <- Hc. apply (Hbelow s _ Hs i Hi). lra.
  - rewrite !nth_overflow; [reflexivity | rewrite <- (Permutation_length Hp); exact Hi | exact Hi].
Qed.
Lemma median_unique l m m' : is_median l m -> is_median l m' -> (m == m')%Q.
Proof.
  intros (s & Hp & Hs & E) (s' & Hp' & Hs' & E').
  assert (Hu : forall i, (nth i s 0 == nth i s' 0)%Q) by (apply sorted_unique; auto; eapply perm_trans; [apply Permutation_sym, Hp | exact Hp']).
  rewrite !Hu in E. lra.
Qed.

(** ** Values above the median *)
Definition above (m : Q) : Q -> bool := fun p => negb (Qle_bool p m).
Lemma above_iff m p : above m p = true <-> (m < p)%Q.
Proof.
  unfold above. rewrite negb_true_iff. split; intros H.
  - destruct (Qlt_le_dec m p) as [Hl|Hl]; [exact Hl | apply Qle_bool_iff in Hl; congruence].
  - destruct (Qle_bool p m) eqn:E; auto. apply Qle_bool_iff in E. lra.
Qed.
Lemma filter_perm {A} (P : A -> bool) l l' : Permutation l l' -> Permutation (filter P l) (filter P l').
Proof.
  induction 1; cbn [filter]; auto; repeat match goal with |- context [if ?b then _ else _] => destruct b end; auto; [apply perm_swap | eapply perm_trans; eauto].
Qed.
Lemma sumq_perm l l' : Permutation l l' -> (sumq l == sumq l')%Q.
Proof. unfold sumq. induction 1; cbn [fold_right]; try lra. Qed.

Lemma filter_above_split m s k : (forall i, i < k -> i < length s -> (nth i s 0 <= m)%Q) -> length (filter (above m) s) <= length s - k.
Proof.
  revert k; induction s as [|a s IH]; intros k H; cbn [filter length]; [lia|].
  destruct k as [|k].
  - destruct (above m a); cbn [length]; specialize (IH 0); cbn in IH; rewrite Nat.sub_0_r in *; pose proof (IH (fun i Hi => ltac:(lia))); lia.
  - destruct (above m a) eqn:E.
    + apply above_iff in E. specialize (H 0). cbn [nth length] in H. assert (a <= m)%Q by (apply H; lia). lra.
    + specialize (IH k). assert (length (filter (above m) s) <= length s - k) by (apply IH; intros i Hi Hl; apply (H (S i)); cbn [length]; lia). lia.
Qed.

Lemma heavy_at_most l m : is_median l m -> 2 * length (filter (above m) l) <= length l.
Proof.
  intros (s & Hp & Hs & E). rewrite (Permutation_length (filter_perm (above m) _ _ Hp)). rewrite (Permutation_length Hp) in *.
  set (n := length s) in *. destruct (Nat.eq_dec n 0) as [E0|E0].
  { destruct s; [cbn; lia | discriminate]. }
  assert (Hk : length (filter (above m) s) <= n - (S ((n - 1) / 2))).
  { apply filter_above_split. intros i Hi Hl. pose proof (sorted_nth s Hs i ((n-1)/2)) as H1. pose proof (sorted_nth s Hs ((n-1)/2) (n/2)) as H2.
    assert ((n - 1) / 2 < n) by (apply Nat.div_lt_upper_bound; lia). assert (n / 2 < n) by (apply Nat.div_lt_upper_bound; lia).
    assert ((n-1)/2 <= n/2) by (apply Nat.div_le_mono; lia).
    assert (nth i s 0 <= nth ((n-1)/2) s 0)%Q by (apply H1; unfold n in *; lia).
    assert (nth ((n-1)/2) s 0 <= nth (n/2) s 0)%Q by (apply H2; unfold n in *; lia). lra. }
  pose proof (Nat.div_mod (n - 1) 2 ltac:(lia)) as Hd. pose proof (Nat.mod_upper_bound (n - 1) 2 ltac:(lia)). lia.
Qed.

(** ** Half of the probability *)
Lemma distinct_perm s s' : Permutation s s' -> distinct s -> distinct s'.
Proof.
  intros Hp Hd.
  assert (X : forall l, distinct l <-> NoDupA Qeq l).
  { clear. induction l as [|a l IH].
    - split; [constructor | intros _ i j H; cbn in H; lia].
    - split.
      + intros H. constructor.
        * intros Hi. apply InA_alt in Hi. destruct Hi as (b & Eb & Hb). apply (In_nth _ _ 0%Q) in Hb. destruct Hb as (j & Hj & <-).
          apply (H 0 (S j)); [cbn [length]; lia | exact Eb].
        * apply IH. intros i j Hij. apply (H (S i) (S j)). cbn [length]; lia.
      + intros H. inversion H as [|? ? Hn Hl]; subst. intros i j Hij E. destruct i as [|i], j as [|j]; cbn [nth length] in *; try lia.
        * apply Hn. apply InA_alt. exists (nth j l 0%Q). split; [exact E | apply nth_In; lia].
        * apply IH in Hl. apply (Hl i j); [lia | exact E]. }
  apply X. apply X in Hd.
  assert (Y : forall l l' a, Permutation l l' -> InA Qeq a l -> InA Qeq a l').
  { clear. intros l l' a H Hi. apply InA_alt in Hi. destruct Hi as (b & E & Hb). apply InA_alt. exists b. split; auto. apply (Permutation_in _ H Hb). }
  induction Hp as [|a s s' Hp IH|a b s|s s' s'' H1 IH1 H2 IH2]; auto.
  - inversion Hd as [|? ? Hn Hl]; subst. constructor; auto. intros Hi. apply Hn. apply (Y s' s); [apply Permutation_sym; exact Hp | exact Hi].
  - inversion Hd as [|? ? Hn Hl]; subst. inversion Hl as [|? ? Hn' Hl']; subst. constructor; [|constructor; [intros Hi; apply Hn; right; exact Hi | exact Hl']].
    intros Hi. inversion Hi as [? ? E|? ? Hi']; subst; [apply Hn; left; symmetry; exact E | contradiction].
Qed.

Lemma sumq_bound l (c : Q) : (forall x, In x l -> (x <= c)%Q) -> (sumq l <= inject_Z (Z.of_nat (length l)) * c)%Q.
Proof.
  unfold sumq. induction l as [|a l IH]; intros H; cbn [fold_right length]; [change (inject_Z (Z.of_nat 0)) with 0%Q; lra|].
  rewrite Nat2Z.inj_succ, <- Z.add_1_r, inject_Z_plus. pose proof (H a (or_introl eq_refl)). pose proof (IH (fun x Hx => H x (or_intror Hx))).
  setoid_replace ((inject_Z (Z.of_nat (length l)) + inject_Z 1) * c)%Q with (inject_Z (Z.of_nat (length l)) * c + c)%Q by ring. lra.
Qed.
Lemma sumq_lower l (c : Q) : l <> [] -> (forall x, In x l -> (c < x)%Q) -> (inject_Z (Z.of_nat (length l)) * c < sumq l)%Q.
Proof.
  unfold sumq. induction l as [|a l IH]; intros Hne H; [congruence|]. cbn [fold_right length].
  rewrite Nat2Z.inj_succ, <- Z.add_1_r, inject_Z_plus. pose proof (H a (or_introl eq_refl)).
  setoid_replace ((inject_Z (Z.of_nat (length l)) + inject_Z 1) * c)%Q with (inject_Z (Z.of_nat (length l)) * c + c)%Q by ring.
  destruct l as [|b l]; [cbn [length fold_right]; change (inject_Z (Z.of_nat 0)) with 0%Q; lra|]. assert (Hl : (inject_Z (Z.of_nat (length (b :: l))) * c < fold_right Qplus 0 (b :: l))%Q) by (apply IH; [congruence | intros x Hx; apply H; right; exact Hx]). lra.
Qed.
Lemma sumq_split (P : Q -> bool) l : (sumq l == sumq (filter P l) + sumq (filter (fun x => negb (P x)) l))%Q.
Proof. unfold sumq. induction l as [|a l IH]; cbn [filter fold_right]; [lra|]. destruct (P a); cbn [negb fold_right]; lra. Qed.
Lemma length_split {A} (P : A -> bool) l : length l = length (filter P l) + length (filter (fun x => negb (P x)) l).
Proof. induction l as [|a l IH]; cbn [filter length]; [lia|]. destruct (P a); cbn [negb length]; lia. Qed.

Lemma heavy_exactly l m k : is_median l m -> distinct l -> length l = 2 * k -> length (filter (above m) l) = k.
Proof.
  intros (s & Hp & Hs & E) Hd Hl. pose proof (distinct_perm _ _ Hp Hd) as Hd'.
  rewrite (Permutation_length (filter_perm (above m) _ _ Hp)). rewrite (Permutation_length Hp) in *.
  destruct k as [|k]; [destruct s; [reflexivity | discriminate]|].
  replace ((length s - 1) / 2) with k in E by (rewrite Hl; replace (2 * S k - 1) with (1 + k * 2) by lia; rewrite Nat.div_add by lia; reflexivity).
  replace (length s / 2) with (S k) in E by (rewrite Hl, Nat.mul_comm, Nat.div_mul by lia; reflexivity).
  assert (Hlt : (nth k s 0 < nth (S k) s 0)%Q).
  { pose proof (sorted_nth s Hs k (S k) ltac:(lia)) as H1. pose proof (Hd' k (S k) ltac:(lia)) as H2.
    apply Qle_lteq in H1. destruct H1 as [H1|H1]; [exact H1 | contradiction]. }
  rewrite <- (firstn_skipn (S k) s), filter_app, app_length.
  replace (filter (above m) (firstn (S k) s)) with (@nil Q).
  - replace (filter (above m) (skipn (S k) s)) with (skipn (S k) s); [rewrite skipn_length; cbn [length]; lia|].
    symmetry. assert (Hall : forall x, In x (skipn (S k) s) -> above m x = true).
    { intros x Hx. apply above_iff. apply (In_nth _ _ 0%Q) in Hx. destruct Hx as (i & Hi & <-). rewrite skipn_length in Hi.
      rewrite <- (firstn_skipn (S k) s) in Hs. assert (En : nth i (skipn (S k) s) 0%Q = nth (S k + i) s 0%Q).
      { rewrite <- (firstn_skipn (S k) s) at 2. rewrite app_nth2; rewrite firstn_length; [|lia]. f_equal. lia. }
      rewrite firstn_skipn in Hs. rewrite En. pose proof (sorted_nth s Hs (S k) (S k + i) ltac:(lia)). lra. }
    clear - Hall. induction (skipn (S k) s) as [|a l IH]; cbn [filter]; auto. rewrite (Hall a (or_introl eq_refl)). f_equal. apply IH. intros x Hx. apply Hall. right; exact Hx.
  - symmetry. assert (Hall : forall x, In x (firstn (S k) s) -> above m x = false).
    { intros x Hx. destruct (above m x) eqn:Ea; auto. apply above_iff in Ea. apply (In_nth _ _ 0%Q) in Hx. destruct Hx as (i & Hi & <-). rewrite firstn_length in Hi.
      assert (En : nth i (firstn (S k) s) 0%Q = nth i s 0%Q).
      { rewrite <- (firstn_skipn (S k) s) at 2. rewrite app_nth1; [reflexivity | rewrite firstn_length; lia]. }
      rewrite En in Ea. pose proof (sorted_nth s Hs i k ltac:(lia)). lra. }
    clear - Hall. induction (firstn (S k) s) as [|a l IH]; cbn [filter]; auto. rewrite (Hall a (or_introl eq_refl)). apply IH. intros x Hx. apply Hall. right; exact Hx.
Qed.
Lemma heavy_half l m k : is_median l m -> distinct l -> length l = 2 * k -> k <> 0 -> (sumq l < (2 # 1) * sumq (filter (above m) l))%Q.
Proof.
  intros Hm Hd Hl Hk. pose proof (heavy_exactly l m k Hm Hd Hl) as Hh. pose proof (length_split (above m) l) as Hs.
  pose proof (sumq_split (above m) l) as E.
  assert (H1 : (inject_Z (Z.of_nat (length (filter (above m) l))) * m < sumq (filter (above m) l))%Q).
  { apply sumq_lower; [intros E0; rewrite E0 in Hh; cbn in Hh; lia|]. intros x Hx. apply filter_In in Hx. apply above_iff, Hx. }
  assert (H2 : (sumq (filter (fun x => negb (above m x)) l) <= inject_Z (Z.of_nat (length (filter (fun x => negb (above m x)) l))) * m)%Q).
  { apply sumq_bound. intros x Hx. apply filter_In in Hx. destruct Hx as [_ Hx]. destruct (Qlt_le_dec m x) as [Hm'|Hm']; auto. apply above_iff in Hm'. rewrite Hm' in Hx. discriminate. }
  replace (length (filter (fun x => negb (above m x)) l)) with (length (filter (above m) l)) in H2 by lia. lra.
Qed.

(** ** The fitter's heavy outputs *)
Lemma count_keys_length n : length (count_keys n) = 2 ^ n.
Proof. unfold count_keys. rewrite map_length, seq_length. reflexivity. Qed.

Lemma ideal_probs_inv vec d dist : ideal_probs vec d = Ok dist -> 2 ^ d <= length vec /\ dist = combine (count_keys d) (all_probs vec d).
Proof.
  intros H. unfold ideal_probs in H. inv_bind H. injection H as <-. apply mapM_inv in E.
  assert (X : forall s n ps, Forall2 (fun b p => (do a <- index_e vec b; Ok (fst a * fst a + snd a * snd a)%Q) = Ok p) (seq s n) ps ->
     (n <> 0 -> s + n <= length vec) /\ ps = map (amp_prob vec) (seq s n)).
  { clear. intros s n. revert s; induction n as [|n IH]; intros s ps H; cbn [seq map] in *; inversion H as [|? p ? ps' H1 H2]; subst; [split; [congruence | reflexivity]|].
    inv_bind H1. injection H1 as <-. apply index_inv in E. assert (Hs : s < length vec) by (apply nth_error_Some; congruence).
    destruct (IH (S s) ps' H2) as [Hn ->]. split; [destruct n; intros _; [lia | lia]|]. f_equal. unfold amp_prob. rewrite (nth_error_nth _ _ (0%Q, 0%Q) E). reflexivity. }
  destruct (X _ _ _ E) as [Hn ->]. split; [|reflexivity]. apply Hn. pose proof (Nat.pow_nonzero 2 d). lia.
Qed.
Lemma ideal_probs_total vec d : 2 ^ d <= length vec -> exists dist, ideal_probs vec d = Ok dist.
Proof.
  intros H. unfold ideal_probs. rewrite (mapM_ok _ (amp_prob vec)); [eexists; reflexivity|].
  intros b Hb. apply in_seq in Hb. unfold amp_prob. rewrite (index_ok vec b (nth b vec (0%Q, 0%Q))) by (apply nth_error_nth'; lia). reflexivity.
Qed.

Lemma map_snd_combine {A B} (l : list A) (m : list B) : length l = length m -> map snd (combine l m) = m.
Proof. revert m; induction l as [|a l IH]; intros [|b m] H; try discriminate; auto. cbn. f_equal. apply IH. injection H; auto. Qed.
Lemma map_fst_combine {A B} (l : list A) (m : list B) : length l = length m -> map fst (combine l m) = l.
Proof. revert m; induction l as [|a l IH]; intros [|b m] H; try discriminate; auto. cbn. f_equal. apply IH. injection H; auto. Qed.

Lemma heavy_In d vec m k : 1 <= d ->
  In k (heavy_strings (combine (count_keys d) (all_probs vec d)) m) <-> (length k = d /\ is_bits k) /\ (m < string_prob vec k)%Q.
Proof.
  intros Hd. destruct (count_keys_spec_lemma d Hd) as (Hl & Hnd & Hin & Hval).
  unfold heavy_strings. rewrite in_map_iff. rewrite <- Hin. split.
  - intros ([k' p] & <- & H). apply filter_In in H. destruct H as [H Ha]. cbn [fst snd] in *. apply above_iff in Ha.
    apply (In_nth _ _ ([], 0%Q)) in H. destruct H as (j & Hj & E). rewrite combine_length, Hl in Hj. unfold all_probs in Hj. rewrite map_length, seq_length in Hj.
    rewrite combine_nth in E by (unfold all_probs; rewrite map_length, seq_length; exact Hl). injection E as E1 E2.
    split; [rewrite <- E1; apply nth_In; lia|]. unfold string_prob. rewrite <- E1, Hval by lia. 
    unfold all_probs in E2. rewrite (nth_indep _ _ (amp_prob vec 0)) in E2 by (rewrite map_length, seq_length; lia). rewrite map_nth, seq_nth in E2 by lia. cbn [Nat.add] in E2. rewrite E2. exact Ha.
  - intros [H Ha]. apply (In_nth _ _ []) in H. destruct H as (j & Hj & E). rewrite Hl in Hj. exists (k, string_prob vec k). split; [reflexivity|].
    apply filter_In. cbn [snd]. split; [|apply above_iff; exact Ha].
    replace (k, string_prob vec k) with (nth j (combine (count_keys d) (all_probs vec d)) ([], 0%Q)).
    + apply nth_In. rewrite combine_length, Hl. unfold all_probs. rewrite map_length, seq_length. lia.
    + rewrite combine_nth by (unfold all_probs; rewrite map_length, seq_length; exact Hl). rewrite E. f_equal. unfold string_prob. rewrite <- E, Hval by lia.
      unfold all_probs. rewrite (nth_indep _ _ (amp_prob vec 0)) by (rewrite map_length, seq_length; lia). rewrite map_nth, seq_nth by lia. reflexivity.
Qed.
Lemma heavy_NoDup dist m : NoDup (map fst dist) -> NoDup (heavy_strings dist m).
Proof.
  unfold heavy_strings. induction dist as [|[k p] dist IH]; intros H; cbn [filter map]; [constructor|].
  cbn [map fst] in H. apply NoDup_cons_iff in H. destruct H as [Hn H]. destruct (negb _); auto. cbn [map fst]. constructor; auto.
  intros Hi. apply Hn. apply in_map_iff in Hi. destruct Hi as (kv & <- & Hi). apply filter_In in Hi. apply in_map, Hi.
Qed.
Lemma heavy_length dist m : length (heavy_strings dist m) = length (filter (above m) (map snd dist)).
Proof. unfold heavy_strings. rewrite map_length. induction dist as [|[k p] dist IH]; cbn [filter map snd]; auto. unfold above at 1. destruct (negb _); cbn [length]; auto. Qed.
Lemma heavy_sum (dist : dict pystr Q) m : NoDup (map fst dist) -> (subset_probability (heavy_strings dist m) dist == sumq (filter (above m) (map snd dist)))%Q.
Proof.
  intros Hnd. unfold subset_probability, heavy_strings.
  assert (X : forall l : dict pystr Q, (forall kv, In kv l -> dget dist (fst kv) = Some (snd kv)) ->
     (fold_right Qplus 0 (map (fun k => match dget dist k with Some p => p | None => 0 end) (map fst (filter (fun kv => negb (Qle_bool (snd kv) m)) l))) == sumq (filter (above m) (map snd l)))%Q).
  { unfold sumq. induction l as [|[k p] l IH]; intros H; cbn [filter map fst snd]; [reflexivity|]. unfold above at 1.
    pose proof (H (k, p) (or_introl eq_refl)) as Hk. cbn [fst snd] in Hk. assert (Hl := IH (fun kv Hi => H kv (or_intror Hi))).
    destruct (negb (Qle_bool p m)); [|exact Hl]. cbn [map fst snd fold_right]. rewrite Hk. lra. }
  apply X. intros [k p] Hi. apply dget_In_NoDup; auto.
Qed.
Lemma count_keys_NoDup d : NoDup (count_keys d).
Proof. destruct d as [|d]; [repeat constructor; intros [] | apply (count_keys_spec_lemma (S d)); lia]. Qed.

(** Everything about one ideal circuit. *)
Lemma heavy_facts d vec dist heavy : ideal_probs vec d = Ok dist -> heavy = heavy_strings dist (np_median (map snd dist)) ->
  NoDup heavy /\ 2 * length heavy <= 2 ^ d /\
  (1 <= d -> (forall k, In k heavy <-> (length k = d /\ is_bits k) /\ forall m, is_median (all_probs vec d) m -> (m < string_prob vec k)%Q) /\
             (distinct (all_probs vec d) -> (sumq (all_probs vec d) < (2 # 1) * subset_probability heavy dist)%Q)).
Proof.
  intros H ->. apply ideal_probs_inv in H. destruct H as [Hl ->].
  assert (Hlen : length (count_keys d) = length (all_probs vec d)) by (rewrite count_keys_length; unfold all_probs; rewrite map_length, seq_length; reflexivity).
  assert (Hf : map fst (combine (count_keys d) (all_probs vec d)) = count_keys d) by (apply map_fst_combine; exact Hlen).
  pose proof (np_median_is (all_probs vec d)) as Hm.
  rewrite !map_snd_combine by exact Hlen. set (m := np_median (all_probs vec d)) in *.
  split; [apply heavy_NoDup; rewrite Hf; apply count_keys_NoDup|]. split.
  - rewrite heavy_length, map_snd_combine by exact Hlen. pose proof (heavy_at_most _ _ Hm) as H. rewrite <- Hlen, count_keys_length in H. exact H.
  - intros Hd. split.
    + intros k. rewrite heavy_In by exact Hd. split.
      * intros [Hk Hlt]. split; auto. intros m' Hm'. rewrite (median_unique _ _ _ Hm' Hm). exact Hlt.
      * intros [Hk Hlt]. split; auto.
    + intros Hdis. rewrite heavy_sum by (rewrite Hf; apply count_keys_NoDup). rewrite map_snd_combine by exact Hlen.
      apply (heavy_half _ m (2 ^ (d - 1))); auto.
      * rewrite <- Hlen, count_keys_length. destruct d as [|d]; [lia|]. cbn [Nat.pow]. rewrite Nat.sub_succ, Nat.sub_0_r. reflexivity.
      * apply Nat.pow_nonzero. lia.
Qed.

Lemma heavy_prob_sum d vec dist heavy : 1 <= d -> ideal_probs vec d = Ok dist -> heavy = heavy_strings dist (np_median (map snd dist)) ->
  (subset_probability heavy dist == sumq (map (string_prob vec) heavy))%Q.
Proof.
  intros Hd H ->. pose proof (heavy_facts d vec dist _ H eq_refl) as (_ & _ & Hf). destruct (Hf Hd) as [Hin _]. clear Hf.
  apply ideal_probs_inv in H. destruct H as [_ ->]. unfold subset_probability, sumq.
  destruct (count_keys_spec_lemma d Hd) as (Hl & Hnd & Hk & Hval).
  assert (Hlen : length (count_keys d) = length (all_probs vec d)) by (rewrite Hl; unfold all_probs; rewrite map_length, seq_length; reflexivity).
  assert (X : forall k, length k = d /\ is_bits k -> dget (combine (count_keys d) (all_probs vec d)) k = Some (string_prob vec k)).
  { intros k Hkb. apply Hk in Hkb. apply (In_nth _ _ []) in Hkb. destruct Hkb as (j & Hj & E). apply dget_In_NoDup.
    - unfold dkeys. rewrite map_fst_combine by exact Hlen. exact Hnd.
    - replace (k, string_prob vec k) with (nth j (combine (count_keys d) (all_probs vec d)) ([], 0%Q)); [apply nth_In; rewrite combine_length; lia|].
      rewrite combine_nth by exact Hlen. rewrite E. f_equal. unfold string_prob. rewrite <- E, Hval by lia.
      unfold all_probs. rewrite (nth_indep _ _ (amp_prob vec 0)) by (rewrite map_length, seq_length; lia). rewrite map_nth, seq_nth by lia. reflexivity. }
  assert (Y : forall l, (forall k, In k l -> length k = d /\ is_bits k) -> map (fun k => match dget (combine (count_keys d) (all_probs vec d)) k with Some p => p | None => 0%Q end) l = map (string_prob vec) l).
  { intros l Hall. apply map_ext_in. intros k Hi. rewrite (X k (Hall k Hi)). reflexivity. }
  rewrite Y; [reflexivity|]. intros k Hi. apply Hin in Hi. apply Hi.
Qed.
