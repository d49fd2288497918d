(** Probability vectors of counts (C30). *)
From Coq Require Import QArith QArith.Qcanon Lqa.
From Verif Require Import LinAlg Base ResultFacts CountsModel CountsSpec CountsProofs QcFacts ExpvalModel ExpvalSpec ExpvalProofs.
Open Scope nat_scope.

(** ** Sums of distinct powers of two *)
Definition psum (ps : list nat) (b : nat -> bool) : nat :=
  fold_right Nat.add 0 (map (fun j => if b j then 2 ^ nth j ps 0 else 0) (seq 0 (length ps))).

Lemma testbit_pow2 p q : Nat.testbit (2 ^ p) q = (p =? q).
Proof.
  destruct (Nat.eqb_spec p q) as [->|H]; [apply Nat.pow2_bits_true | apply Nat.pow2_bits_false; exact H].
Qed.

Lemma testbit_add_pow2 x p q : Nat.testbit x p = false ->
  Nat.testbit (2 ^ p + x) q = (p =? q) || Nat.testbit x q.
Proof.
  intros Hp. assert (Hl : Nat.land (2 ^ p) x = 0).
  { apply Nat.bits_inj. intros m. rewrite Nat.land_spec, Nat.bits_0, testbit_pow2.
    destruct (Nat.eqb_spec p m) as [<-|]; [rewrite Hp|]; reflexivity. }
  rewrite Nat.add_nocarry_lxor by exact Hl. rewrite Nat.lxor_spec, testbit_pow2.
  destruct (Nat.eqb_spec p q) as [<-|]; [rewrite Hp|]; cbn; [reflexivity|]. destruct (Nat.testbit x q); reflexivity.
Qed.

Lemma psum_gen (ps : list nat) (b : nat -> bool) l : NoDup (map (fun j => nth j ps 0) l) ->
  forall q, Nat.testbit (fold_right Nat.add 0 (map (fun j => if b j then 2 ^ nth j ps 0 else 0) l)) q
  = existsb (fun j => b j && (nth j ps 0 =? q)) l.
Proof.
  induction l as [|j l IH]; intros Hnd q; [apply Nat.bits_0|]. cbn [map fold_right existsb].
  cbn [map] in Hnd. inversion Hnd as [|? ? Hni Hnd']; subst. destruct (b j) eqn:Ej; cbn [andb orb].
  - rewrite testbit_add_pow2; [rewrite IH by exact Hnd'; reflexivity|]. rewrite IH by exact Hnd'.
    apply Bool.not_true_is_false. intros He. apply existsb_exists in He. destruct He as (j' & Hj' & He).
    apply andb_prop in He. destruct He as [_ He]. apply Nat.eqb_eq in He. apply Hni. rewrite <- He.
    apply (in_map (fun j => nth j ps 0)), Hj'.
  - rewrite IH by exact Hnd'. reflexivity.
Qed.

Lemma map_nth_seq {A} (l : list A) d : map (fun j => nth j l d) (seq 0 (length l)) = l.
Proof.
  induction l as [|a l IH]; [reflexivity|]. cbn [length seq map nth]. rewrite <- seq_shift, map_map. cbn [nth].
  rewrite IH. reflexivity.
Qed.

Lemma psum_bit ps b j : NoDup ps -> j < length ps -> Nat.testbit (psum ps b) (nth j ps 0) = b j.
Proof.
  intros Hnd Hj. unfold psum. rewrite psum_gen by (rewrite map_nth_seq; exact Hnd).
  destruct (b j) eqn:Ej.
  - apply existsb_exists. exists j. split; [apply in_seq; lia|]. rewrite Ej, Nat.eqb_refl. reflexivity.
  - apply Bool.not_true_is_false. intros He. apply existsb_exists in He. destruct He as (j' & Hj' & He).
    apply andb_prop in He. destruct He as [Hb He]. apply Nat.eqb_eq in He. apply in_seq in Hj'.
    assert (j' = j) by (eapply (NoDup_nth ps 0); eauto; lia). congruence.
Qed.
Lemma psum_bit_out ps b q : NoDup ps -> ~ In q ps -> Nat.testbit (psum ps b) q = false.
Proof.
  intros Hnd Hq. unfold psum. rewrite psum_gen by (rewrite map_nth_seq; exact Hnd).
  apply Bool.not_true_is_false. intros He. apply existsb_exists in He. destruct He as (j' & Hj' & He).
  apply andb_prop in He. destruct He as [Hb He]. apply Nat.eqb_eq in He. apply in_seq in Hj'. apply Hq.
  rewrite <- He. apply nth_In. lia.
Qed.

Lemma testbit_lt i n b : i < 2 ^ n -> n <= b -> Nat.testbit i b = false.
Proof.
  intros Hi Hb. destruct (Nat.eq_dec i 0) as [->|Hz]; [apply Nat.bits_0|]. apply Nat.bits_above_log2.
  apply Nat.log2_lt_pow2; [lia|]. eapply Nat.lt_le_trans; [exact Hi|]. apply Nat.pow_le_mono_r; lia.
Qed.
Lemma lt_testbit i n : (forall b, n <= b -> Nat.testbit i b = false) -> i < 2 ^ n.
Proof.
  intros H. destruct (Nat.lt_ge_cases i (2 ^ n)) as [Hl|Hg]; [exact Hl|]. exfalso.
  assert (Hi : 0 < i) by (pose proof (Nat.pow_nonzero 2 n); lia).
  pose proof (Nat.bit_log2 i ltac:(lia)) as Hb. rewrite H in Hb; [discriminate|].
  apply Nat.log2_le_pow2; assumption.
Qed.
Lemma testbit_ext i j n : i < 2 ^ n -> j < 2 ^ n -> (forall b, b < n -> Nat.testbit i b = Nat.testbit j b) -> i = j.
Proof.
  intros Hi Hj H. apply Nat.bits_inj. intros b. destruct (Nat.lt_ge_cases b n) as [Hb|Hb]; [apply H, Hb|].
  rewrite !(testbit_lt _ n) by assumption. reflexivity.
Qed.

(** ** argsort *)
Lemma insert_pos_perm x l : Permutation (x :: l) (insert_pos x l).
Proof.
  induction l as [|a l IH]; cbn; [reflexivity|]. destruct (fst x <=? fst a); [reflexivity|].
  rewrite perm_swap. apply perm_skip, IH.
Qed.
Lemma isort_perm l : Permutation l (fold_right insert_pos [] l).
Proof.
  induction l as [|a l IH]; cbn; [reflexivity|]. etransitivity; [apply perm_skip, IH | apply insert_pos_perm].
Qed.
Lemma insert_pos_sorted x l : StronglySorted le (map fst l) -> StronglySorted le (map fst (insert_pos x l)).
Proof.
  induction l as [|a l IH]; cbn; intros H; [repeat constructor|].
  apply StronglySorted_inv in H. destruct H as [H Ha]. destruct (Nat.leb_spec (fst x) (fst a)) as [Hl|Hl]; cbn [map].
  - constructor; [constructor; assumption|]. constructor; [exact Hl|].
    eapply Forall_impl; [|exact Ha]. cbn. intros; lia.
  - constructor; [apply IH, H|]. apply Forall_forall. intros y Hy. apply in_map_iff in Hy. destruct Hy as (z & <- & Hz).
    apply (Permutation_in _ (Permutation_sym (insert_pos_perm x l))) in Hz. destruct Hz as [<-|Hz]; [lia|].
    rewrite Forall_forall in Ha. apply Ha, (in_map fst _ _ Hz).
Qed.
Lemma isort_sorted l : StronglySorted le (map fst (fold_right insert_pos [] l)).
Proof. induction l as [|a l IH]; cbn; [constructor | apply insert_pos_sorted, IH]. Qed.

Lemma sorted_le_unique (l l' : list nat) :
  StronglySorted le l -> StronglySorted le l' -> Permutation l l' -> l = l'.
Proof.
  intros Hs; revert l'; induction l as [|a l IH]; intros l' Hs' Hp.
  - apply Permutation_nil in Hp; auto.
  - destruct l' as [|b l']; [apply Permutation_sym, Permutation_nil in Hp; discriminate|].
    apply StronglySorted_inv in Hs, Hs'. destruct Hs as [Hs Ha], Hs' as [Hs' Hb]. rewrite Forall_forall in Ha, Hb.
    assert (a = b).
    { assert (Hab : In a (b :: l')) by (eapply Permutation_in; [exact Hp | left; reflexivity]).
      assert (Hba : In b (a :: l)) by (eapply Permutation_in; [apply Permutation_sym; exact Hp | left; reflexivity]).
      destruct Hab as [|Hab]; [auto|]. destruct Hba as [|Hba]; [auto|]. specialize (Ha b Hba). specialize (Hb a Hab). lia. }
    subst b. f_equal. apply IH; [auto..|]. eapply Permutation_cons_inv; exact Hp.
Qed.

Lemma combine_fst {A B} (l : list A) (l' : list B) : length l = length l' -> map fst (combine l l') = l.
Proof. revert l'; induction l; intros [|b l']; cbn; intros H; try reflexivity; try discriminate. f_equal; auto. Qed.
Lemma combine_snd {A B} (l : list A) (l' : list B) : length l = length l' -> map snd (combine l l') = l'.
Proof. revert l'; induction l; intros [|b l']; cbn; intros H; try reflexivity; try discriminate. f_equal; auto. Qed.

Lemma argsort_perm qs : Permutation (argsort qs) (seq 0 (length qs)).
Proof.
  unfold argsort. rewrite <- (combine_snd qs (seq 0 (length qs))) at 2 by (rewrite seq_length; reflexivity).
  apply Permutation_map, Permutation_sym, isort_perm.
Qed.
Lemma argsort_length qs : length (argsort qs) = length qs.
Proof. rewrite (Permutation_length (argsort_perm qs)). apply seq_length. Qed.

Lemma combine_seq_nth {A} (l : list A) k a i : In (a, i) (combine l (seq k (length l))) -> nth_error l (i - k) = Some a /\ k <= i.
Proof.
  revert k; induction l as [|b l IH]; intros k H; [contradiction|]. cbn [length seq combine] in H. destruct H as [[= -> ->]|H].
  - rewrite Nat.sub_diag. split; [reflexivity | lia].
  - apply IH in H. destruct H as [H Hl]. replace (i - k) with (S (i - S k)) by lia. split; [exact H | lia].
Qed.

Lemma sorted_lt_le l : StronglySorted lt l -> StronglySorted le l.
Proof. induction 1; constructor; auto. eapply Forall_impl; [|eassumption]. cbn; intros; lia. Qed.

Lemma argsort_nth asc qs j q : increasing_version asc qs -> nth_error asc j = Some q ->
  nth_error qs (nth j (argsort qs) 0) = Some q.
Proof.
  intros [Hs Hp] Hj. unfold argsort. set (l := fold_right insert_pos [] (combine qs (seq 0 (length qs)))).
  assert (Hf : map fst l = asc).
  { apply sorted_le_unique; [apply isort_sorted | apply sorted_lt_le, Hs|]. unfold l.
    rewrite <- (Permutation_map fst (isort_perm _)). rewrite combine_fst by (rewrite seq_length; reflexivity).
    apply Permutation_sym, Hp. }
  rewrite <- Hf in Hj. rewrite nth_error_map in Hj. destruct (nth_error l j) as [[q' p]|] eqn:El; [|discriminate].
  cbn in Hj. injection Hj as ->.
  assert (Hn : nth j (map snd l) 0 = p).
  { apply nth_error_nth. rewrite nth_error_map, El. reflexivity. }
  rewrite Hn. apply nth_error_In in El. apply (Permutation_in _ (Permutation_sym (isort_perm _))) in El.
  apply combine_seq_nth in El. rewrite Nat.sub_0_r in El. apply El.
Qed.

Lemma fold_left_add_acc l a : fold_left Nat.add l a = a + fold_right Nat.add 0 l.
Proof. revert a; induction l as [|x l IH]; intros a; cbn; [lia|]. rewrite IH. lia. Qed.
Lemma fold_right_add_perm l l' : Permutation l l' -> fold_right Nat.add 0 l = fold_right Nat.add 0 l'.
Proof. induction 1; cbn; lia. Qed.
Lemma seq_rev n : rev (seq 0 n) = map (fun k => n - 1 - k) (seq 0 n).
Proof.
  apply nth_ext with (d := 0) (d' := 0); [rewrite rev_length, map_length; reflexivity|].
  rewrite rev_length, seq_length. intros i Hi. rewrite rev_nth by (rewrite seq_length; exact Hi).
  rewrite seq_length, seq_nth by lia. rewrite nth_indep with (d' := (fun k => n - 1 - k) 0) by (rewrite map_length, seq_length; exact Hi).
  rewrite map_nth, seq_nth by exact Hi. cbn. lia.
Qed.

Lemma transpose_index_psum n as' i : length as' = n -> (forall p, In p as' -> p < n) ->
  transpose_index n (map (fun p => n - 1 - p) (rev as')) i = psum as' (Nat.testbit i).
Proof.
  intros Hl Hlt. unfold transpose_index, psum. rewrite fold_left_add_acc, Nat.add_0_l, Hl.
  transitivity (fold_right Nat.add 0 (map (fun j => if Nat.testbit i j then 2 ^ nth j as' 0 else 0) (rev (seq 0 n)))).
  - rewrite seq_rev, map_map. f_equal. apply map_ext_in. intros k Hk. apply in_seq in Hk.
    assert (E : nth k (map (fun p => n - 1 - p) (rev as')) 0 = n - 1 - nth (n - 1 - k) as' 0).
    { rewrite nth_indep with (d' := (fun p => n - 1 - p) 0) by (rewrite map_length, rev_length; lia).
      rewrite map_nth, rev_nth by lia. rewrite Hl. f_equal. f_equal. lia. }
    rewrite E. assert (nth (n - 1 - k) as' 0 < n) by (apply Hlt, nth_In; lia).
    replace (n - 1 - (n - 1 - nth (n - 1 - k) as' 0)) with (nth (n - 1 - k) as' 0) by lia. reflexivity.
  - apply fold_right_add_perm, Permutation_map, Permutation_sym, Permutation_rev.
Qed.

Lemma transpose_remap asc qs i i' : increasing_version asc qs ->
  i < 2 ^ length qs -> i' < 2 ^ length qs -> rearranged asc qs i i' ->
  transpose_index (length qs) (map (fun p => length qs - 1 - p) (rev (argsort qs))) i = i'.
Proof.
  intros Hasc Hi Hi' Hr. set (n := length qs) in *.
  assert (Hpm := argsort_perm qs). fold n in Hpm.
  assert (Hnd : NoDup (argsort qs)) by (eapply Permutation_NoDup; [apply Permutation_sym, Hpm | apply seq_NoDup]).
  assert (Hlt : forall p, In p (argsort qs) -> p < n).
  { intros p Hpp. apply (Permutation_in _ Hpm) in Hpp. apply in_seq in Hpp. lia. }
  assert (Hlen : length (argsort qs) = n) by apply argsort_length.
  rewrite transpose_index_psum by assumption.
  apply testbit_ext with (n := n); [|exact Hi'|].
  - apply lt_testbit. intros b Hb. apply psum_bit_out; [exact Hnd|]. intros Hin. apply Hlt in Hin. lia.
  - intros p Hpn. assert (Hin : In p (argsort qs)).
    { apply (Permutation_in _ (Permutation_sym Hpm)). apply in_seq. lia. }
    apply In_nth with (d := 0) in Hin. destruct Hin as (j & Hj & <-). rewrite psum_bit by assumption.
    destruct Hasc as [Hs Hp]. pose proof (Permutation_length Hp) as Hpl.
    destruct (nth_error asc j) as [q|] eqn:Eq; [|apply nth_error_None in Eq; unfold n in *; lia].
    apply (Hr j (nth j (argsort qs) 0) q Eq). apply (argsort_nth asc qs j q); [split; assumption | exact Eq].
Qed.

(** ** The vector of counts *)
Lemma set_at_length {A} (l : list A) i v : i < length l -> length (set_at l i v) = length l.
Proof. intros H. unfold set_at. rewrite app_length, firstn_length. cbn [length]. rewrite skipn_length. lia. Qed.
Lemma set_at_nth {A} (l : list A) i v d j : i < length l -> nth j (set_at l i v) d = if j =? i then v else nth j l d.
Proof.
  revert i j; induction l as [|a l IH]; intros i j Hi; [cbn in Hi; lia|]. unfold set_at in *. destruct i as [|i].
  - destruct j; reflexivity.
  - cbn [firstn skipn app length] in *. destruct j as [|j]; [reflexivity|]. cbn [nth Nat.eqb]. apply IH. lia.
Qed.

Lemma vec_fold n (r : counts) vec :
  (forall k, In k (map fst r) -> is_bits k /\ k <> [] /\ binary_value 0 k < 2 ^ n) ->
  NoDup (map (fun kv => binary_value 0 (fst kv)) r) -> length vec = 2 ^ n ->
  (forall kv, In kv r -> nth (binary_value 0 (fst kv)) vec 0%Z = 0%Z) ->
  exists vec', foldM (fun vec kv => do i <- int2 (fst kv);
                  if i <? 2 ^ n then Ok (set_at vec i (snd kv)) else Err IndexError) r vec = Ok vec' /\
    length vec' = 2 ^ n /\
    forall i, nth i vec' 0%Z = (nth i vec 0 + zsum (map (fun kv => if (binary_value 0 (fst kv) =? i)%nat then snd kv else 0) r))%Z.
Proof.
  revert vec; induction r as [|[k v] r IH]; intros vec Hk Hnd Hl Hz.
  - exists vec. split; [reflexivity|]. split; [exact Hl|]. intros i. cbn. lia.
  - cbn [foldM fst snd]. destruct (Hk k (or_introl eq_refl)) as (Hb & Hne & Hlt).
    rewrite int2_ok by assumption. cbn [bind]. apply Nat.ltb_lt in Hlt. rewrite Hlt. apply Nat.ltb_lt in Hlt. cbn [bind].
    cbn [map fst] in Hnd. inversion Hnd as [|? ? Hni Hnd']; subst.
    destruct (IH (set_at vec (binary_value 0 k) v)) as (vec' & Hv & Hlv & Hnth).
    + intros k' Hk'. apply Hk. right; exact Hk'.
    + exact Hnd'.
    + rewrite set_at_length; lia.
    + intros kv Hkv. rewrite set_at_nth by lia. destruct (Nat.eqb_spec (binary_value 0 (fst kv)) (binary_value 0 k)) as [E|_].
      * exfalso. apply Hni. rewrite <- E. apply (in_map (fun kv => binary_value 0 (fst kv)) _ _ Hkv).
      * apply Hz. right; exact Hkv.
    + exists vec'. split; [exact Hv|]. split; [exact Hlv|]. intros i. rewrite Hnth, set_at_nth by lia.
      cbn [map fst snd zsum]. rewrite (Nat.eqb_sym i). destruct (Nat.eqb_spec (binary_value 0 k) i) as [<-|_]; [|lia].
      pose proof (Hz (k, v) (or_introl eq_refl)) as H0. cbn [fst] in H0. rewrite H0. lia.
Qed.

Lemma binary_value_inj s t : is_bits s -> is_bits t -> length s = length t -> binary_value 0 s = binary_value 0 t -> s = t.
Proof.
  intros Hs Ht Hl Hv. destruct s as [|a s]; [destruct t; [reflexivity | discriminate]|].
  rewrite <- (zfill_bin_value (a :: s) Hs) by discriminate. rewrite Hv, Hl. apply zfill_bin_value; [exact Ht|].
  intros ->; discriminate.
Qed.

Lemma NoDup_map_inj_in {A B} (f : A -> B) l : NoDup l -> (forall a b, In a l -> In b l -> f a = f b -> a = b) -> NoDup (map f l).
Proof.
  intros Hnd Hinj. induction l as [|a l IH]; cbn; [constructor|]. inversion Hnd as [|? ? Hni Hnd']; subst. constructor.
  - intros Hi. apply in_map_iff in Hi. destruct Hi as (b & Hb & Hbl). apply Hni.
    rewrite <- (Hinj b a); [exact Hbl | right; exact Hbl | left; reflexivity | exact Hb].
  - apply IH; [exact Hnd'|]. intros x y Hx Hy. apply Hinj; right; assumption.
Qed.

Lemma hits_transfer (r c : counts) sel :
  (forall f : pystr -> Qc, fsum (map (fun kv => iz (snd kv) * f (fst kv))%Qc r)
                     = fsum (map (fun kv => iz (snd kv) * f (outcome_sel sel (fst kv)))%Qc c)) ->
  forall i, zsum (map (fun kv => if binary_value 0 (fst kv) =? i then snd kv else 0%Z) r) = hits c sel i.
Proof.
  intros Hs i. apply iz_inj. unfold hits. rewrite !iz_zsum.
  pose proof (Hs (fun y => if binary_value 0 y =? i then 1%Qc else 0%Qc)) as H. cbv beta in H.
  transitivity (fsum (map (fun kv : pystr * Z => (iz (snd kv) * (if binary_value 0 (fst kv) =? i then 1 else 0))%Qc) r)).
  - apply qsum_ext. intros kv _. destruct (_ =? _); [ring | rewrite iz_0; ring].
  - rewrite H. apply qsum_ext. intros kv _. destruct (_ =? _); [ring | rewrite iz_0; ring].
Qed.

Lemma list_eq_map_nth {A} (l : list A) (f : nat -> A) d n : length l = n -> (forall i, i < n -> nth i l d = f i) -> l = map f (seq 0 n).
Proof.
  intros Hl Hf. apply nth_ext with (d := d) (d' := f 0); [rewrite map_length, seq_length; exact Hl|].
  intros i Hi. rewrite map_nth, seq_nth by lia. apply Hf. lia.
Qed.

Lemma counts_vector_plain n c clbits sel : well_formed n c clbits sel -> total c <> 0%Z ->
  counts_probability_vector c None clbits None
  = Ok {| pv_n := n; pv_vec := Some (map (freq c sel) (seq 0 (2 ^ n))); pv_shots := total c |}.
Proof.
  intros Hw HT. destruct (marginal_ok n c clbits sel Hw) as (r & Hr & Ht & Hnd & Hk & Hne & Hs).
  specialize (Hne HT). unfold counts_probability_vector. rewrite Hr. cbn [bind].
  destruct r as [|[k0 v0] r0]; [congruence|]. set (r := (k0, v0) :: r0) in *.
  assert (Hk0 : length k0 = n) by (apply Hk; left; reflexivity). rewrite Hk0. cbn [bind].
  destruct (vec_fold n r (repeat 0%Z (2 ^ n))) as (vec & Hv & Hlv & Hnth).
  - intros k Hin. destruct (Hk k Hin) as [Hl Hb]. split; [exact Hb|]. split; [intros ->; destruct Hw; cbn in Hl; lia|].
    rewrite <- Hl. apply binary_value_lt.
  - rewrite <- (map_map fst (binary_value 0)). apply NoDup_map_inj_in; [exact Hnd|].
    intros a b Ha Hb. destruct (Hk a Ha), (Hk b Hb). intros E; apply binary_value_inj; auto; congruence.
  - apply repeat_length.
  - intros kv _. apply nth_repeat.
  - rewrite Hv. cbn [bind]. fold (total r). rewrite dvals_map. fold (total r). rewrite Ht. f_equal. f_equal.
    rewrite (list_eq_map_nth vec (hits c sel) 0%Z (2 ^ n) Hlv).
    2:{ intros i _. rewrite Hnth, nth_repeat, Z.add_0_l. apply hits_transfer, Hs. }
    rewrite normalise_some; [reflexivity| |exact HT]. pose proof (Nat.pow_nonzero 2 n ltac:(lia)).
    destruct (2 ^ n); [lia | discriminate].
Qed.

Lemma counts_vector_qubits n c clbits sel qs : well_formed n c clbits sel -> total c <> 0%Z ->
  counts_probability_vector c (Some qs) clbits None
  = if length qs =? n
    then Ok {| pv_n := n; pv_vec := Some (map (fun i =>
           nth (transpose_index n (map (fun p => n - 1 - p) (rev (argsort qs))) i)
               (map (freq c sel) (seq 0 (2 ^ n))) 0%Qc) (seq 0 (2 ^ n))); pv_shots := total c |}
    else Err QiskitError.
Proof.
  intros Hw HT. pose proof (counts_vector_plain n c clbits sel Hw HT) as H.
  unfold counts_probability_vector in *. destruct (marginalised c clbits) as [r|]; cbn [bind] in *; [|discriminate].
  destruct r as [|[k v] r]; cbn [bind] in *; [discriminate|].
  match type of H with bind ?m _ = _ => destruct m as [vec|] end; cbn [bind] in *; [|discriminate].
  cbv zeta in *. remember (zsum (dvals ((k, v) :: r))) as sh eqn:Esh. clear Esh. injection H as Hn Hv Ht. rewrite Hv, Ht, Hn. cbn [option_map]. reflexivity.
Qed.

Lemma counts_vector_remap n c clbits sel qs asc : well_formed n c clbits sel -> total c <> 0%Z ->
  increasing_version asc qs -> length qs = n ->
  exists vec, counts_probability_vector c (Some qs) clbits None
    = Ok {| pv_n := n; pv_vec := Some vec; pv_shots := total c |} /\ length vec = 2 ^ n /\
    forall i i', i < 2 ^ n -> i' < 2 ^ n -> rearranged asc qs i i' -> nth i vec 0%Qc = freq c sel i'.
Proof.
  intros Hw HT Hasc Hl. rewrite (counts_vector_qubits n c clbits sel qs Hw HT). rewrite <- Hl, Nat.eqb_refl.
  eexists. split; [reflexivity|]. split; [rewrite map_length, seq_length; reflexivity|]. intros i i' Hi Hi' Hr.
  rewrite nth_indep with (d' := nth (transpose_index (length qs) (map (fun p => length qs - 1 - p) (rev (argsort qs))) 0)
               (map (freq c sel) (seq 0 (2 ^ length qs))) 0%Qc) by (rewrite map_length, seq_length; exact Hi).
  rewrite (map_nth (fun i => nth (transpose_index (length qs) (map (fun p => length qs - 1 - p) (rev (argsort qs))) i)
               (map (freq c sel) (seq 0 (2 ^ length qs))) 0%Qc)), seq_nth by exact Hi. cbn [Nat.add].
  rewrite (transpose_remap asc qs i i' Hasc Hi Hi' Hr).
  rewrite nth_indep with (d' := freq c sel 0) by (rewrite map_length, seq_length; exact Hi').
  rewrite (map_nth (freq c sel)), seq_nth by exact Hi'. reflexivity.
Qed.

(** Rearranging is total: every index has a rearranged index. *)
Lemma rearranged_exists asc qs i' : increasing_version asc qs ->
  exists i, i < 2 ^ length qs /\ rearranged asc qs i i'.
Proof.
  intros Hasc. pose proof Hasc as [Hs Hp]. pose proof (asc_NoDup asc Hs) as Hnd.
  exists (psum (seq 0 (length qs)) (fun j => Nat.testbit i' (nth j (argsort qs) 0))). split.
  - apply lt_testbit. intros b Hb. apply psum_bit_out; [apply seq_NoDup|]. rewrite in_seq. lia.
  - intros j p q Hj Hpq. assert (Hlj : j < length qs).
    { rewrite <- (Permutation_length Hp). apply nth_error_Some. congruence. }
    replace j with (nth j (seq 0 (length qs)) 0) at 1 by (rewrite seq_nth by exact Hlj; lia).
    rewrite psum_bit; [|apply seq_NoDup | rewrite seq_length; exact Hlj].
    f_equal. pose proof (argsort_nth asc qs j q Hasc Hj) as Ha.
    assert (Hndq : NoDup qs) by (eapply Permutation_NoDup; eauto).
    eapply NoDup_nth_error; [exact Hndq| |congruence]. apply nth_error_Some. congruence.
Qed.
