(** Proofs about the counts model. *)
From Verif Require Import Base CountsModel CountsSpec.

Lemma trim_strip s : trim s = strip s.
Proof.
  induction s as [|c s IH]; [reflexivity|].
  cbn [trim filter strip]. change (filter _ s) with (trim s). rewrite IH.
  change (eqb c chsp) with (Ascii.eqb c " "). destruct (Ascii.eqb c " "); reflexivity.
Qed.

(** ** Binary strings *)
Fixpoint all_bits (n : nat) : list pystr :=
  match n with
  | 0 => [[]]
  | S n' => map (cons ch0) (all_bits n') ++ map (cons ch1) (all_bits n')
  end.

Lemma is_bits_cons c s : is_bits (c :: s) <-> (c = ch0 \/ c = ch1) /\ is_bits s.
Proof.
  unfold is_bits; cbn; split.
  - intros H; split; [apply H; auto | auto].
  - intros [H1 H2] c' [<-|Hc]; auto.
Qed.

Lemma is_bits_app s t : is_bits (s ++ t) <-> is_bits s /\ is_bits t.
Proof.
  unfold is_bits; split.
  - intros H; split; intros c Hc; apply H; apply in_or_app; auto.
  - intros [H1 H2] c Hc; apply in_app_or in Hc; destruct Hc; auto.
Qed.

Lemma is_bits_rev s : is_bits (rev s) <-> is_bits s.
Proof. unfold is_bits; split; intros H c Hc; apply H; [rewrite <- in_rev | rewrite in_rev]; auto.
Qed.

Lemma all_bits_In n s : In s (all_bits n) <-> length s = n /\ is_bits s.
Proof.
  revert s; induction n as [|n IH]; cbn; intros s.
  - split.
    + intros [<-|[]]; split; [reflexivity | intros c []].
    + intros [Hl _]; destruct s; [left; reflexivity | discriminate].
  - rewrite in_app_iff, !in_map_iff; split.
    + intros [(t & <- & Ht)|(t & <- & Ht)]; apply IH in Ht; destruct Ht as [Hl Hb];
        (split; [cbn; congruence | apply is_bits_cons; split; auto]).
    + intros [Hl Hb]; destruct s as [|c s]; [discriminate|].
      apply is_bits_cons in Hb; destruct Hb as [[->| ->] Hb]; [left|right];
        exists s; split; auto; apply IH; split; auto.
Qed.

Lemma all_bits_NoDup n : NoDup (all_bits n).
Proof.
  induction n as [|n IH]; cbn; [constructor; [tauto | constructor]|].
  assert (Hinj : forall c, NoDup (map (cons c) (all_bits n))).
  { intros c; apply FinFun.Injective_map_NoDup; [intros a b; congruence | exact IH]. }
  revert IH Hinj; generalize (all_bits n) as l; intros l _ Hinj.
  assert (Hd : forall s, In s (map (cons ch0) l) -> ~ In s (map (cons ch1) l)).
  { intros s Hs Hs'; apply in_map_iff in Hs, Hs'.
    destruct Hs as (a & <- & _), Hs' as (b & Hb & _); discriminate. }
  pose proof (Hinj ch1) as H1. specialize (Hinj ch0).
  revert Hinj Hd; generalize (map (cons ch0) l) as l0; intros l0 Hinj Hd.
  induction l0 as [|s l0 IH0]; cbn; [exact H1|].
  inversion Hinj as [|? ? Hni Hnd]; subst. constructor.
  - rewrite in_app_iff; intros [Hi|Hi]; [tauto | exact (Hd s (or_introl eq_refl) Hi)].
  - apply IH0; [exact Hnd | intros t Ht; apply Hd; right; exact Ht].
Qed.

Lemma all_bits_length n : length (all_bits n) = 2 ^ n.
Proof. induction n; cbn; [reflexivity|]. rewrite app_length, !map_length, IHn; lia. Qed.

Lemma binary_value_acc acc s : binary_value acc s = acc * 2 ^ length s + binary_value 0 s.
Proof.
  revert acc; induction s as [|c s IH]; intros acc; cbn [binary_value length]; [cbn; lia|].
  rewrite IH, (IH (2 * 0 + _)). cbn [Nat.pow].
  destruct (Ascii.eqb c "1"); nia.
Qed.

Lemma binary_value_app acc s t : binary_value acc (s ++ t) = binary_value (binary_value acc s) t.
Proof. revert acc; induction s; cbn; auto. Qed.

Lemma binary_value_lt s : binary_value 0 s < 2 ^ length s.
Proof.
  induction s as [|c s IH]; cbn [binary_value length]; [cbn; lia|].
  rewrite binary_value_acc. cbn [Nat.pow]. destruct (Ascii.eqb c "1"); nia.
Qed.

Lemma bin_str_step v (b : bool) : (0 < v)%N ->
  bin_str (2 * v + (if b then 1 else 0)) = bin_str v ++ [if b then ch1 else ch0].
Proof. intros Hv; destruct v as [|p]; [lia|]. destruct b; reflexivity. Qed.

Lemma pos_bin_length_bound p n : Pos.to_nat p < 2 ^ n -> length (pos_bin p) <= n.
Proof.
  revert n; induction p as [p IH|p IH|]; intros n Hn; cbn [pos_bin].
  - rewrite app_length; cbn. destruct n as [|n]; [cbn in Hn; lia|].
    specialize (IH n). rewrite Pos2Nat.inj_xI in Hn. cbn [Nat.pow] in Hn. lia.
  - rewrite app_length; cbn. destruct n as [|n]; [cbn in Hn; lia|].
    specialize (IH n). rewrite Pos2Nat.inj_xO in Hn. cbn [Nat.pow] in Hn. lia.
  - destruct n; cbn in *; lia.
Qed.

Lemma bin_str_length_bound v n : 1 <= n -> N.to_nat v < 2 ^ n -> length (bin_str v) <= n.
Proof.
  intros Hn Hv; destruct v as [|p]; cbn [bin_str]; [cbn; lia|].
  apply pos_bin_length_bound. exact Hv.
Qed.

Lemma zfill_bin_value s : is_bits s -> s <> [] ->
  zfill (length s) (bin_str (N.of_nat (binary_value 0 s))) = s.
Proof.
  induction s as [|c s IH] using rev_ind; [congruence|].
  intros Hb _. apply is_bits_app in Hb; destruct Hb as [Hb Hc].
  apply is_bits_cons in Hc; destruct Hc as [Hc _].
  rewrite binary_value_app, app_length; cbn [binary_value length].
  set (v := binary_value 0 s) in *.
  assert (Hcb : exists b : bool, c = (if b then ch1 else ch0)) by (destruct Hc; subst; [exists false|exists true]; reflexivity).
  destruct Hcb as [b ->].
  assert (Heb : (if Ascii.eqb (if b then ch1 else ch0) "1" then 1 else 0) = if b then 1 else 0)
    by (destruct b; reflexivity).
  rewrite Heb.
  destruct (Nat.eq_dec v 0) as [Hv|Hv].
  - (* leading zeros only *)
    rewrite Hv. destruct s as [|c' s'].
    + destruct b; reflexivity.
    + assert (Hz : c' :: s' = repeat ch0 (length (c' :: s'))).
      { assert (Hne : c' :: s' <> []) by congruence. specialize (IH Hb Hne).
        rewrite Hv in IH. cbn [N.of_nat bin_str] in IH. unfold zfill in IH.
        rewrite <- IH at 1. cbn [length]. rewrite Nat.sub_succ, Nat.sub_0_r.
        rewrite <- (repeat_cons (length s') ch0). reflexivity. }
      unfold zfill.
      replace (bin_str (N.of_nat (2 * 0 + (if b then 1 else 0)))) with [if b then ch1 else ch0]
        by (destruct b; reflexivity).
      cbn [length]. f_equal. transitivity (repeat ch0 (length (c' :: s'))); [f_equal; cbn [length]; lia | symmetry; exact Hz].
  - replace (N.of_nat (2 * v + (if b then 1 else 0)))
      with (2 * N.of_nat v + (if b then 1 else 0))%N by (destruct b; lia).
    rewrite bin_str_step by lia. unfold zfill in *. rewrite app_length; cbn [length].
    destruct s as [|c' s'].
    + exfalso; apply Hv; reflexivity.
    + assert (Hne : c' :: s' <> []) by congruence. specialize (IH Hb Hne).
      rewrite app_assoc. f_equal. etransitivity; [|exact IH]. f_equal. f_equal. lia.
Qed.

Lemma map_binary_value_all_bits n acc :
  map (binary_value acc) (all_bits n) = seq (acc * 2 ^ n) (2 ^ n).
Proof.
  revert acc; induction n as [|n IH]; intros acc.
  - cbn. rewrite Nat.mul_1_r; reflexivity.
  - cbn [all_bits Nat.pow]. rewrite map_app, !map_map.
    replace (2 * 2 ^ n) with (2 ^ n + 2 ^ n) by lia. rewrite seq_app. f_equal.
    + rewrite (map_ext _ (binary_value (2 * acc))) by (intros; cbn; f_equal; lia).
      rewrite IH. f_equal; lia.
    + rewrite (map_ext _ (binary_value (2 * acc + 1))) by (intros; cbn; f_equal; lia).
      rewrite IH. f_equal; lia.
Qed.

Lemma count_keys_all_bits n : 1 <= n -> count_keys n = all_bits n.
Proof.
  intros Hn. unfold count_keys.
  pose proof (map_binary_value_all_bits n 0) as Hm. cbn [Nat.mul] in Hm. rewrite <- Hm, map_map.
  rewrite <- (map_id (all_bits n)) at 2. apply map_ext_in.
  intros s Hs. apply all_bits_In in Hs; destruct Hs as [Hl Hb].
  rewrite <- Hl. apply zfill_bin_value; [exact Hb|]. intros ->; cbn in Hl; lia.
Qed.

Lemma nth_all_bits_value n j s :
  nth_error (all_bits n) j = Some s -> binary_value 0 s = j.
Proof.
  intros Hj. pose proof (map_binary_value_all_bits n 0) as Hm. cbn [Nat.mul] in Hm.
  assert (Hn : nth_error (map (binary_value 0) (all_bits n)) j = Some (binary_value 0 s))
    by (apply map_nth_error; exact Hj).
  rewrite Hm in Hn.
  assert (Hlt : j < 2 ^ n).
  { rewrite <- (all_bits_length n). apply nth_error_Some; congruence. }
  rewrite (nth_error_nth' _ 0) in Hn by (rewrite seq_length; exact Hlt).
  rewrite seq_nth in Hn by exact Hlt. injection Hn as Hn; lia.
Qed.

(** ** Sorting *)
Lemma insert_desc_perm x l : Permutation (x :: l) (insert_desc x l).
Proof.
  induction l as [|a l IH]; cbn; [reflexivity|].
  destruct (a <=? x); [reflexivity|].
  rewrite perm_swap. constructor. exact IH.
Qed.

Lemma sort_desc_perm l : Permutation l (sort_desc l).
Proof.
  induction l as [|a l IH]; cbn; [constructor|].
  rewrite <- insert_desc_perm. constructor. exact IH.
Qed.

Lemma insert_desc_sorted x l : StronglySorted ge l -> StronglySorted ge (insert_desc x l).
Proof.
  induction l as [|a l IH]; cbn; intros Hs.
  - constructor; constructor.
  - inversion Hs as [|? ? Hs' Ha]; subst.
    destruct (Nat.leb_spec a x).
    + constructor; [exact Hs|]. constructor; [lia|].
      eapply Forall_impl; [|exact Ha]; cbn; intros; lia.
    + constructor; [apply IH; exact Hs'|].
      eapply Permutation_Forall; [apply insert_desc_perm|]. constructor; [lia|exact Ha].
Qed.

Lemma sort_desc_sorted l : StronglySorted ge (sort_desc l).
Proof. induction l; cbn; [constructor | apply insert_desc_sorted; assumption]. Qed.

Lemma sorted_unique (l l' : list nat) :
  StronglySorted ge l -> StronglySorted ge l' -> Permutation l l' -> l = l'.
Proof.
  revert l'; induction l as [|a l IH]; intros l' Hs Hs' Hp.
  - apply Permutation_nil in Hp; congruence.
  - destruct l' as [|a' l']; [apply Permutation_sym, Permutation_nil in Hp; discriminate|].
    inversion Hs as [|? ? Hl Ha]; inversion Hs' as [|? ? Hl' Ha']; subst.
    assert (a = a').
    { assert (In a (a' :: l')) by (eapply Permutation_in; [exact Hp | left; reflexivity]).
      assert (In a' (a :: l)) by (eapply Permutation_in; [apply Permutation_sym; exact Hp | left; reflexivity]).
      rewrite Forall_forall in Ha, Ha'.
      cbn in *. destruct H as [H|Hi], H0 as [H0|Hi']; auto.
      specialize (Ha _ Hi'); specialize (Ha' _ Hi); lia. }
    subst a'. f_equal. apply IH; auto. eapply Permutation_cons_inv; exact Hp.
Qed.

Lemma StronglySorted_snoc (R : nat -> nat -> Prop) l x :
  StronglySorted R l -> Forall (fun y => R y x) l -> StronglySorted R (l ++ [x]).
Proof.
  induction l as [|a l IH]; cbn; intros Hs Hf; [constructor; constructor|].
  inversion Hs as [|? ? Hl Ha]; inversion Hf; subst. constructor; [apply IH; auto|].
  rewrite Forall_app; split; [exact Ha | constructor; auto].
Qed.

Lemma rev_sorted l : StronglySorted lt l -> StronglySorted ge (rev l).
Proof.
  induction l as [|a l IH]; cbn; intros Hs; [constructor|].
  inversion Hs as [|? ? Hl Ha]; subst. apply StronglySorted_snoc; [apply IH; exact Hl|].
  rewrite Forall_forall in *. intros y Hy. rewrite <- in_rev in Hy. specialize (Ha y Hy); lia.
Qed.

Lemma sort_desc_asc asc qs : increasing_version asc qs -> sort_desc qs = rev asc.
Proof.
  intros [Hs Hp]. apply sorted_unique.
  - apply sort_desc_sorted.
  - apply rev_sorted; exact Hs.
  - eapply perm_trans; [apply Permutation_sym, sort_desc_perm|].
    eapply perm_trans; [apply Permutation_sym; exact Hp | apply Permutation_rev].
Qed.

Lemma asc_NoDup asc : StronglySorted lt asc -> NoDup asc.
Proof.
  induction 1 as [|a l Hl IH Ha]; constructor; auto.
  intros Hi; rewrite Forall_forall in Ha; specialize (Ha a Hi); lia.
Qed.

(** ** Regular expressions *)
Definition rx_of (qubits : list nat) (key : pystr) (y : nat) : rx :=
  match list_index qubits y with
  | Some i => RLit (nth i key "?"%char)
  | None => RDigit
  end.

Lemma fold_left_rev_map {A B} (f : A -> B) l acc :
  fold_left (fun x y => f y :: x) l acc = rev (map f l) ++ acc.
Proof.
  revert acc; induction l as [|a l IH]; intros acc; cbn; [reflexivity|].
  rewrite IH, <- app_assoc; reflexivity.
Qed.

Lemma rx_for_eq qubits nq key : rx_for qubits nq key = rev (map (rx_of qubits key) (seq 0 nq)).
Proof.
  unfold rx_for.
  transitivity (fold_left (fun x y => rx_of qubits key y :: x) (seq 0 nq) []).
  - generalize (@nil rx) as acc. generalize (seq 0 nq) as l.
    induction l as [|a l IH]; intros acc; cbn; [reflexivity|].
    rewrite <- IH. f_equal. unfold rx_helper, rx_of. destruct (list_index qubits a); reflexivity.
  - rewrite fold_left_rev_map, app_nil_r; reflexivity.
Qed.

Lemma rx_match_forall m s : length m = length s ->
  rx_match m s = forallb (fun p => rx_char (fst p) (snd p)) (combine m s).
Proof.
  revert s; induction m as [|r m IH]; intros [|c s]; cbn; try discriminate; auto.
  intros [= Hl]. rewrite IH by exact Hl. reflexivity.
Qed.

Lemma nth_rev_eq {A} (s : list A) q d : q < length s -> nth q (rev s) d = nth (length s - 1 - q) s d.
Proof. intros H. rewrite rev_nth by exact H. f_equal; lia. Qed.

Lemma combine_rev {A B} (l : list A) (l' : list B) :
  length l = length l' -> combine (rev l) (rev l') = rev (combine l l').
Proof.
  revert l'; induction l as [|a l IH]; intros [|b l'] Hl; cbn in *; try discriminate; auto.
  injection Hl as Hl. rewrite <- IH by exact Hl.
  assert (H : forall (x : list A) (y : list B), length x = length y ->
             combine (x ++ [a]) (y ++ [b]) = combine x y ++ [(a, b)]).
  { induction x as [|u x IHx]; intros [|w y] Hxy; cbn in *; try discriminate; auto.
    rewrite IHx by congruence; reflexivity. }
  apply H. rewrite !rev_length; exact Hl.
Qed.

Lemma forallb_rev {A} (f : A -> bool) l : forallb f (rev l) = forallb f l.
Proof.
  induction l as [|a l IH]; cbn; [reflexivity|].
  rewrite forallb_app, IH; cbn. rewrite andb_true_r, andb_comm; reflexivity.
Qed.

Lemma combine_map_seq {A B} (f : nat -> A) (l : list B) d :
  combine (map f (seq 0 (length l))) l = map (fun q => (f q, nth q l d)) (seq 0 (length l)).
Proof.
  enough (H : forall k, combine (map f (seq k (length l))) l
                = map (fun q => (f q, nth (q - k) l d)) (seq k (length l))).
  { rewrite H. apply map_ext; intros q; f_equal; f_equal; lia. }
  induction l as [|b l IH]; intros k; cbn [length seq map combine]; [reflexivity|].
  f_equal; [f_equal; rewrite Nat.sub_diag; reflexivity|].
  rewrite IH. apply map_ext_in. intros q Hq. apply in_seq in Hq.
  f_equal. replace (q - k) with (S (q - S k)) by lia. reflexivity.
Qed.

Lemma is_digit_bit c : c = "0"%char \/ c = "1"%char -> is_digit c = true.
Proof. intros [->| ->]; reflexivity. Qed.

(** The pattern of [key] matches exactly the outcomes whose value on the kept
    qubits is [key]. *)
Lemma rx_for_match asc s key :
  StronglySorted lt asc -> (forall q, In q asc -> q < length s) ->
  is_bits s -> length key = length asc ->
  rx_match (rx_for (rev asc) (length s) key) s = eqb (outcome_on asc s) key.
Proof.
  intros Hs Hlt Hb Hk.
  rewrite rx_for_eq.
  rewrite rx_match_forall by (rewrite rev_length, map_length, seq_length; reflexivity).
  rewrite <- (rev_involutive s) at 2.
  rewrite combine_rev by (rewrite map_length, seq_length, rev_length; reflexivity).
  rewrite forallb_rev.
  assert (Hc : combine (map (rx_of (rev asc) key) (seq 0 (length s))) (rev s)
               = map (fun q => (rx_of (rev asc) key q, qubit_bit s q)) (seq 0 (length s))).
  { rewrite <- (rev_length s). apply combine_map_seq. }
  rewrite Hc. clear Hc.
  pose proof (asc_NoDup _ Hs) as Hnd.
  assert (Hndr : NoDup (rev asc)) by (apply NoDup_rev; exact Hnd).
  assert (Hbit : forall q, q < length s -> is_digit (qubit_bit s q) = true).
  { intros q Hq. apply is_digit_bit. apply Hb. unfold qubit_bit.
    rewrite in_rev. apply nth_In. rewrite rev_length; exact Hq. }
  destruct (eqb_spec (outcome_on asc s) key) as [He|Hne].
  - apply forallb_forall. intros p Hp. apply in_map_iff in Hp.
    destruct Hp as (q & <- & Hq). apply in_seq in Hq. cbn [fst snd].
    unfold rx_of. destruct (list_index (rev asc) q) as [i|] eqn:Ei; cbn [rx_char].
    + apply list_index_nth in Ei. apply eqb_eq. rewrite <- He.
      unfold outcome_on. rewrite <- map_rev.
      assert (Hi : nth_error (map (qubit_bit s) (rev asc)) i = Some (qubit_bit s q))
        by (apply map_nth_error; exact Ei).
      apply nth_error_nth with (d := "?"%char) in Hi. exact Hi.
    + apply Hbit; lia.
  - apply not_true_is_false. intros Hf. apply Hne.
    rewrite forallb_forall in Hf.
    unfold outcome_on. rewrite <- map_rev.
    apply nth_ext with (d := "?"%char) (d' := "?"%char).
    + rewrite map_length, rev_length; congruence.
    + intros i Hi. rewrite map_length in Hi.
      destruct (nth_error (rev asc) i) as [q|] eqn:Eq; [|apply nth_error_None in Eq; lia].
      assert (Hqi : In q asc) by (rewrite in_rev; eapply nth_error_In; exact Eq).
      specialize (Hf (rx_of (rev asc) key q, qubit_bit s q)).
      assert (Hin : In (rx_of (rev asc) key q, qubit_bit s q)
                (map (fun q => (rx_of (rev asc) key q, qubit_bit s q)) (seq 0 (length s)))).
      { apply in_map_iff. exists q; split; [reflexivity|]. apply in_seq. specialize (Hlt q Hqi); lia. }
      specialize (Hf Hin). cbn [fst snd] in Hf. unfold rx_of in Hf.
      rewrite (list_index_NoDup _ _ _ Hndr Eq) in Hf. cbn [rx_char] in Hf.
      apply eqb_true in Hf. rewrite Hf.
      assert (Hm : nth_error (map (qubit_bit s) (rev asc)) i = Some (qubit_bit s q))
        by (apply map_nth_error; exact Eq).
      apply nth_error_nth with (d := "?"%char) in Hm. exact Hm.
Qed.

(** ** Sums over matching outcomes *)
Lemma match_total_sum c m :
  match_total c m = zsum (map (fun kv => if rx_match m (trim (fst kv)) then snd kv else 0%Z) c).
Proof.
  unfold match_total.
  enough (H : forall acc, fold_left (fun acc kv => if rx_match m (trim (fst kv)) then (acc + snd kv)%Z else acc) c acc
     = (acc + zsum (map (fun kv => if rx_match m (trim (fst kv)) then snd kv else 0%Z) c))%Z)
    by (rewrite H; lia).
  induction c as [|kv c IH]; intros acc; cbn; [lia|].
  rewrite IH. destruct (rx_match m (trim (fst kv))); lia.
Qed.

Lemma match_total_spec n c asc key :
  (forall k v, In (k, v) c -> length (strip k) = n /\ is_bits (strip k)) ->
  StronglySorted lt asc -> (forall q, In q asc -> q < n) -> length key = length asc ->
  match_total c (rx_for (rev asc) n key) = marginal_spec c asc key.
Proof.
  intros Hv Hs Hlt Hk. rewrite match_total_sum. unfold marginal_spec.
  apply zsum_map_ext. intros [k v] Hkv. cbn [fst snd].
  destruct (Hv k v Hkv) as [Hl Hb]. rewrite trim_strip. rewrite <- Hl.
  rewrite rx_for_match; auto. intros q Hq; rewrite Hl; auto.
Qed.

(** ** Building dictionaries from distinct keys *)
Lemma fold_dset_distinct {V} (l : list (pystr * V)) acc :
  NoDup (map fst acc ++ map fst l) ->
  fold_left (fun r kv => dset r (fst kv) (snd kv)) l acc = acc ++ l.
Proof.
  revert acc; induction l as [|[k v] l IH]; intros acc Hnd; cbn; [rewrite app_nil_r; reflexivity|].
  rewrite dkeys_dset_notIn.
  - rewrite IH.
    + rewrite <- app_assoc; reflexivity.
    + rewrite map_app, <- app_assoc. exact Hnd.
  - cbn [map fst] in Hnd. apply NoDup_remove_2 in Hnd. rewrite in_app_iff in Hnd.
    intros Hi; apply Hnd; left; exact Hi.
Qed.

Lemma fold_dset_distinct_filter (l : list (pystr * Z)) acc :
  NoDup (map fst acc ++ map fst l) ->
  fold_left (fun r kv => if eqb (snd kv) 0%Z then r else dset r (fst kv) (snd kv)) l acc
  = acc ++ filter (fun kv => negb (eqb (snd kv) 0%Z)) l.
Proof.
  revert acc; induction l as [|[k v] l IH]; intros acc Hnd; cbn [fold_left filter fst snd].
  - rewrite app_nil_r; reflexivity.
  - cbn [map fst] in Hnd. destruct (eqb_spec v 0%Z) as [->|Hv]; cbn [negb].
    + rewrite IH; [reflexivity|]. apply NoDup_remove_1 in Hnd. exact Hnd.
    + rewrite dkeys_dset_notIn.
      * rewrite IH.
        -- rewrite <- app_assoc; reflexivity.
        -- rewrite map_app, <- app_assoc. exact Hnd.
      * apply NoDup_remove_2 in Hnd. rewrite in_app_iff in Hnd.
        intros Hi; apply Hnd; left; exact Hi.
Qed.

Lemma combine_map_self {A B} (f : A -> B) l : combine l (map f l) = map (fun a => (a, f a)) l.
Proof. induction l; cbn; [reflexivity | f_equal; assumption]. Qed.

Lemma map_fst_pair {A B} (f : A -> B) l : map fst (map (fun a => (a, f a)) l) = l.
Proof. rewrite map_map; apply map_id. Qed.

Lemma dget_map_pair (f : pystr -> Z) l y :
  dget (map (fun a => (a, f a)) l) y = if mem y l then Some (f y) else None.
Proof.
  induction l as [|a l IH]; cbn; [reflexivity|].
  unfold mem in *; cbn. destruct (eqb_spec y a) as [->|Hn]; cbn; [reflexivity | exact IH].
Qed.

Lemma dget0_filter_nz (d : counts) y :
  NoDup (map fst d) ->
  dget0 (filter (fun kv => negb (eqb (snd kv) 0%Z)) d) y = dget0 d y.
Proof.
  unfold dget0. induction d as [|[k v] d IH]; cbn [map fst]; [reflexivity|].
  intros Hnd; inversion Hnd as [|? ? Hni Hnd']; subst. cbn [filter snd].
  destruct (eqb_spec v 0%Z) as [->|Hv]; cbn [negb dget].
  - rewrite IH by exact Hnd'. destruct (eqb_spec y k) as [->|Hn]; [|reflexivity].
    replace (dget d k) with (@None Z); [reflexivity|].
    symmetry; apply dget_None; exact Hni.
  - destruct (eqb y k); [reflexivity | apply IH; exact Hnd'].
Qed.

Lemma marginal_spec_not_bits c asc y n :
  (forall k v, In (k, v) c -> length (strip k) = n /\ is_bits (strip k)) ->
  (forall q, In q asc -> q < n) ->
  ~ (length y = length asc /\ is_bits y) -> marginal_spec c asc y = 0%Z.
Proof.
  intros Hv Hlt Hy. unfold marginal_spec. rewrite (zsum_map_ext _ (fun _ => 0%Z)).
  - apply zsum_map_zero.
  - intros [k v] Hkv; cbn [fst snd].
    destruct (eqb_spec (outcome_on asc (strip k)) y) as [He|]; [|reflexivity].
    exfalso; apply Hy. destruct (Hv k v Hkv) as [Hl Hb]. subst y. unfold outcome_on. split.
    + rewrite rev_length, map_length; reflexivity.
    + apply is_bits_rev. intros c0 Hc0. apply in_map_iff in Hc0.
      destruct Hc0 as (q & <- & Hq). apply Hb. unfold qubit_bit.
      rewrite in_rev. apply nth_In. rewrite rev_length, Hl; auto.
Qed.

Lemma marginal_spec_total c asc n :
  (forall k v, In (k, v) c -> length (strip k) = n /\ is_bits (strip k)) ->
  (forall q, In q asc -> q < n) ->
  zsum (map (marginal_spec c asc) (all_bits (length asc))) = total c.
Proof.
  intros Hv Hlt. unfold marginal_spec. rewrite zsum_swap. unfold total.
  apply zsum_map_ext. intros [k v] Hkv. cbn [fst snd].
  destruct (Hv k v Hkv) as [Hl Hb].
  apply (zsum_pick (all_bits (length asc)) (outcome_on asc (strip k)) (fun _ => v)).
  - apply all_bits_NoDup.
  - apply all_bits_In. unfold outcome_on; split; [rewrite rev_length, map_length; reflexivity|].
    apply is_bits_rev. intros c0 Hc0. apply in_map_iff in Hc0.
    destruct Hc0 as (q & <- & Hq). apply Hb. unfold qubit_bit.
    rewrite in_rev. apply nth_In. rewrite rev_length, Hl; auto.
Qed.

(** The dictionary returned when some qubit is summed over. *)
Lemma marginal_counts_general n c qs asc pad :
  c <> [] ->
  (forall k v, In (k, v) c -> length (strip k) = n /\ is_bits (strip k)) ->
  increasing_version asc qs -> (forall q, In q qs -> q < n) -> qs <> [] -> length qs <> n ->
  marginal_counts c (Some qs) pad =
  Ok (let full := map (fun y => (y, marginal_spec c asc y)) (all_bits (length qs)) in
      if pad then full else filter (fun kv => negb (eqb (snd kv) 0%Z)) full).
Proof.
  intros Hne Hv Hasc Hlt Hq Hlen. destruct c as [|[k0 v0] c]; [congruence|].
  unfold marginal_counts.
  destruct (Hv k0 v0 (or_introl eq_refl)) as [Hl0 _].
  rewrite trim_strip, Hl0.
  destruct (Nat.eqb_spec n (length qs)) as [He|_]; [congruence|].
  rewrite (sort_desc_asc _ _ Hasc).
  destruct Hasc as [Hs Hp]. pose proof (Permutation_length Hp) as Hpl.
  rewrite rev_length, Hpl.
  rewrite count_keys_all_bits by (destruct qs; cbn; [congruence | lia]).
  set (full := map (fun y => (y, marginal_spec ((k0, v0) :: c) asc y)) (all_bits (length qs))).
  assert (Hz : combine (all_bits (length qs))
     (map (fun key => match_total ((k0, v0) :: c) (rx_for (rev asc) n key)) (all_bits (length qs))) = full).
  { rewrite combine_map_self. unfold full. apply map_ext_in. intros y Hy.
    apply all_bits_In in Hy. f_equal. apply match_total_spec; auto.
    - intros q Hqa. apply Hlt. eapply Permutation_in; [exact Hp | exact Hqa].
    - destruct Hy; congruence. }
  rewrite Hz.
  assert (Hnd : NoDup (map fst (@nil (pystr * Z)) ++ map fst full)).
  { cbn. unfold full. rewrite map_fst_pair. apply all_bits_NoDup. }
  destruct pad.
  - rewrite fold_dset_distinct by exact Hnd. reflexivity.
  - rewrite fold_dset_distinct_filter by exact Hnd. reflexivity.
Qed.

Lemma seq_sorted k n : StronglySorted lt (seq k n).
Proof.
  revert k; induction n as [|n IH]; intros k; cbn; constructor; [apply IH|].
  apply Forall_forall; intros x Hx; apply in_seq in Hx; lia.
Qed.

Lemma asc_full asc n :
  StronglySorted lt asc -> (forall q, In q asc -> q < n) -> length asc = n -> asc = seq 0 n.
Proof.
  intros Hs Hlt Hl.
  assert (Hp : Permutation asc (seq 0 n)).
  { apply NoDup_Permutation_bis.
    - apply asc_NoDup; exact Hs.
    - rewrite seq_length; lia.
    - intros q Hq; apply in_seq; specialize (Hlt q Hq); lia. }
  rewrite <- (rev_involutive asc), <- (rev_involutive (seq 0 n)). f_equal.
  apply sorted_unique.
  - apply rev_sorted; exact Hs.
  - apply rev_sorted, seq_sorted.
  - rewrite <- (Permutation_rev asc), <- (Permutation_rev (seq 0 n)). exact Hp.
Qed.

Lemma outcome_on_full s : outcome_on (seq 0 (length s)) s = s.
Proof.
  unfold outcome_on. rewrite <- (rev_involutive s) at 3. f_equal.
  unfold qubit_bit. rewrite <- (rev_length s).
  generalize (rev s) as l. intros l. clear s.
  apply nth_ext with (d := "?"%char) (d' := "?"%char).
  - rewrite map_length, seq_length; reflexivity.
  - intros i Hi. rewrite map_length, seq_length in Hi.
    rewrite nth_indep with (d' := nth (length l) l "?"%char) by (rewrite map_length, seq_length; exact Hi).
    change (nth (length l) l "?"%char) with ((fun q => nth q l "?"%char) (length l)).
    rewrite map_nth, seq_nth by exact Hi. reflexivity.
Qed.

(** The key-trimming shortcut. *)
Lemma marginal_counts_shortcut n c (meas : option (list nat)) pad :
  valid_counts n c ->
  match meas with None => True | Some qs => length qs = n end ->
  marginal_counts c meas pad = Ok (map (fun kv => (strip (fst kv), snd kv)) c).
Proof.
  intros (Hne & Hnd & Hv) Hm. destruct c as [|[k0 v0] c']; [congruence|].
  unfold marginal_counts. destruct (Hv k0 v0 (or_introl eq_refl)) as [Hl0 _].
  rewrite trim_strip, Hl0.
  replace (match meas with None => true | Some qs => n =? length qs end) with true
    by (destruct meas as [qs|]; [symmetry; apply Nat.eqb_eq; congruence | reflexivity]).
  f_equal. set (c := (k0, v0) :: c') in *.
  transitivity (fold_left (fun r kv => dset r (fst kv) (snd kv)) (map (fun kv => (strip (fst kv), snd kv)) c) []).
  - generalize (@nil (pystr * Z)) as acc. clearbody c. clear - c. induction c as [|[k v] c IH]; intros acc; cbn; [reflexivity|].
    rewrite trim_strip. apply IH.
  - rewrite fold_dset_distinct; [reflexivity|]. cbn [map app]. rewrite map_map. cbn [fst]. exact Hnd.
Qed.

Lemma dget0_shortcut c y :
  NoDup (map (fun kv => strip (fst kv)) c) ->
  dget0 (map (fun kv => (strip (fst kv), snd kv)) c) y
  = zsum (map (fun kv => if eqb (strip (fst kv)) y then snd kv else 0%Z) c).
Proof.
  unfold dget0. induction c as [|[k v] c IH]; cbn [map fst snd dget]; [reflexivity|].
  intros Hnd; inversion Hnd as [|? ? Hni Hnd']; subst. cbn [zsum].
  destruct (eqb_spec y (strip k)) as [->|Hn].
  - rewrite eqb_refl. rewrite (zsum_map_ext _ (fun _ => 0%Z)); [rewrite zsum_map_zero; lia|].
    intros [k' v'] Hk'; cbn [fst snd]. destruct (eqb_spec (strip k') (strip k)) as [He|]; [|reflexivity].
    exfalso; apply Hni. apply in_map_iff. exists (k', v'); split; auto.
  - destruct (eqb_spec (strip k) y); [congruence|]. rewrite IH by exact Hnd'. lia.
Qed.

(** ** C01 *)
Lemma valid_marginal_total c : total (map (fun kv => (strip (fst kv), snd kv)) c) = total c.
Proof. unfold total. rewrite map_map. reflexivity. Qed.

Lemma total_filter_nz (d : counts) :
  total (filter (fun kv => negb (eqb (snd kv) 0%Z)) d) = total d.
Proof.
  unfold total. induction d as [|[k v] d IH]; cbn [filter map snd zsum]; [reflexivity|].
  destruct (eqb_spec v 0%Z) as [->|Hv]; cbn [negb map snd zsum]; lia.
Qed.

Lemma NoDup_map_filter {A B} (f : A -> B) g l : NoDup (map f l) -> NoDup (map f (filter g l)).
Proof.
  induction l as [|a l IH]; cbn; [auto|]. intros Hnd; inversion Hnd as [|? ? Hni Hnd']; subst.
  destruct (g a); cbn; auto. constructor; auto.
  intros Hi; apply Hni. apply in_map_iff in Hi. destruct Hi as (x & Hx & Hxi).
  apply filter_In in Hxi. apply in_map_iff. exists x; tauto.
Qed.

Lemma marginal_counts_exact_lemma n c qs asc pad :
  valid_counts n c -> increasing_version asc qs -> (forall q, In q qs -> q < n) -> qs <> [] ->
  exists r, marginal_counts c (Some qs) pad = Ok r /\
    (forall y, dget0 r y = marginal_spec c asc y) /\
    total r = total c /\
    NoDup (map fst r) /\
    (forall y, In y (map fst r) -> length y = length qs /\ is_bits y) /\
    (length qs <> n -> forall y, In y (map fst r) <->
        (length y = length qs /\ is_bits y) /\ (pad = true \/ marginal_spec c asc y <> 0%Z)).
Proof.
  intros Hvc Hasc Hlt Hq. pose proof Hvc as (Hne & Hndk & Hv).
  pose proof Hasc as [Hs Hp]. pose proof (Permutation_length Hp) as Hpl.
  assert (Hlta : forall q, In q asc -> q < n).
  { intros q Hqa; apply Hlt; eapply Permutation_in; [exact Hp | exact Hqa]. }
  destruct (Nat.eq_dec (length qs) n) as [Hfull|Hpart].
  - exists (map (fun kv => (strip (fst kv), snd kv)) c).
    split; [apply (marginal_counts_shortcut n); auto|].
    split; [|split; [|split; [|split]]].
    + intros y. rewrite dget0_shortcut by exact Hndk. unfold marginal_spec.
      apply zsum_map_ext. intros [k v] Hkv; cbn [fst snd]. destruct (Hv k v Hkv) as [Hl Hb].
      rewrite (asc_full asc n) by (auto; congruence). rewrite <- Hl, outcome_on_full. reflexivity.
    + apply valid_marginal_total.
    + rewrite map_map; exact Hndk.
    + intros y Hy. rewrite map_map in Hy. apply in_map_iff in Hy. destruct Hy as ([k v] & <- & Hkv). cbn.
      destruct (Hv k v Hkv); split; [congruence | assumption].
    + congruence.
  - eexists. split; [apply (marginal_counts_general n _ _ asc); auto|]. cbn zeta.
    set (full := map (fun y => (y, marginal_spec c asc y)) (all_bits (length qs))).
    assert (Hndf : NoDup (map fst full)) by (unfold full; rewrite map_fst_pair; apply all_bits_NoDup).
    assert (Hgf : forall y, dget0 full y = marginal_spec c asc y).
    { intros y. unfold dget0, full. rewrite dget_map_pair.
      destruct (mem y (all_bits (length qs))) eqn:Em; [reflexivity|].
      apply mem_not_In in Em. symmetry. apply (marginal_spec_not_bits _ _ _ n); auto.
      intros Hy; apply Em; apply all_bits_In. rewrite <- Hpl; exact Hy. }
    assert (Htf : total full = total c).
    { unfold total at 1, full. rewrite map_map. cbn [snd]. rewrite <- Hpl.
      apply (marginal_spec_total _ _ n); auto. }
    split; [|split; [|split; [|split]]].
    + intros y. destruct pad; [apply Hgf|]. rewrite dget0_filter_nz by exact Hndf. apply Hgf.
    + destruct pad; [exact Htf|]. rewrite total_filter_nz; exact Htf.
    + destruct pad; [exact Hndf|]. apply NoDup_map_filter; exact Hndf.
    + intros y Hy. apply all_bits_In. destruct pad.
      * unfold full in Hy; rewrite map_fst_pair in Hy; exact Hy.
      * apply in_map_iff in Hy. destruct Hy as ([k v] & <- & Hy). apply filter_In in Hy.
        destruct Hy as [Hy _]. unfold full in Hy. apply in_map_iff in Hy.
        destruct Hy as (z & [= <- <-] & Hz). exact Hz.
    + intros _ y. destruct pad.
      * unfold full; rewrite map_fst_pair, all_bits_In. tauto.
      * rewrite in_map_iff. split.
        -- intros ([k v] & <- & Hy). apply filter_In in Hy. destruct Hy as [Hy Hnz].
           unfold full in Hy. apply in_map_iff in Hy. destruct Hy as (z & [= <- <-] & Hz).
           apply all_bits_In in Hz. split; [exact Hz|]. right. cbn in Hnz.
           destruct (eqb_spec (marginal_spec c asc z) 0%Z); [discriminate | assumption].
        -- intros [Hy [Hf|Hnz]]; [discriminate|]. exists (y, marginal_spec c asc y).
           split; [reflexivity|]. apply filter_In. split.
           ++ unfold full. apply in_map_iff. exists y; split; [reflexivity | apply all_bits_In; exact Hy].
           ++ cbn. destruct (eqb_spec (marginal_spec c asc y) 0%Z); [congruence | reflexivity].
Qed.

(** ** C02: marginals compose *)
Lemma sum_over_dict (r : counts) m (f : pystr -> Z) :
  NoDup (map fst r) -> (forall y, In y (map fst r) -> length y = m /\ is_bits y) ->
  zsum (map (fun kv => f (fst kv) * snd kv)%Z r)
  = zsum (map (fun y => f y * dget0 r y)%Z (all_bits m)).
Proof.
  intros Hnd Hk.
  rewrite (zsum_map_ext (fun y => f y * dget0 r y)%Z
     (fun y => zsum (map (fun kv => if eqb (fst kv) y then f (fst kv) * snd kv else 0)%Z r))).
  - rewrite <- zsum_swap. apply zsum_map_ext. intros [k v] Hkv; cbn [fst snd].
    symmetry. apply (zsum_pick (all_bits m) k (fun _ => f k * v)%Z).
    + apply all_bits_NoDup.
    + apply all_bits_In, Hk. apply in_map_iff. exists (k, v); auto.
  - intros y _. clear Hk. unfold dget0. induction r as [|[k v] r IH]; cbn [map fst snd zsum dget]; [lia|].
    inversion Hnd as [|? ? Hni Hnd']; subst.
    destruct (eqb_spec y k) as [->|Hn].
    + rewrite eqb_refl. rewrite (zsum_map_ext _ (fun _ => 0%Z)); [rewrite zsum_map_zero; lia|].
      intros [k' v'] Hk'; cbn [fst snd]. destruct (eqb_spec k' k) as [->|]; [|reflexivity].
      exfalso; apply Hni. apply in_map_iff. exists (k, v'); auto.
    + destruct (eqb_spec k y); [congruence|]. rewrite <- IH by exact Hnd'. lia.
Qed.

Lemma strip_bits s : is_bits s -> strip s = s.
Proof.
  induction s as [|c s IH]; cbn; [reflexivity|]. intros Hb; apply is_bits_cons in Hb.
  destruct Hb as [[->| ->] Hb]; cbn; rewrite IH by exact Hb; reflexivity.
Qed.

Lemma outcome_on_bits asc s : is_bits s -> (forall q, In q asc -> q < length s) -> is_bits (outcome_on asc s).
Proof.
  intros Hb Hlt. unfold outcome_on. apply is_bits_rev. intros c0 Hc0. apply in_map_iff in Hc0.
  destruct Hc0 as (q & <- & Hq). apply Hb. unfold qubit_bit.
  rewrite in_rev. apply nth_In. rewrite rev_length; auto.
Qed.

Lemma outcome_on_length asc s : length (outcome_on asc s) = length asc.
Proof. unfold outcome_on. rewrite rev_length, map_length; reflexivity. Qed.

Lemma qubit_bit_outcome asc s b : b < length asc ->
  qubit_bit (outcome_on asc s) b = qubit_bit s (nth b asc 0).
Proof.
  intros Hb. unfold qubit_bit at 1, outcome_on. rewrite rev_involutive.
  rewrite nth_indep with (d' := qubit_bit s 0) by (rewrite map_length; exact Hb).
  apply map_nth.
Qed.

Lemma outcome_on_compose ascA ascB s :
  (forall b, In b ascB -> b < length ascA) ->
  outcome_on ascB (outcome_on ascA s) = outcome_on (map (fun b => nth b ascA 0) ascB) s.
Proof.
  intros Hlt. unfold outcome_on at 1 3. f_equal. rewrite map_map. apply map_ext_in.
  intros b Hb. apply qubit_bit_outcome; auto.
Qed.

Lemma marginal_spec_as_sum (r : counts) asc y :
  (forall k, In k (map fst r) -> is_bits k) ->
  marginal_spec r asc y = zsum (map (fun kv => (if eqb (outcome_on asc (fst kv)) y then 1 else 0) * snd kv)%Z r).
Proof.
  intros Hb. unfold marginal_spec. apply zsum_map_ext. intros [k v] Hkv; cbn [fst snd].
  rewrite strip_bits by (apply Hb; apply in_map_iff; exists (k, v); auto).
  destruct (eqb (outcome_on asc k) y); lia.
Qed.

Lemma marginal_spec_compose n c r ascA ascB y :
  (forall k v, In (k, v) c -> length (strip k) = n /\ is_bits (strip k)) ->
  (forall q, In q ascA -> q < n) -> (forall b, In b ascB -> b < length ascA) ->
  NoDup (map fst r) -> (forall y, In y (map fst r) -> length y = length ascA /\ is_bits y) ->
  (forall y, dget0 r y = marginal_spec c ascA y) ->
  marginal_spec r ascB y = marginal_spec c (map (fun b => nth b ascA 0) ascB) y.
Proof.
  intros Hv HltA HltB Hnd Hk Hg.
  rewrite marginal_spec_as_sum by (intros k Hin; apply Hk; exact Hin).
  rewrite (sum_over_dict r (length ascA) (fun k => if eqb (outcome_on ascB k) y then 1 else 0)%Z Hnd Hk).
  rewrite (zsum_map_ext _ (fun k => zsum (map (fun kv =>
     if eqb (outcome_on ascA (strip (fst kv))) k then
       (if eqb (outcome_on ascB k) y then snd kv else 0) else 0)%Z c))).
  - rewrite zsum_swap. unfold marginal_spec. apply zsum_map_ext. intros [k v] Hkv; cbn [fst snd].
    destruct (Hv k v Hkv) as [Hl Hb].
    rewrite (zsum_pick (all_bits (length ascA)) (outcome_on ascA (strip k))
              (fun z => if eqb (outcome_on ascB z) y then v else 0)%Z).
    + rewrite outcome_on_compose by exact HltB. reflexivity.
    + apply all_bits_NoDup.
    + apply all_bits_In. split; [apply outcome_on_length|].
      apply outcome_on_bits; [exact Hb | rewrite Hl; exact HltA].
  - intros k _. rewrite Hg. unfold marginal_spec. rewrite <- zsum_map_mul.
    apply zsum_map_ext. intros [k' v'] _; cbn [fst snd].
    destruct (eqb (outcome_on ascA (strip k')) k), (eqb (outcome_on ascB k) y); lia.
Qed.

Lemma sorted_map_nth asc l : StronglySorted lt asc -> StronglySorted lt l ->
  (forall b, In b l -> b < length asc) -> StronglySorted lt (map (fun b => nth b asc 0) l).
Proof.
  intros Hs Hl. assert (Hmono : forall i j, i < j -> j < length asc -> nth i asc 0 < nth j asc 0).
  { clear l Hl. induction Hs as [|a asc Hs IH Ha]; cbn; [lia|]. intros [|i] [|j] Hij Hj; try lia.
    - rewrite Forall_forall in Ha. apply Ha, nth_In; lia.
    - apply IH; lia. }
  induction Hl as [|b l Hl IH Hb]; cbn; intros Hlt; constructor.
  - apply IH; auto.
  - rewrite Forall_forall in *. intros x Hx. apply in_map_iff in Hx. destruct Hx as (b' & <- & Hb').
    apply Hmono; auto.
Qed.

Lemma marginal_counts_compose_lemma n c A ascA B ascB r1 :
  valid_counts n c -> (forall k v, In (k, v) c -> (0 <= v)%Z) -> (0 < total c)%Z ->
  increasing_version ascA A -> (forall q, In q A -> q < n) -> A <> [] ->
  increasing_version ascB B -> (forall b, In b B -> b < length A) -> B <> [] ->
  marginal_counts c (Some A) false = Ok r1 ->
  exists r2 r3,
    marginal_counts r1 (Some B) false = Ok r2 /\
    marginal_counts c (Some (map (fun b => nth b ascA 0) B)) false = Ok r3 /\
    forall y, dget0 r2 y = dget0 r3 y.
Proof.
  intros Hvc Hpos Htot HA HltA HneA HB HltB HneB Hr1.
  destruct (marginal_counts_exact_lemma n c A ascA false Hvc HA HltA HneA)
    as (r1' & Hr1' & Hg1 & Ht1 & Hnd1 & Hk1 & _).
  assert (r1' = r1) by congruence; subst r1'.
  destruct HA as [HsA HpA]. destruct HB as [HsB HpB].
  pose proof (Permutation_length HpA) as HlA.
  assert (HltA' : forall q, In q ascA -> q < n).
  { intros q Hq; apply HltA; eapply Permutation_in; eauto. }
  assert (HltB' : forall b, In b ascB -> b < length ascA).
  { intros b Hb; rewrite HlA; apply HltB; eapply Permutation_in; eauto. }
  assert (Hvr1 : valid_counts (length A) r1).
  { split; [|split].
    - intros ->. unfold total in Ht1 at 1; cbn in Ht1; lia.
    - rewrite (map_ext_in _ fst); [exact Hnd1|]. intros [k v] Hkv; cbn. apply strip_bits.
      apply Hk1. apply in_map_iff; exists (k, v); auto.
    - intros k v Hkv. assert (Hik : In k (map fst r1)) by (apply in_map_iff; exists (k, v); auto).
      destruct (Hk1 k Hik) as [Hl Hb]. rewrite strip_bits by exact Hb. auto. }
  destruct (marginal_counts_exact_lemma (length A) r1 B ascB false Hvr1) as (r2 & Hr2 & Hg2 & _);
    [split; auto | exact HltB | exact HneB |].
  destruct (marginal_counts_exact_lemma n c (map (fun b => nth b ascA 0) B)
              (map (fun b => nth b ascA 0) ascB) false Hvc) as (r3 & Hr3 & Hg3 & _).
  { split; [apply sorted_map_nth; auto | apply Permutation_map; exact HpB]. }
  { intros q Hq. apply in_map_iff in Hq. destruct Hq as (b & <- & Hb). apply HltA'.
    apply nth_In. rewrite HlA; auto. }
  { destruct B; cbn; congruence. }
  exists r2, r3. split; [exact Hr2|]. split; [exact Hr3|].
  intros y. rewrite Hg2, Hg3. destruct Hvc as (_ & _ & Hv).
  apply (marginal_spec_compose n); auto.
  intros y0 Hy0; rewrite HlA; auto.
Qed.

(** ** C04 *)
Lemma combine_step_get0 r kv k :
  dget0 (combine_step r kv) k = (dget0 r k + (if eqb (fst kv) k then snd kv else 0))%Z.
Proof.
  destruct kv as [k' v]; unfold combine_step; cbn [fst snd].
  destruct (dmem r k') eqn:Em; rewrite dget0_dset.
  - destruct (eqb_spec k k') as [->|Hn]; [rewrite eqb_refl; reflexivity|].
    destruct (eqb_spec k' k); [congruence | lia].
  - rewrite dmem_dget in Em. destruct (eqb_spec k k') as [->|Hn].
    + rewrite eqb_refl. unfold dget0. destruct (dget r k'); [discriminate | lia].
    + destruct (eqb_spec k' k); [congruence | lia].
Qed.

Lemma combine_counts_get0 c1 c2 k :
  dget0 (combine_counts c1 c2) k = (dget0 c1 k + shots_of c2 k)%Z.
Proof.
  unfold combine_counts, shots_of. revert c1. induction c2 as [|kv c2 IH]; intros c1; cbn [fold_left map zsum]; [lia|].
  rewrite IH, combine_step_get0. lia.
Qed.

Lemma shots_of_dget0 (c : counts) k : NoDup (map fst c) -> dget0 c k = shots_of c k.
Proof.
  unfold dget0, shots_of. induction c as [|[k' v] c IH]; cbn [map fst snd dget zsum]; [reflexivity|].
  intros Hnd; inversion Hnd as [|? ? Hni Hnd']; subst.
  destruct (eqb_spec k k') as [->|Hn].
  - rewrite eqb_refl. rewrite (zsum_map_ext _ (fun _ => 0%Z)); [rewrite zsum_map_zero; lia|].
    intros [k'' v''] Hk'; cbn [fst snd]. destruct (eqb_spec k'' k') as [->|]; [|reflexivity].
    exfalso; apply Hni. apply in_map_iff. exists (k', v''); auto.
  - destruct (eqb_spec k' k); [congruence|]. rewrite IH by exact Hnd'. lia.
Qed.

Lemma combine_step_keys r kv k :
  In k (dkeys (combine_step r kv)) <-> In k (dkeys r) \/ k = fst kv.
Proof. unfold combine_step. destruct (dmem r (fst kv)); rewrite In_dkeys_dset; tauto. Qed.

Lemma combine_counts_keys c1 c2 k :
  In k (dkeys (combine_counts c1 c2)) <-> In k (dkeys c1) \/ In k (dkeys c2).
Proof.
  unfold combine_counts. revert c1; induction c2 as [|[k' v] c2 IH]; intros c1; cbn [fold_left].
  - unfold dkeys at 3; cbn; tauto.
  - rewrite IH, combine_step_keys, dkeys_cons. cbn [fst In]. intuition congruence.
Qed.

Lemma combine_step_NoDup r kv : NoDup (dkeys r) -> NoDup (dkeys (combine_step r kv)).
Proof. unfold combine_step. destruct (dmem r (fst kv)); apply NoDup_dset. Qed.

Lemma combine_counts_NoDup c1 c2 : NoDup (dkeys c1) -> NoDup (dkeys (combine_counts c1 c2)).
Proof.
  unfold combine_counts. revert c1; induction c2 as [|kv c2 IH]; intros c1 Hnd; cbn; auto.
  apply IH, combine_step_NoDup, Hnd.
Qed.

Lemma total_dset_mem (r : counts) k v : In k (dkeys r) ->
  total (dset r k v) = (total r - dget0 r k + v)%Z.
Proof.
  unfold total, dget0. induction r as [|[k' v'] r IH]; [intros []|].
  rewrite dkeys_cons. cbn [dset dget]. destruct (eqb_spec k k') as [->|Hn]; cbn [map snd zsum].
  - intros _; lia.
  - intros [He|Hi]; [congruence|]. rewrite IH by exact Hi. lia.
Qed.

Lemma total_app (c1 c2 : outcome_counts) : total (c1 ++ c2) = (total c1 + total c2)%Z.
Proof. unfold total. rewrite map_app, zsum_app; reflexivity. Qed.

Lemma total_combine_step r kv : total (combine_step r kv) = (total r + snd kv)%Z.
Proof.
  unfold combine_step. destruct (dmem r (fst kv)) eqn:Em.
  - rewrite total_dset_mem by (apply dmem_spec; exact Em). lia.
  - rewrite dkeys_dset_notIn by (apply mem_not_In; exact Em).
    rewrite total_app. unfold total at 2; cbn. lia.
Qed.

Lemma combine_counts_total c1 c2 : total (combine_counts c1 c2) = (total c1 + total c2)%Z.
Proof.
  unfold combine_counts. revert c1; induction c2 as [|kv c2 IH]; intros c1; cbn [fold_left].
  - unfold total at 3; cbn; lia.
  - rewrite IH, total_combine_step. unfold total at 4; cbn [map zsum]. fold (total c2). lia.
Qed.

Lemma heap_set_other h a c b : a <> b -> nth_error (heap_set h a c) b = nth_error h b.
Proof.
  revert a b; induction h as [|x h IH]; intros [|a] [|b] Hab; cbn; auto; try congruence.
Qed.

Lemma heap_set_same h a c : a < length h -> nth_error (heap_set h a c) a = Some c.
Proof.
  revert a; induction h as [|x h IH]; intros [|a] Ha; cbn in *; try lia; auto.
  apply IH; lia.
Qed.

Lemma combine_counts_heap_effect_lemma h a1 a2 c1 c2 :
  nth_error h a1 = Some c1 -> nth_error h a2 = Some c2 ->
  exists h', combine_counts_heap h a1 a2 = Ok (h', a1) /\
    nth_error h' a1 = Some (combine_counts c1 c2) /\
    forall b, b <> a1 -> nth_error h' b = nth_error h b.
Proof.
  intros H1 H2. unfold combine_counts_heap. rewrite H1, H2. eexists; split; [reflexivity|]. split.
  - apply heap_set_same. apply nth_error_Some; congruence.
  - intros b Hb. apply heap_set_other; congruence.
Qed.

(** build_counts_dict_from_list *)
Definition build_step (r : counts) (kv : pystr * Z) : counts :=
  dset r (fst kv) (dget0 r (fst kv) + snd kv)%Z.

Lemma build_step_get0 r kv k :
  dget0 (build_step r kv) k = (dget0 r k + (if eqb (fst kv) k then snd kv else 0))%Z.
Proof.
  destruct kv as [k' v]; unfold build_step; cbn [fst snd]. rewrite dget0_dset.
  destruct (eqb_spec k k') as [->|Hn]; [rewrite eqb_refl; reflexivity|].
  destruct (eqb_spec k' k); [congruence | lia].
Qed.

Lemma build_inner_get0 c acc k :
  dget0 (fold_left build_step c acc) k = (dget0 acc k + shots_of c k)%Z.
Proof.
  unfold shots_of. revert acc; induction c as [|kv c IH]; intros acc; cbn [fold_left map zsum]; [lia|].
  rewrite IH, build_step_get0; lia.
Qed.

Lemma build_outer_get0 l acc k :
  dget0 (fold_left (fun a c => fold_left build_step c a) l acc) k
  = (dget0 acc k + zsum (map (fun c => shots_of c k) l))%Z.
Proof.
  revert acc; induction l as [|c l IH]; intros acc; cbn [fold_left map zsum]; [lia|].
  rewrite IH, build_inner_get0. lia.
Qed.

Lemma build_counts_sum_lemma l k :
  (forall c, In c l -> NoDup (map fst c)) ->
  dget0 (build_counts l) k = zsum (map (fun c => shots_of c k) l).
Proof.
  intros Hnd. unfold build_counts.
  assert (Hg : dget0 (fold_left (fun acc c => fold_left build_step c acc) l []) k
          = zsum (map (fun c => shots_of c k) l)).
  { rewrite build_outer_get0. unfold dget0; cbn; lia. }
  destruct l as [|c [|c' l']]; [exact Hg | | exact Hg].
  cbn. rewrite shots_of_dget0 by (apply Hnd; left; reflexivity). lia.
Qed.

Lemma build_counts_perm_lemma l l' k :
  (forall c, In c l -> NoDup (map fst c)) -> Permutation l l' ->
  dget0 (build_counts l) k = dget0 (build_counts l') k.
Proof.
  intros Hnd Hp. rewrite !build_counts_sum_lemma; auto.
  - apply zsum_perm, Permutation_map, Hp.
  - intros c Hc; apply Hnd. eapply Permutation_in; [apply Permutation_sym; exact Hp | exact Hc].
Qed.

(** ** C05 *)
Lemma count1_ones_on asc s : count1 (outcome_on asc s) = ones_on asc s.
Proof.
  unfold count1, ones_on, outcome_on.
  assert (Hr : forall l : pystr, length (filter (eqb ch1) (rev l)) = length (filter (eqb ch1) l)).
  { intros l. apply Permutation_length. induction l as [|c l IH]; cbn [rev filter]; [constructor|].
    rewrite filter_app. cbn [filter]. destruct (eqb ch1 c).
    - eapply perm_trans; [apply Permutation_sym, Permutation_cons_append|]. constructor; exact IH.
    - rewrite app_nil_r; exact IH. }
  rewrite Hr. induction asc as [|q asc IH]; cbn [map filter]; [reflexivity|].
  destruct (eqb_spec ch1 (qubit_bit s q)) as [<-|Hn].
  - change (eqb ch1 "1"%char) with true. cbn [length]. f_equal. exact IH.
  - destruct (eqb_spec (qubit_bit s q) "1"%char) as [He|]; [exfalso; apply Hn; symmetry; exact He | exact IH].
Qed.

Lemma exp_value_sum (m : counts) :
  fold_left (fun acc kv => acc + sgn (count1 (fst kv)) * snd kv)%Z m 0%Z
  = zsum (map (fun kv => sgn (count1 (fst kv)) * snd kv)%Z m).
Proof.
  enough (H : forall acc, fold_left (fun acc kv => acc + sgn (count1 (fst kv)) * snd kv)%Z m acc
     = (acc + zsum (map (fun kv => sgn (count1 (fst kv)) * snd kv)%Z m))%Z) by (rewrite H; lia).
  induction m as [|kv m IH]; intros acc; cbn; [lia|]. rewrite IH; lia.
Qed.

Lemma exp_value_spec n c asc :
  valid_counts n c -> (forall k v, In (k, v) c -> strip k = k) ->
  StronglySorted lt asc -> (forall q, In q asc -> q < n) -> asc <> [] ->
  exp_value c asc = Ok (parity_spec c asc).
Proof.
  intros Hvc Hsp Hs Hlt Hne.
  destruct (marginal_counts_exact_lemma n c asc asc true Hvc) as (r & Hr & Hg & _ & Hnd & Hk & _).
  { split; [exact Hs | reflexivity]. }
  { exact Hlt. }
  { exact Hne. }
  unfold exp_value. rewrite Hr. cbn [bind]. f_equal. rewrite exp_value_sum.
  rewrite (sum_over_dict r (length asc) (fun k => sgn (count1 k)) Hnd Hk).
  rewrite (zsum_map_ext _ (fun k => zsum (map (fun kv =>
     if eqb (outcome_on asc (strip (fst kv))) k then sgn (count1 k) * snd kv else 0)%Z c))).
  - rewrite zsum_swap. unfold parity_spec. apply zsum_map_ext. intros [k v] Hkv; cbn [fst snd].
    destruct Hvc as (_ & _ & Hv). destruct (Hv k v Hkv) as [Hl Hb].
    rewrite (zsum_pick (all_bits (length asc)) (outcome_on asc (strip k)) (fun z => sgn (count1 z) * v)%Z).
    + rewrite count1_ones_on, (Hsp k v Hkv). unfold sgn. destruct (Nat.even _); lia.
    + apply all_bits_NoDup.
    + apply all_bits_In. split; [apply outcome_on_length|].
      apply outcome_on_bits; [exact Hb | rewrite Hl; exact Hlt].
  - intros k _. rewrite Hg. unfold marginal_spec. rewrite <- zsum_map_mul.
    apply zsum_map_ext. intros [k' v'] _; cbn [fst snd].
    destruct (eqb (outcome_on asc (strip k')) k); lia.
Qed.

Lemma combinations_In {A} (R : A -> A -> Prop) (l : list A) r s :
  StronglySorted R l -> In s (combinations l r) -> length s = r /\ StronglySorted R s /\ incl s l.
Proof.
  revert r s; induction l as [|a l IH]; intros [|r] s Hs; cbn.
  - intros [<-|[]]; repeat split; [constructor | intros x []].
  - intros [].
  - intros [<-|[]]; repeat split; [constructor | intros x []].
  - inversion Hs as [|? ? Hl Ha]; subst.
    rewrite in_app_iff, in_map_iff. intros [(t & <- & Ht)|Ht].
    + destruct (IH _ _ Hl Ht) as (H1 & H2 & H3). repeat split.
      * cbn; congruence.
      * constructor; [exact H2|]. rewrite Forall_forall in *. auto.
      * intros x [<-|Hx]; [left; reflexivity | right; auto].
    + destruct (IH _ _ Hl Ht) as (H1 & H2 & H3). repeat split; auto.
      intros x Hx; right; auto.
Qed.

Lemma combinations_complete (l s : list nat) :
  StronglySorted lt l -> StronglySorted lt s -> incl s l -> In s (combinations l (length s)).
Proof.
  revert s; induction l as [|a l IH]; intros s Hl Hs Hi.
  - destruct s as [|x s]; [left; reflexivity | exfalso; apply (Hi x); left; reflexivity].
  - destruct s as [|x s]; [left; reflexivity|]. cbn [length combinations].
    inversion Hl as [|? ? Hl' Ha]; inversion Hs as [|? ? Hs' Hx]; subst.
    rewrite Forall_forall in Ha, Hx. apply in_or_app.
    destruct (Hi x (or_introl eq_refl)) as [<-|Hxl].
    + left. apply in_map. apply IH; auto.
      intros y Hy. destruct (Hi y (or_intror Hy)) as [<-|]; auto. specialize (Hx _ Hy); lia.
    + right. change (S (length s)) with (length (x :: s)). apply IH; auto.
      intros y [<-|Hy]; auto. destruct (Hi y (or_intror Hy)) as [<-|]; auto.
      specialize (Hx _ Hy). specialize (Ha _ Hxl). lia.
Qed.

Lemma op_subsets_In n s :
  In s (op_subsets n) <-> s <> [] /\ StronglySorted lt s /\ (forall q, In q s -> q < n).
Proof.
  unfold op_subsets. rewrite in_flat_map. split.
  - intros (r & Hr & Hs). destruct (combinations_In lt _ _ _ (seq_sorted 0 n) Hs) as (H1 & H2 & H3).
    split; [intros ->; cbn in H1; lia|]. split; [exact H2|].
    intros q Hq. apply H3, in_seq in Hq. lia.
  - intros (Hne & Hs & Hlt). exists (length s - 1).
    assert (1 <= length s) by (destruct s; cbn; [congruence | lia]).
    split.
    + apply in_seq. assert (length s <= n); [|lia].
      rewrite <- (seq_length n 0). apply NoDup_incl_length; [apply asc_NoDup; exact Hs|].
      intros q Hq; apply in_seq; specialize (Hlt q Hq); lia.
    + replace (length s - 1 + 1) with (length s) by lia.
      apply combinations_complete; auto using seq_sorted.
      intros q Hq; apply in_seq; specialize (Hlt q Hq); lia.
Qed.

Lemma exp_op_rev n s : exp_op n s = rev (subset_key n s).
Proof. unfold exp_op, subset_key. rewrite rev_involutive. reflexivity. Qed.

Lemma exp_op_nth n s i : i < n -> nth i (exp_op n s) "?"%char = if mem i s then ch1 else ch0.
Proof.
  intros Hi. unfold exp_op.
  rewrite nth_indep with (d' := (fun i => if mem i s then ch1 else ch0) 0)
    by (rewrite map_length, seq_length; exact Hi).
  rewrite (map_nth (fun i => if mem i s then ch1 else ch0)), seq_nth by exact Hi. reflexivity.
Qed.

Lemma exp_op_inj n s t :
  StronglySorted lt s -> (forall q, In q s -> q < n) ->
  StronglySorted lt t -> (forall q, In q t -> q < n) ->
  exp_op n s = exp_op n t -> s = t.
Proof.
  intros Hs Hlts Ht Hltt He.
  assert (Hm : forall q, In q s <-> In q t).
  { intros q. destruct (Nat.lt_ge_cases q n) as [Hq|Hq].
    - pose proof (f_equal (fun l => nth q l "?"%char) He) as Hn; cbn in Hn.
      rewrite !exp_op_nth in Hn by exact Hq. rewrite <- !mem_In.
      destruct (mem q s), (mem q t); try tauto; discriminate.
    - split; intros Hi; [apply Hlts in Hi | apply Hltt in Hi]; lia. }
  assert (Hp : Permutation s t) by (apply NoDup_Permutation; auto using asc_NoDup).
  rewrite <- (rev_involutive s), <- (rev_involutive t). f_equal.
  apply sorted_unique; auto using rev_sorted.
  eapply perm_trans; [apply Permutation_sym, Permutation_rev|].
  eapply perm_trans; [exact Hp | apply Permutation_rev].
Qed.

Lemma exp_op_not_00 n s : s <> [] -> (forall q, In q s -> q < n) -> exp_op n s <> str "00".
Proof.
  intros Hne Hlt He. destruct s as [|q s]; [congruence|].
  assert (Hq : q < n) by (apply Hlt; left; reflexivity).
  pose proof (f_equal (fun l => nth q l "?"%char) He) as Hn; cbn [str] in Hn.
  rewrite exp_op_nth in Hn by exact Hq.
  assert (Hl : n = 2). { apply (f_equal (@length ascii)) in He. unfold exp_op in He.
    rewrite map_length, seq_length in He. exact He. }
  replace (mem q (q :: s)) with true in Hn by (symmetry; apply mem_In; left; reflexivity).
  subst n. destruct q as [|[|q]]; [discriminate | discriminate | lia].
Qed.

Lemma expectation_fold c n l d :
  valid_counts n c -> (forall k v, In (k, v) c -> strip k = k) ->
  (forall s, In s l -> s <> [] /\ StronglySorted lt s /\ (forall q, In q s -> q < n)) ->
  foldM (fun d subset => do v <- exp_value c subset; Ok (dset d (exp_op n subset) v)) l d
  = Ok (fold_left (fun d s => dset d (exp_op n s) (parity_spec c s)) l d).
Proof.
  intros Hv Hsp. revert d. induction l as [|s l IH]; intros d Hl; cbn [foldM fold_left]; [reflexivity|].
  destruct (Hl s (or_introl eq_refl)) as (Hne & Hs & Hlt).
  rewrite (exp_value_spec n) by auto. cbn [bind]. apply IH. intros t Ht; apply Hl; right; exact Ht.
Qed.

Lemma fold_dset_get (f : list nat -> Z) n l d s :
  (forall t, In t l -> StronglySorted lt t /\ (forall q, In q t -> q < n)) ->
  StronglySorted lt s -> (forall q, In q s -> q < n) ->
  dget (fold_left (fun d t => dset d (exp_op n t) (f t)) l d) (exp_op n s)
  = if mem s l then Some (f s) else dget d (exp_op n s).
Proof.
  intros Hl Hs Hlt. revert d. induction l as [|t l IH]; intros d; cbn [fold_left]; [reflexivity|].
  rewrite IH by (intros; apply Hl; right; assumption).
  unfold mem; cbn [existsb]. fold (mem s l). rewrite dget_dset.
  destruct (Hl t (or_introl eq_refl)) as [Ht Hltt].
  destruct (eqb_spec s t) as [->|Hn]; cbn [orb].
  - rewrite eqb_refl. destruct (mem t l); reflexivity.
  - destruct (eqb_spec (exp_op n s) (exp_op n t)) as [He|]; [|reflexivity].
    exfalso; apply Hn. eapply exp_op_inj; eauto.
Qed.

Lemma fold_dset_get_other (f : list nat -> Z) n l d y :
  (forall t, In t l -> exp_op n t <> y) ->
  dget (fold_left (fun d t => dset d (exp_op n t) (f t)) l d) y = dget d y.
Proof.
  intros Hl. revert d. induction l as [|t l IH]; intros d; cbn [fold_left]; [reflexivity|].
  rewrite IH by (intros; apply Hl; right; assumption). rewrite dget_dset.
  destruct (eqb_spec y (exp_op n t)) as [->|]; [|reflexivity].
  exfalso; apply (Hl t); [left; reflexivity | reflexivity].
Qed.

Lemma expectation_counts_reversed_lemma n c :
  valid_counts n c -> (forall k v, In (k, v) c -> strip k = k) ->
  exists d, expectation_counts c = Ok d /\
    dget d (str "00") = Some (total c) /\
    (forall s, s <> [] -> StronglySorted lt s -> (forall q, In q s -> q < n) ->
       dget d (rev (subset_key n s)) = Some (parity_spec c s)) /\
    (forall y, In y (dkeys d) <-> y = str "00" \/
       exists s, (s <> [] /\ StronglySorted lt s /\ (forall q, In q s -> q < n)) /\ y = rev (subset_key n s)).
Proof.
  intros Hv Hsp. pose proof Hv as (Hne & _ & Hk). destruct c as [|[k0 v0] c']; [congruence|].
  set (c := (k0, v0) :: c') in *. unfold expectation_counts. unfold c at 1.
  destruct (Hk k0 v0 (or_introl eq_refl)) as [Hl0 _].
  rewrite (Hsp k0 v0 (or_introl eq_refl)) in Hl0. rewrite Hl0.
  fold c. rewrite expectation_fold; [|exact Hv|exact Hsp|apply op_subsets_In].
  eexists; split; [reflexivity|]. split; [|split].
  - rewrite fold_dset_get_other; [reflexivity|].
    intros t Ht. apply op_subsets_In in Ht. destruct Ht as (H1 & H2 & H3). apply exp_op_not_00; auto.
  - intros s Hsne Hs Hlt. rewrite <- exp_op_rev.
    rewrite fold_dset_get; auto.
    + replace (mem s (op_subsets n)) with true; [reflexivity|].
      symmetry; apply mem_In, op_subsets_In; auto.
    + intros t Ht; apply op_subsets_In in Ht; tauto.
  - intros y.
    assert (Hg : forall l d, In y (dkeys (fold_left (fun d t => dset d (exp_op n t) (parity_spec c t)) l d))
              <-> In y (dkeys d) \/ exists t, In t l /\ y = exp_op n t).
    { induction l as [|t l IH]; intros d; cbn [fold_left].
      - split; [auto | intros [?|(t & [] & _)]; assumption].
      - rewrite IH, In_dkeys_dset. split.
        + intros [[->|Hd]|(t' & Ht' & ->)]; [right; exists t | left | right; exists t']; cbn; auto.
        + intros [Hd|(t' & [<-|Ht'] & ->)]; [left; auto | left; auto | right; exists t'; auto]. }
    rewrite Hg. unfold dkeys at 1; cbn [map fst In]. split.
    + intros [[<-|[]]|(t & Ht & ->)]; [left; reflexivity|]. right. exists t.
      rewrite <- exp_op_rev. split; [apply op_subsets_In; exact Ht | reflexivity].
    + intros [->|(s & Hs & ->)]; [left; left; reflexivity|]. right. exists s.
      rewrite <- exp_op_rev. split; [apply op_subsets_In; exact Hs | reflexivity].
Qed.

(** ** C03 *)
Lemma count_keys_spec_lemma n : 1 <= n ->
  length (count_keys n) = 2 ^ n /\ NoDup (count_keys n) /\
  (forall s, In s (count_keys n) <-> length s = n /\ is_bits s) /\
  (forall j, j < 2 ^ n -> binary_value 0 (nth j (count_keys n) []) = j).
Proof.
  intros Hn. rewrite count_keys_all_bits by exact Hn.
  split; [apply all_bits_length|]. split; [apply all_bits_NoDup|]. split; [apply all_bits_In|].
  intros j Hj. pose proof (map_binary_value_all_bits n 0) as Hm. cbn [Nat.mul] in Hm.
  pose proof (f_equal (fun l => nth j l 0) Hm) as He. cbn beta in He.
  rewrite seq_nth in He by exact Hj.
  rewrite <- He at 2. change 0 with (binary_value 0 []) at 3. rewrite map_nth. reflexivity.
Qed.

(** ** C01, default [meas_qubits=True] *)
Lemma marginal_counts_default_lemma n c pad :
  valid_counts n c ->
  exists r, marginal_counts c None pad = Ok r /\
    (forall y, dget0 r y = marginal_spec c (seq 0 n) y) /\
    map fst r = map (fun kv => strip (fst kv)) c /\ map snd r = map snd c.
Proof.
  intros Hv. rewrite (marginal_counts_shortcut n c None pad Hv I).
  eexists; split; [reflexivity|]. split.
  - intros y. pose proof Hv as (_ & Hndk & Hk). rewrite dget0_shortcut by exact Hndk.
    unfold marginal_spec. apply zsum_map_ext. intros [k v] Hkv; cbn [fst snd].
    destruct (Hk k v Hkv) as [Hl _]. rewrite <- Hl, outcome_on_full. reflexivity.
  - rewrite !map_map; cbn. auto.
Qed.

Lemma combine_counts_comm_assoc_lemma a b c :
  NoDup (map fst a) -> NoDup (map fst b) -> NoDup (map fst c) ->
  (forall k, dget0 (combine_counts a b) k = dget0 (combine_counts b a) k) /\
  (forall k, dget0 (combine_counts (combine_counts a b) c) k
             = dget0 (combine_counts a (combine_counts b c)) k).
Proof.
  intros Ha Hb Hc. split; intros k.
  - rewrite !combine_counts_get0, <- !shots_of_dget0 by assumption. lia.
  - rewrite !combine_counts_get0. rewrite <- (shots_of_dget0 (combine_counts b c)).
    + rewrite combine_counts_get0, <- !shots_of_dget0 by assumption. lia.
    + apply combine_counts_NoDup; exact Hb.
Qed.

(** Closes [valid_counts n c] for a literal dictionary. *)
Ltac solve_valid_counts :=
  split; [discriminate|split;
   [repeat constructor; cbn; intuition discriminate
   |let k := fresh "k" in let v := fresh "v" in let Hk := fresh "Hk" in
    let ch := fresh "ch" in let Hch := fresh "Hch" in
    intros k v Hk; cbn in Hk;
    repeat destruct Hk as [Hk|Hk];
    try (inversion Hk; subst; split; [reflexivity|];
         intros ch Hch; cbn in Hch; intuition (subst; auto)); tauto]].
