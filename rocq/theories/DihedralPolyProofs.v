(** Polynomials: index arithmetic, coefficients, values, uniqueness. *)
From Coq Require Import QArith.
From Verif Require Import Base DihedralModel DihedralSpec.
Open Scope nat_scope.

Lemma nodup_app {A} (l l' : list A) : NoDup l -> NoDup l' -> (forall x, In x l -> ~ In x l') -> NoDup (l ++ l').
Proof.
  intros Hl Hl' Hd. induction Hl as [|a l Ha Hl IH]; [exact Hl'|]. cbn. constructor.
  - rewrite in_app_iff. intros [H|H]; [exact (Ha H) | exact (Hd a (or_introl eq_refl) H)].
  - apply IH. intros x Hx. apply Hd. right; exact Hx.
Qed.

(** ** Index lists *)
Lemma increasing_cons a t : increasing (a :: t) = true <-> (forall j, In j t -> a < j) /\ increasing t = true.
Proof.
  revert a. induction t as [|b t IH]; intros a.
  - cbn. split; [intros _; split; [intros j []|reflexivity] | reflexivity].
  - change (increasing (a :: b :: t)) with ((a <? b) && increasing (b :: t)).
    rewrite andb_true_iff, Nat.ltb_lt. split.
    + intros [Hab Hb]. split; [|exact Hb]. apply IH in Hb as [Hb _]. intros j [<-|Hj]; [exact Hab|]. specialize (Hb j Hj). lia.
    + intros [H1 H2]. split; [apply H1; left; reflexivity | exact H2].
Qed.

Lemma increasing_NoDup t : increasing t = true -> NoDup t.
Proof.
  induction t as [|a t IH]; [constructor|]. intros H. apply increasing_cons in H as [H1 H2]. constructor; [|auto].
  intros Hin. specialize (H1 a Hin). lia.
Qed.

Lemma increasing_ext t t' : increasing t = true -> increasing t' = true -> (forall j, In j t <-> In j t') -> t = t'.
Proof.
  revert t'. induction t as [|a t IH]; intros [|b t'] H H' E.
  - reflexivity.
  - exfalso. apply (E b). left; reflexivity.
  - exfalso. apply (E a). left; reflexivity.
  - apply increasing_cons in H as [H1 H2]. apply increasing_cons in H' as [H1' H2'].
    assert (a = b).
    { destruct (proj1 (E a) (or_introl eq_refl)) as [|Ha]; [congruence|].
      destruct (proj2 (E b) (or_introl eq_refl)) as [|Hb]; [congruence|]. specialize (H1 b Hb). specialize (H1' a Ha). lia. }
    subst b. f_equal. apply IH; auto. intros j. split; intros Hj.
    + destruct (proj1 (E j) (or_intror Hj)) as [<-|]; [|assumption]. specialize (H1 a Hj). lia.
    + destruct (proj2 (E j) (or_intror Hj)) as [<-|]; [|assumption]. specialize (H1' a Hj). lia.
Qed.

Lemma combs_0 {A} (l : list A) : combs l 0 = [[]].
Proof. destruct l; reflexivity. Qed.
Lemma combs_cons {A} (a : A) l r : combs (a :: l) (S r) = map (cons a) (combs l r) ++ combs l (S r).
Proof. reflexivity. Qed.

Lemma combs_In a m r t : In t (combs (seq a m) r) <->
  length t = r /\ increasing t = true /\ forall j, In j t -> a <= j < a + m.
Proof.
  revert a r t. induction m as [|m IH]; intros a r t.
  - destruct r as [|r]; cbn.
    + split; [intros [<-|[]]; cbn; split; [reflexivity|split; [reflexivity | intros j []]] |].
      intros (H & _). destruct t; [left; reflexivity | discriminate].
    + split; [intros [] |]. intros (H & _ & Hj). destruct t as [|j t]; [discriminate|]. specialize (Hj j (or_introl eq_refl)). lia.
  - destruct r as [|r].
    + rewrite combs_0. cbn. split; [intros [<-|[]]; cbn; split; [reflexivity|split; [reflexivity | intros j []]] |].
      intros (H & _). destruct t; [left; reflexivity | discriminate].
    + cbn [seq]. rewrite combs_cons, in_app_iff, in_map_iff. split.
      * intros [(t' & <- & H) | H].
        -- apply IH in H as (Hl & Hi & Hj). split; [cbn; lia|]. split.
           ++ apply increasing_cons. split; [|exact Hi]. intros j Hin. specialize (Hj j Hin). lia.
           ++ intros j [<-|Hin]; [lia|]. specialize (Hj j Hin). lia.
        -- apply IH in H as (Hl & Hi & Hj). split; [exact Hl|]. split; [exact Hi|]. intros j Hin. specialize (Hj j Hin). lia.
      * intros (Hl & Hi & Hj). destruct t as [|b t]; [discriminate|]. injection Hl as Hl.
        pose proof (proj1 (increasing_cons b t) Hi) as [Hb Hi'].
        destruct (Nat.eq_dec b a) as [->|Hne].
        -- left. exists t. split; [reflexivity|]. apply IH. split; [exact Hl|]. split; [exact Hi'|].
           intros j Hin. specialize (Hb j Hin). specialize (Hj j (or_intror Hin)). lia.
        -- right. apply IH. split; [cbn; lia|]. split; [exact Hi|]. pose proof (Hj b (or_introl eq_refl)).
           intros j [<-|Hin]; [lia|]. specialize (Hb j Hin). specialize (Hj j (or_intror Hin)). lia.
Qed.

Lemma combs_NoDup {A} (l : list A) r : NoDup l -> NoDup (combs l r).
Proof.
  intros H. revert r. induction H as [|a l Ha Hl IH]; intros [|r]; try (rewrite combs_0; constructor; [intros [] | constructor]).
  - constructor.
  - rewrite combs_cons. apply nodup_app; [|apply IH|].
    + apply FinFun.Injective_map_NoDup; [|apply IH]. intros x y [= ->]; reflexivity.
    + intros t Ht Ht'. apply in_map_iff in Ht as (t' & <- & _).
      assert (Hs : forall r t, In t (combs l r) -> forall j, In j t -> In j l).
      { clear. induction l as [|b l IH]; intros [|r] t; try (rewrite combs_0; intros [<-|[]] j []).
        - intros [].
        - rewrite combs_cons, in_app_iff, in_map_iff. intros [(t' & <- & H) | H] j Hj.
          + destruct Hj as [<-|Hj]; [left; reflexivity | right; eapply IH; eauto].
          + right; eapply IH; eauto. }
      apply Ha. eapply Hs; [exact Ht' | left; reflexivity].
Qed.

Lemma terms_In n t : In t (terms n) <-> length t <= 3 /\ increasing t = true /\ forall j, In j t -> j < n.
Proof.
  unfold terms. rewrite !in_app_iff, !combs_In. cbn [In]. split.
  - intros [[<-|[]]|[H|[H|H]]]; [cbn; split; [lia|split; [reflexivity|intros j []]] | | |];
      destruct H as (Hl & Hi & Hj); (split; [lia|]; split; [exact Hi|]; intros j Hin; specialize (Hj j Hin); lia).
  - intros (Hl & Hi & Hj). assert (Hj' : forall j, In j t -> 0 <= j < 0 + n) by (intros j Hin; specialize (Hj j Hin); lia).
    destruct (length t) as [|[|[|[|k]]]] eqn:E; [|tauto|tauto|tauto|lia].
    left; left. destruct t; [reflexivity | discriminate].
Qed.

Lemma terms_NoDup n : NoDup (terms n).
Proof.
  unfold terms. assert (Hn : NoDup (seq 0 n)) by apply seq_NoDup.
  assert (Hc : forall r, NoDup (combs (seq 0 n) r)) by (intros r; apply combs_NoDup; exact Hn).
  apply nodup_app; [constructor; [intros [] | constructor] | apply nodup_app; [apply Hc | apply nodup_app; [apply Hc | apply Hc |] |] |].
  - intros t. rewrite !combs_In. intros (H & _) (H' & _). lia.
  - intros t. rewrite in_app_iff, !combs_In. intros (H & _) [(H' & _)|(H' & _)]; lia.
  - intros t [<-|[]]. rewrite !in_app_iff, !combs_In. intros [(H & _)|[(H & _)|(H & _)]]; discriminate.
Qed.

Lemma combs_1 {A} (l : list A) : combs l 1 = map (fun i => [i]) l.
Proof. induction l as [|a l IH]; [reflexivity|]. rewrite combs_cons, combs_0, IH. reflexivity. Qed.

Lemma combs_2_seq a m : combs (seq a m) 2 =
  flat_map (fun i => map (fun j => [i; j]) (seq (i + 1) (a + m - (i + 1)))) (seq a m).
Proof.
  revert a. induction m as [|m IH]; intros a; [reflexivity|]. cbn [seq flat_map]. rewrite combs_cons, combs_1, map_map, IH.
  replace (a + S m - (a + 1)) with m by lia. replace (a + 1) with (S a) by lia. f_equal.
  apply flat_map_ext. intros i. do 2 f_equal. lia.
Qed.

Lemma map_flat_map {A B C} (f : B -> C) (g : A -> list B) l : map f (flat_map g l) = flat_map (fun a => map f (g a)) l.
Proof. induction l as [|a l IH]; [reflexivity|]. cbn. rewrite map_app, IH. reflexivity. Qed.

Lemma combs_3_seq a m : combs (seq a m) 3 =
  flat_map (fun i => flat_map (fun j => map (fun k => [i; j; k]) (seq (j + 1) (a + m - (j + 1))))
                              (seq (i + 1) (a + m - (i + 1)))) (seq a m).
Proof.
  revert a. induction m as [|m IH]; intros a; [reflexivity|]. cbn [seq flat_map]. rewrite combs_cons, combs_2_seq, map_flat_map, IH.
  replace (a + S m - (a + 1)) with m by lia. replace (a + 1) with (S a) by lia. f_equal.
  - apply flat_map_ext. intros j. rewrite map_map. do 2 f_equal. lia.
  - apply flat_map_ext. intros i. replace (S a + m) with (a + S m) by lia. reflexivity.
Qed.

Lemma pairs_combs n : pairs n = combs (seq 0 n) 2.
Proof. rewrite combs_2_seq. reflexivity. Qed.
Lemma triples_combs n : triples n = combs (seq 0 n) 3.
Proof. rewrite combs_3_seq. reflexivity. Qed.

(** ** Triangular and tetrahedral numbers *)
Fixpoint tri (n : nat) : nat := match n with 0 => 0 | S m => tri m + m end.
Fixpoint tet (n : nat) : nat := match n with 0 => 0 | S m => tet m + tri m end.

Lemma tri_2 n : 2 * tri n = n * (n - 1).
Proof. induction n as [|n IH]; [reflexivity|]. cbn [tri]. destruct n; [reflexivity|]. nia. Qed.
Lemma tet_6 n : 6 * tet n = n * (n - 1) * (n - 2).
Proof.
  induction n as [|n IH]; [reflexivity|]. cbn [tet]. pose proof (tri_2 n). destruct n as [|[|n]]; [reflexivity | reflexivity|].
  replace (S (S n) - 1) with (S n) in * by lia. replace (S (S n) - 2) with n in * by lia.
  replace (S (S (S n)) - 1) with (S (S n)) by lia. replace (S (S (S n)) - 2) with (S n) by lia. nia.
Qed.
Lemma tri_div n : n * (n - 1) / 2 = tri n.
Proof. symmetry. apply Nat.div_unique_exact; [lia|]. rewrite <- tri_2. lia. Qed.
Lemma tet_div n : n * (n - 1) * (n - 2) / 6 = tet n.
Proof. symmetry. apply Nat.div_unique_exact; [lia|]. rewrite <- tet_6. lia. Qed.
Lemma tri_le n m : n <= m -> tri n <= tri m.
Proof. induction 1; cbn [tri]; lia. Qed.
Lemma tet_le n m : n <= m -> tet n <= tet m.
Proof. induction 1; cbn [tet]; lia. Qed.

Lemma tri_add i m : tri (i + m) = tri i + i * m + tri m.
Proof.
  induction m as [|m IH]; [rewrite Nat.add_0_r; cbn; lia|]. replace (i + S m) with (S (i + m)) by lia. cbn [tri]. rewrite IH. lia.
Qed.

Lemma slot2_closed n i j : i < n -> slot2 n i j = tri n - tri (n - i) + (j - i - 1).
Proof.
  intros Hi. unfold slot2. f_equal. replace ((i + 1) * i / 2) with (tri (i + 1)).
  2:{ rewrite <- tri_div. f_equal. f_equal. lia. }
  assert (En : tri n = tri i + i * (n - i) + tri (n - i)) by (rewrite <- tri_add; f_equal; lia).
  rewrite En. replace (i + 1) with (S i) by lia. cbn [tri].
  assert (E : i * n = i * i + i * (n - i)) by nia. rewrite E.
  pose proof (tri_2 i) as Ht. assert (E2 : i * i = 2 * tri i + i) by (destruct i; [reflexivity | nia]). lia.
Qed.

Lemma slot3_closed n i j k : i < j -> j < k -> k < n ->
  slot3 n i j k = tet n - tet (n - i - 1) - tri (n - j - 1) - (n - k).
Proof.
  intros H1 H2 H3. unfold slot3. rewrite tet_div. f_equal. f_equal; [f_equal|].
  - rewrite <- tet_div. f_equal. replace (n - i - 1 - 1) with (n - i - 2) by lia. replace (n - i - 1 - 2) with (n - i - 3) by lia. nia.
  - rewrite <- tri_div. f_equal. replace (n - j - 1 - 1) with (n - j - 2) by lia. nia.
Qed.

Definition sl2 (n : nat) (t : list nat) : nat := slot2 n (nth 0 t 0) (nth 1 t 0).
Definition sl3 (n : nat) (t : list nat) : nat := slot3 n (nth 0 t 0) (nth 1 t 0) (nth 2 t 0).

Lemma map_seq_shift (f : nat -> nat) a b m : (forall i, i < m -> f (a + i) = b + i) -> map f (seq a m) = seq b m.
Proof.
  revert a b. induction m as [|m IH]; intros a b H; [reflexivity|]. cbn [seq map]. f_equal.
  - rewrite <- (Nat.add_0_r a), H by lia. lia.
  - apply IH. intros i Hi. replace (S a + i) with (a + S i) by lia. rewrite H by lia. lia.
Qed.

Lemma slots2 n : map (sl2 n) (pairs n) = seq 0 (tri n).
Proof.
  rewrite pairs_combs.
  assert (H : forall m a, a + m = n -> map (sl2 n) (combs (seq a m) 2) = seq (tri n - tri m) (tri m)).
  { induction m as [|m IH]; intros a Ha; [reflexivity|]. cbn [seq]. rewrite combs_cons, combs_1, map_map, map_app, map_map, IH by lia.
    cbn [tri]. assert (Hle : tri m + m <= tri n) by (change (tri (S m) <= tri n); apply tri_le; lia).
    rewrite (map_seq_shift _ (S a) (tri n - (tri m + m)) m).
    - replace (tri n - tri m) with (tri n - (tri m + m) + m) by lia. rewrite (Nat.add_comm (tri m) m), seq_app. reflexivity.
    - intros i Hi. unfold sl2. cbn [nth]. rewrite slot2_closed by lia. replace (n - a) with (S m) by lia. cbn [tri]. lia. }
  rewrite (H n 0) by lia. rewrite Nat.sub_diag. reflexivity.
Qed.

Lemma slots3 n : map (sl3 n) (triples n) = seq 0 (tet n).
Proof.
  rewrite triples_combs.
  assert (H2 : forall m b C, b + m = n -> tri m <= C ->
     map (fun t => C - tri (n - nth 0 t 0 - 1) - (n - nth 1 t 0)) (combs (seq b m) 2) = seq (C - tri m) (tri m)).
  { induction m as [|m IH]; intros b C Hb HC; [reflexivity|]. cbn [seq]. rewrite combs_cons, combs_1, map_map, map_app, map_map.
    cbn [tri] in HC. rewrite IH by lia. rewrite (map_seq_shift _ (S b) (C - tri (S m)) m).
    - cbn [tri]. replace (C - tri m) with (C - (tri m + m) + m) by lia. rewrite (Nat.add_comm (tri m) m), seq_app. reflexivity.
    - intros i Hi. cbn [nth]. replace (n - b - 1) with m by lia. cbn [tri]. lia. }
  assert (H : forall m a, a + m = n -> map (sl3 n) (combs (seq a m) 3) = seq (tet n - tet m) (tet m)).
  { induction m as [|m IH]; intros a Ha; [reflexivity|]. cbn [seq]. rewrite combs_cons, map_app, map_map, IH by lia.
    cbn [tet]. assert (Hle : tet m + tri m <= tet n) by (change (tet (S m) <= tet n); apply tet_le; lia).
    replace (map (fun x => sl3 n (a :: x)) (combs (seq (S a) m) 2)) with (seq (tet n - tet m - tri m) (tri m)).
    - replace (tet n - tet m) with (tet n - (tet m + tri m) + tri m) by lia.
      rewrite (Nat.add_comm (tet m) (tri m)), seq_app. f_equal; f_equal; lia.
    - symmetry. rewrite <- (H2 m (S a) (tet n - tet m)) by lia. apply map_ext_in. intros t Ht.
      apply combs_In in Ht as (Hl & Hi & Hj). destruct t as [|j [|k [|]]]; try discriminate. unfold sl3. cbn [nth].
      apply increasing_cons in Hi as [Hjk _]. pose proof (Hjk k (or_introl eq_refl)).
      pose proof (Hj j (or_introl eq_refl)). pose proof (Hj k (or_intror (or_introl eq_refl))).
      rewrite slot3_closed by lia. replace (n - a - 1) with m by lia. reflexivity. }
  rewrite (H n 0) by lia. rewrite Nat.sub_diag. reflexivity.
Qed.

Lemma pairs_length n : length (pairs n) = nc2 n.
Proof. unfold nc2. rewrite tri_div, <- (seq_length (tri n) 0), <- slots2, map_length. reflexivity. Qed.
Lemma triples_length n : length (triples n) = nc3 n.
Proof. unfold nc3. rewrite tet_div, <- (seq_length (tet n) 0), <- slots3, map_length. reflexivity. Qed.

(** ** Coefficients *)
Definition tm (p : poly) (t : list nat) : Z := match get_term p t with Ok v => v | Err _ => 0%Z end.

Lemma index_e_ok {A} (l : list A) i d : i < length l -> index_e l i = Ok (nth i l d).
Proof. intros H. unfold index_e. rewrite (nth_error_nth' l d H). reflexivity. Qed.

Lemma set_nth_length {A} (l : list A) i v : i < length l -> length (set_nth l i v) = length l.
Proof. intros H. unfold set_nth. rewrite app_length, firstn_length. cbn [length]. rewrite skipn_length. lia. Qed.
Lemma set_nth_nth {A} (l : list A) i v k d : i < length l -> nth k (set_nth l i v) d = if k =? i then v else nth k l d.
Proof.
  intros H. unfold set_nth. destruct (Nat.eqb_spec k i) as [->|Hne].
  - rewrite app_nth2; rewrite firstn_length, Nat.min_l by lia; [|lia]. rewrite Nat.sub_diag. reflexivity.
  - destruct (Nat.lt_ge_cases k i) as [Hk|Hk].
    + rewrite app_nth1 by (rewrite firstn_length; lia). rewrite <- (firstn_skipn i l) at 2.
      rewrite app_nth1 by (rewrite firstn_length; lia). reflexivity.
    + rewrite app_nth2; rewrite firstn_length, Nat.min_l by lia; [|lia].
      destruct (k - i) as [|m] eqn:E; [lia|]. cbn [nth]. rewrite <- (firstn_skipn (S i) l) at 2.
      rewrite app_nth2; rewrite firstn_length, Nat.min_l by lia; [|lia]. f_equal. lia.
Qed.
Lemma assign_set_nth {A} (l : list A) i v : i < length l -> assign l i v = Ok (set_nth l i v).
Proof. intros H. unfold assign. apply Nat.ltb_lt in H as ->. reflexivity. Qed.
Lemma set_nth_Forall {A} (P : A -> Prop) l i v : P v -> Forall P l -> Forall P (set_nth l i v).
Proof.
  intros Hv Hl. unfold set_nth. apply Forall_app. split; [|constructor; [exact Hv|]].
  - rewrite <- (firstn_skipn i l) in Hl. apply Forall_app in Hl. tauto.
  - rewrite <- (firstn_skipn (S i) l) in Hl. apply Forall_app in Hl. tauto.
Qed.

Lemma terms_good n t : In t (terms n) -> (4 <=? length t) = false /\ bad_indices n t = false.
Proof.
  intros H. apply terms_In in H as (Hl & Hi & Hj). split; [apply Nat.leb_gt; lia|].
  unfold bad_indices. rewrite Hi, andb_false_r, orb_false_r. apply not_true_is_false. intros H.
  apply existsb_exists in H as (j & Hin & Hle). apply Nat.leb_le in Hle. specialize (Hj j Hin). lia.
Qed.

(** The position of a term in its coefficient list. *)
Lemma sl2_lt n t : In t (pairs n) -> sl2 n t < length (pairs n).
Proof.
  intros H. assert (Hs : In (sl2 n t) (map (sl2 n) (pairs n))) by (apply in_map; exact H).
  rewrite slots2 in Hs. apply in_seq in Hs. rewrite pairs_length. unfold nc2. rewrite tri_div. lia.
Qed.
Lemma sl3_lt n t : In t (triples n) -> sl3 n t < length (triples n).
Proof.
  intros H. assert (Hs : In (sl3 n t) (map (sl3 n) (triples n))) by (apply in_map; exact H).
  rewrite slots3 in Hs. apply in_seq in Hs. rewrite triples_length. unfold nc3. rewrite tet_div. lia.
Qed.

Lemma map_NoDup_inj {A B} (f : A -> B) l a b : NoDup (map f l) -> In a l -> In b l -> f a = f b -> a = b.
Proof.
  induction l as [|c l IH]; intros H; [intros []|]. cbn in H. inversion H as [|x y Hn Hd]; subst. intros [->|Ha] [->|Hb] E.
  - reflexivity.
  - exfalso. apply Hn. rewrite E. apply in_map; exact Hb.
  - exfalso. apply Hn. rewrite <- E. apply in_map; exact Ha.
  - apply IH; assumption.
Qed.

Lemma terms_cases n t : In t (terms n) ->
  t = [] \/ (exists i, t = [i] /\ i < n) \/ (exists i j, t = [i; j] /\ In t (pairs n)) \/
  (exists i j k, t = [i; j; k] /\ In t (triples n)).
Proof.
  intros H. pose proof H as H'. apply terms_In in H' as (Hl & _ & Hj). destruct t as [|i [|j [|k [|]]]]; cbn in Hl; try lia.
  - auto.
  - right; left. exists i. split; [reflexivity|]. apply Hj. left; reflexivity.
  - right; right; left. exists i, j. split; [reflexivity|]. rewrite pairs_combs. unfold terms in H. rewrite !in_app_iff in H.
    destruct H as [[H|[]]|[H|[H|H]]]; [discriminate | | exact H |]; apply combs_In in H as (H & _); discriminate.
  - right; right; right. exists i, j, k. split; [reflexivity|]. rewrite triples_combs. unfold terms in H. rewrite !in_app_iff in H.
    destruct H as [[H|[]]|[H|[H|H]]]; [discriminate | | | exact H]; apply combs_In in H as (H & _); discriminate.
Qed.

Lemma get_term_tm n p t : wf_poly n p -> In t (terms n) -> get_term p t = Ok (tm p t) /\ reduced (tm p t).
Proof.
  intros W H. pose proof (terms_good n t H) as [Hl Hb]. unfold tm.
  assert (E : exists v, get_term p t = Ok v /\ reduced v).
  { unfold get_term. rewrite Hl, (wf_n n p W), Hb.
    assert (HF : forall l i, Forall reduced l -> i < length l -> reduced (nth i l 0%Z)).
    { intros l i Hf Hi. rewrite Forall_forall in Hf. apply Hf, nth_In, Hi. }
    destruct (terms_cases n t H) as [->|[(i & -> & Hi)|[(i & j & -> & Hp)|(i & j & k & -> & Hp)]]].
    - exists (w0 p). split; [reflexivity | apply (wf_c0 n p W)].
    - assert (Hi' : i < length (w1 p)) by (rewrite (wf_1 n p W); exact Hi).
      rewrite (index_e_ok _ _ 0%Z) by exact Hi'. eexists; split; [reflexivity|]. apply HF; [apply (wf_c1 n p W) | exact Hi'].
    - assert (Hi' : slot2 n i j < length (w2 p)) by (rewrite (wf_2 n p W); exact (sl2_lt n _ Hp)).
      rewrite (index_e_ok _ _ 0%Z) by exact Hi'. eexists; split; [reflexivity|]. apply HF; [apply (wf_c2 n p W) | exact Hi'].
    - assert (Hi' : slot3 n i j k < length (w3 p)) by (rewrite (wf_3 n p W); exact (sl3_lt n _ Hp)).
      rewrite (index_e_ok _ _ 0%Z) by exact Hi'. eexists; split; [reflexivity|]. apply HF; [apply (wf_c3 n p W) | exact Hi']. }
  destruct E as (v & -> & Hv). auto.
Qed.

(** Coefficients by position. *)
Lemma tm_0 p : tm p [] = w0 p.
Proof. unfold tm, get_term. cbn. reflexivity. Qed.
Lemma tm_1 n p i : wf_poly n p -> i < n -> tm p [i] = nth i (w1 p) 0%Z.
Proof.
  intros W Hi. assert (H : In [i] (terms n)) by (apply terms_In; cbn; split; [lia|]; split; [reflexivity | intros j [<-|[]]; exact Hi]).
  pose proof (terms_good n _ H) as [Hl Hb]. unfold tm, get_term. rewrite Hl, (wf_n n p W), Hb.
  rewrite (index_e_ok _ _ 0%Z) by (rewrite (wf_1 n p W); exact Hi). reflexivity.
Qed.
Lemma pairs_terms n t : In t (pairs n) -> In t (terms n).
Proof. rewrite pairs_combs. unfold terms. rewrite !in_app_iff. auto. Qed.
Lemma triples_terms n t : In t (triples n) -> In t (terms n).
Proof. rewrite triples_combs. unfold terms. rewrite !in_app_iff. auto. Qed.
Lemma tm_2 n p t : wf_poly n p -> In t (pairs n) -> tm p t = nth (sl2 n t) (w2 p) 0%Z.
Proof.
  intros W Hp. pose proof (pairs_terms n t Hp) as H. pose proof (terms_good n _ H) as [Hl Hb].
  assert (E : length t = 2) by (rewrite pairs_combs in Hp; apply combs_In in Hp as (E & _); exact E).
  destruct t as [|i [|j [|]]]; try discriminate. unfold tm, get_term. rewrite Hl, (wf_n n p W), Hb.
  rewrite (index_e_ok _ _ 0%Z) by (rewrite (wf_2 n p W); exact (sl2_lt n _ Hp)). reflexivity.
Qed.
Lemma tm_3 n p t : wf_poly n p -> In t (triples n) -> tm p t = nth (sl3 n t) (w3 p) 0%Z.
Proof.
  intros W Hp. pose proof (triples_terms n t Hp) as H. pose proof (terms_good n _ H) as [Hl Hb].
  assert (E : length t = 3) by (rewrite triples_combs in Hp; apply combs_In in Hp as (E & _); exact E).
  destruct t as [|i [|j [|k [|]]]]; try discriminate. unfold tm, get_term. rewrite Hl, (wf_n n p W), Hb.
  rewrite (index_e_ok _ _ 0%Z) by (rewrite (wf_3 n p W); exact (sl3_lt n _ Hp)). reflexivity.
Qed.

Lemma map_nth_seq {A} (l : list A) d : map (fun k => nth k l d) (seq 0 (length l)) = l.
Proof.
  induction l as [|a l IH]; [reflexivity|]. cbn [length seq map nth]. f_equal. rewrite <- seq_shift, map_map. exact IH.
Qed.

Lemma w1_tm n p : wf_poly n p -> map (tm p) (map (fun i => [i]) (seq 0 n)) = w1 p.
Proof.
  intros W. rewrite map_map. rewrite <- (map_nth_seq (w1 p) 0%Z), (wf_1 n p W). apply map_ext_in.
  intros i Hi. apply in_seq in Hi. apply (tm_1 n); [exact W | lia].
Qed.
Lemma w2_tm n p : wf_poly n p -> map (tm p) (pairs n) = w2 p.
Proof.
  intros W. rewrite <- (map_nth_seq (w2 p) 0%Z), (wf_2 n p W), pairs_length. unfold nc2. rewrite tri_div, <- slots2, map_map.
  apply map_ext_in. intros t Ht. apply tm_2; assumption.
Qed.
Lemma w3_tm n p : wf_poly n p -> map (tm p) (triples n) = w3 p.
Proof.
  intros W. rewrite <- (map_nth_seq (w3 p) 0%Z), (wf_3 n p W), triples_length. unfold nc3. rewrite tet_div, <- slots3, map_map.
  apply map_ext_in. intros t Ht. apply tm_3; assumption.
Qed.

Lemma terms_split n : terms n = [] :: map (fun i => [i]) (seq 0 n) ++ pairs n ++ triples n.
Proof. unfold terms. rewrite combs_1, pairs_combs, triples_combs. reflexivity. Qed.

Lemma weighted_map (f : list nat -> Z) Ss x : weighted (map f Ss) Ss x = zsum (map (fun S => (f S * monomial S x)%Z) Ss).
Proof. unfold weighted. f_equal. induction Ss as [|S Ss IH]; [reflexivity|]. cbn. f_equal. exact IH. Qed.

Lemma value_tm n p x : wf_poly n p -> value p x = zsum (map (fun t => (tm p t * monomial t x)%Z) (terms n)).
Proof.
  intros W. unfold value. rewrite (wf_n n p W), <- (w1_tm n p W), <- (w2_tm n p W), <- (w3_tm n p W), !weighted_map.
  rewrite terms_split. cbn [map]. rewrite !map_app. cbn [zsum]. rewrite !zsum_app, tm_0. cbn [monomial]. ring.
Qed.

(** Two polynomials with the same coefficients are the same. *)
Lemma poly_ext n p q : wf_poly n p -> wf_poly n q -> (forall t, In t (terms n) -> tm p t = tm q t) -> p = q.
Proof.
  intros Wp Wq H.
  assert (E0 : w0 p = w0 q) by (rewrite <- !tm_0; apply H; apply terms_In; cbn; split; [lia|split; [reflexivity | intros j []]]).
  assert (E1 : w1 p = w1 q).
  { rewrite <- (w1_tm n p Wp), <- (w1_tm n q Wq). apply map_ext_in. intros t Ht. apply H. rewrite terms_split. right. apply in_app_iff. auto. }
  assert (E2 : w2 p = w2 q) by (rewrite <- (w2_tm n p Wp), <- (w2_tm n q Wq); apply map_ext_in; intros t Ht; apply H, pairs_terms, Ht).
  assert (E3 : w3 p = w3 q) by (rewrite <- (w3_tm n p Wp), <- (w3_tm n q Wq); apply map_ext_in; intros t Ht; apply H, triples_terms, Ht).
  pose proof (wf_n n p Wp). pose proof (wf_n n q Wq). destruct p, q; cbn in *. congruence.
Qed.

Lemma special_tm n p : wf_poly n p ->
  special p <-> (forall t, In t (pairs n) -> (tm p t mod 2 = 0)%Z) /\ (forall t, In t (triples n) -> (tm p t mod 4 = 0)%Z).
Proof.
  intros W. unfold special. rewrite <- (w2_tm n p W), <- (w3_tm n p W), !Forall_forall. split; intros [H2 H3]; split.
  - intros t Ht. apply H2, in_map, Ht.
  - intros t Ht. apply H3, in_map, Ht.
  - intros c Hc. apply in_map_iff in Hc as (t & <- & Ht). auto.
  - intros c Hc. apply in_map_iff in Hc as (t & <- & Ht). auto.
Qed.

(** ** Setting a coefficient *)
Lemma mod8_reduced v : reduced (v mod 8).
Proof. unfold reduced. apply Z.mod_pos_bound. lia. Qed.

Lemma reduced_0 : reduced 0. Proof. unfold reduced; lia. Qed.

Ltac noteq := match goal with |- _ = (if eqb ?a ?b then _ else _) =>
  destruct (eqb_spec a b) as [E|_]; [discriminate E | reflexivity] end.

Lemma set_term_spec n p t v : wf_poly n p -> In t (terms n) ->
  exists p', set_term p t v = Ok p' /\ wf_poly n p' /\
    forall t', In t' (terms n) -> tm p' t' = if eqb t t' then (v mod 8)%Z else tm p t'.
Proof.
  intros W H. pose proof (terms_good n t H) as [Hl Hb]. unfold set_term. rewrite Hl, (wf_n n p W), Hb.
  pose proof (mod8_reduced v) as Hv. destruct W as [Wn W1 W2 W3 C0 C1 C2 C3].
  assert (W : wf_poly n p) by (constructor; assumption).
  destruct (terms_cases n t H) as [->|[(i & -> & Hi)|[(i & j & -> & Hp)|(i & j & k & -> & Hp)]]].
  - eexists. split; [reflexivity|]. set (p' := {| pn := n |}).
    assert (W' : wf_poly n p') by (constructor; cbn; assumption || reflexivity).
    split; [exact W'|]. intros t' Ht'. destruct (terms_cases n t' Ht') as [->|[(i & -> & Hi)|[(i & j & -> & Hp)|(i & j & k & -> & Hp)]]].
    + rewrite tm_0. reflexivity.
    + rewrite !(tm_1 n) by assumption. noteq.
    + rewrite !(tm_2 n) by assumption. noteq.
    + rewrite !(tm_3 n) by assumption. noteq.
  - assert (Hi' : i < length (w1 p)) by (rewrite W1; exact Hi). rewrite assign_set_nth by exact Hi'. cbn [bind].
    eexists. split; [reflexivity|]. set (p' := {| pn := n |}).
    assert (W' : wf_poly n p').
    { constructor; cbn [pn w0 w1 w2 w3 p']; try assumption; try reflexivity; [rewrite set_nth_length; assumption | apply set_nth_Forall; assumption]. }
    split; [exact W'|]. intros t' Ht'. destruct (terms_cases n t' Ht') as [->|[(i' & -> & Hi2)|[(i' & j' & -> & Hp')|(i' & j' & k' & -> & Hp')]]].
    + rewrite !tm_0. noteq.
    + rewrite !(tm_1 n) by assumption. cbn [w1 p']. rewrite set_nth_nth by exact Hi'.
      destruct (Nat.eqb_spec i' i) as [->|Hne]; [rewrite eqb_refl; reflexivity|].
      destruct (eqb_spec [i] [i']) as [[= E]|]; [congruence | reflexivity].
    + rewrite !(tm_2 n) by assumption. noteq.
    + rewrite !(tm_3 n) by assumption. noteq.
  - assert (Hi' : slot2 n i j < length (w2 p)) by (rewrite W2; exact (sl2_lt n _ Hp)). rewrite assign_set_nth by exact Hi'. cbn [bind].
    eexists. split; [reflexivity|]. set (p' := {| pn := n |}).
    assert (W' : wf_poly n p').
    { constructor; cbn [pn w0 w1 w2 w3 p']; try assumption; try reflexivity; [rewrite set_nth_length; assumption | apply set_nth_Forall; assumption]. }
    split; [exact W'|]. intros t' Ht'. destruct (terms_cases n t' Ht') as [->|[(i' & -> & Hi2)|[(i' & j' & -> & Hp')|(i' & j' & k' & -> & Hp')]]].
    + rewrite !tm_0. noteq.
    + rewrite !(tm_1 n) by assumption. noteq.
    + rewrite !(tm_2 n) by assumption. cbn [w2 p']. rewrite set_nth_nth by exact Hi'.
      destruct (eqb_spec [i; j] [i'; j']) as [[= -> ->]|Hne].
      * unfold sl2. cbn [nth]. rewrite Nat.eqb_refl. reflexivity.
      * destruct (Nat.eqb_spec (sl2 n [i'; j']) (slot2 n i j)) as [E|]; [|reflexivity]. exfalso; apply Hne.
        apply (map_NoDup_inj (sl2 n) (pairs n)); [rewrite slots2; apply seq_NoDup | exact Hp | exact Hp' | symmetry; exact E].
    + rewrite !(tm_3 n) by assumption. noteq.
  - assert (Hi' : slot3 n i j k < length (w3 p)) by (rewrite W3; exact (sl3_lt n _ Hp)). rewrite assign_set_nth by exact Hi'. cbn [bind].
    eexists. split; [reflexivity|]. set (p' := {| pn := n |}).
    assert (W' : wf_poly n p').
    { constructor; cbn [pn w0 w1 w2 w3 p']; try assumption; try reflexivity; [rewrite set_nth_length; assumption | apply set_nth_Forall; assumption]. }
    split; [exact W'|]. intros t' Ht'. destruct (terms_cases n t' Ht') as [->|[(i' & -> & Hi2)|[(i' & j' & -> & Hp')|(i' & j' & k' & -> & Hp')]]].
    + rewrite !tm_0. noteq.
    + rewrite !(tm_1 n) by assumption. noteq.
    + rewrite !(tm_2 n) by assumption. noteq.
    + rewrite !(tm_3 n) by assumption. cbn [w3 p']. rewrite set_nth_nth by exact Hi'.
      destruct (eqb_spec [i; j; k] [i'; j'; k']) as [[= -> -> ->]|Hne].
      * unfold sl3. cbn [nth]. rewrite Nat.eqb_refl. reflexivity.
      * destruct (Nat.eqb_spec (sl3 n [i'; j'; k']) (slot3 n i j k)) as [E|]; [|reflexivity]. exfalso; apply Hne.
        apply (map_NoDup_inj (sl3 n) (triples n)); [rewrite slots3; apply seq_NoDup | exact Hp | exact Hp' | symmetry; exact E].
Qed.
