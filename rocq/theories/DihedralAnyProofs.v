(** Products on any number of qubits: whatever the order of sets, a product that does
    not raise is right; CPython's sets list the union of two sets. *)
From Coq Require Import List Arith Lia ZArith.
From Verif Require Import Base ResultFacts DihedralModel DihedralSpec DihedralPolyProofs DihedralValueProofs DihedralGroupProofs DihedralAlgebraProofs.
Import ListNotations.
Open Scope nat_scope.

(** ** Sorting *)
Lemma insert_sorted_In a l j : In j (insert_sorted a l) <-> j = a \/ In j l.
Proof. induction l as [|b l IH]; cbn; [intuition|]. destruct (a <=? b); cbn; [intuition|]. rewrite IH. intuition. Qed.
Lemma sorted_In l j : In j (sorted l) <-> In j l.
Proof. induction l as [|a l IH]; [reflexivity|]. cbn [sorted fold_right]. rewrite insert_sorted_In. cbn [In]. fold (sorted l). rewrite IH. intuition. Qed.
Lemma insert_sorted_length a l : length (insert_sorted a l) = S (length l).
Proof. induction l as [|b l IH]; cbn; [reflexivity|]. destruct (a <=? b); cbn; [reflexivity|]. rewrite IH. reflexivity. Qed.
Lemma sorted_length l : length (sorted l) = length l.
Proof. induction l as [|a l IH]; [reflexivity|]. cbn [sorted fold_right]. rewrite insert_sorted_length. fold (sorted l). cbn. rewrite IH. reflexivity. Qed.
Lemma inc_cons a l : increasing (a :: l) = true <-> increasing l = true /\ (forall b, In b l -> a < b).
Proof.
  revert a. induction l as [|b l IH]; intros a; [cbn; intuition|]. change (increasing (a :: b :: l)) with ((a <? b) && increasing (b :: l)). rewrite Bool.andb_true_iff, Nat.ltb_lt. split.
  - intros [H1 H2]. split; [exact H2|]. intros c [<-|H]; [exact H1|]. apply IH in H2. destruct H2 as [_ H2]. specialize (H2 c H). lia.
  - intros [H1 H2]. split; [apply H2; left; reflexivity|exact H1].
Qed.
Lemma insert_sorted_inc a l : increasing l = true -> ~ In a l -> increasing (insert_sorted a l) = true.
Proof.
  induction l as [|b l IH]; intros Hl Ha; [reflexivity|]. cbn [insert_sorted]. apply inc_cons in Hl. destruct Hl as [Hl Hb]. destruct (Nat.leb_spec a b) as [H|H].
  - apply inc_cons. split; [apply inc_cons; auto|]. assert (a <> b) by (intros ->; apply Ha; left; reflexivity). intros c [<-|Hc]; [lia|]. specialize (Hb c Hc). lia.
  - apply inc_cons. split; [apply IH; [exact Hl|intros K; apply Ha; right; exact K]|]. intros c Hc. apply insert_sorted_In in Hc. destruct Hc as [->|Hc]; [exact H|apply Hb, Hc].
Qed.
Lemma sorted_inc l : NoDup l -> increasing (sorted l) = true.
Proof. induction 1 as [|a l Ha _ IH]; [reflexivity|]. cbn [sorted fold_right]. apply insert_sorted_inc; [exact IH|]. fold (sorted l). rewrite sorted_In. exact Ha. Qed.
Lemma sorted_id l : increasing l = true -> sorted l = l.
Proof.
  induction l as [|a l IH]; intros H; [reflexivity|]. apply inc_cons in H. destruct H as [H1 H2]. cbn [sorted fold_right]. fold (sorted l). rewrite (IH H1). destruct l as [|b l]; [reflexivity|]. cbn [insert_sorted]. specialize (H2 b (or_introl eq_refl)). destruct (Nat.leb_spec a b); [reflexivity|lia].
Qed.
Lemma inc_nodup l : increasing l = true -> NoDup l.
Proof. induction l as [|a l IH]; intros H; [constructor|]. apply inc_cons in H. destruct H as [H1 H2]. constructor; [intros K; specialize (H2 a K); lia|auto]. Qed.

(** ** Any order *)
Definition lists_union (sl : list nat -> list nat -> list nat) : Prop := forall n t I, In t (terms n) -> In I (terms n) -> NoDup (sl t I) /\ forall j, In j (sl t I) <-> In j t \/ In j I.
Definition sorting (sl : list nat -> list nat -> list nat) (t I : list nat) : list nat := sorted (sl t I).
Lemma sorting_sorted sl n : lists_union sl -> iterates_sorted n (sorting sl).
Proof. intros H t I Ht HI. destruct (H n t I Ht HI) as [H1 H2]. split; [apply sorted_inc, H1|]. intros j. unfold sorting. rewrite sorted_In. apply H2. Qed.
(** [r] is [s], or a [QiskitError]. *)
Definition or_raises {A} (r s : result A) : Prop := r = s \/ r = Err QiskitError.
Lemma add_term_sorted r L v : or_raises (add_term r L v) (add_term r (sorted L) v).
Proof.
  destruct (Nat.leb_spec 4 (length L)) as [H|H].
  - left. unfold add_term, get_term, set_term. rewrite sorted_length, (proj2 (Nat.leb_le _ _) H). reflexivity.
  - destruct (bad_indices (pn r) L) eqn:B; [right; unfold add_term, get_term; rewrite (proj2 (Nat.leb_gt _ _) H), B; reflexivity|]. left. f_equal. symmetry. apply sorted_id. unfold bad_indices in B. apply Bool.orb_false_iff in B. destruct B as [_ B].
    destruct L as [|a [|b L]]; [reflexivity|reflexivity|]. cbn [length] in B. change (1 <? S (S (length L))) with true in B. cbn [andb] in B. apply Bool.negb_false_iff in B. exact B.
Qed.
Lemma bind_or {A B} (r s : result A) (f g : A -> result B) : or_raises r s -> (forall x, or_raises (f x) (g x)) -> or_raises (do x <- r; f x) (do x <- s; g x).
Proof. intros [-> | ->] H; [|right; reflexivity]. destruct s as [x|e]; [apply H|left; reflexivity]. Qed.
Lemma or_refl {A} (r : result A) : or_raises r r.
Proof. left. reflexivity. Qed.
Lemma foldM_or {A B} (f g : B -> A -> result B) l : (forall r x, or_raises (f r x) (g r x)) -> forall r, or_raises (foldM f l r) (foldM g l r).
Proof. intros H. induction l as [|x l IH]; intros r; cbn [foldM]; [apply or_refl|]. apply bind_or; [apply H|exact IH]. Qed.
Lemma mul_monomial_any sl p I : or_raises (mul_monomial sl p I) (mul_monomial (sorting sl) p I).
Proof.
  unfold mul_monomial. destruct (4 <=? length I); [apply or_refl|]. destruct ((1 <? length I) && negb (increasing I)); [apply or_refl|]. destruct I as [|i I]; [apply or_refl|]. apply foldM_or. intros r t. apply bind_or; [apply or_refl|]. intros v. apply add_term_sorted.
Qed.
Lemma pmul_any sl p q : or_raises (pmul sl p q) (pmul (sorting sl) p q).
Proof.
  unfold pmul. destruct (pn p =? pn q); [|apply or_refl]. apply foldM_or. intros r t. apply bind_or; [apply or_refl|]. intros v. destruct (v =? 0)%Z; [apply or_refl|]. apply bind_or; [apply mul_monomial_any|]. intros tmp. apply or_refl.
Qed.
Lemma evaluate_any sl p xs : or_raises (evaluate sl p xs) (evaluate (sorting sl) p xs).
Proof.
  unfold evaluate. destruct (negb _); [apply or_refl|]. destruct (negb _); [apply or_refl|]. apply foldM_or. intros r t. apply bind_or; [apply or_refl|]. intros v. destruct (v =? 0)%Z; [apply or_refl|]. apply bind_or; [apply or_refl|]. intros vars. apply bind_or; [apply foldM_or; intros; apply pmul_any|]. intros nt. apply or_refl.
Qed.
Lemma cmul_any sl a b : or_raises (cmul sl a b) (cmul (sorting sl) a b).
Proof. unfold cmul. destruct (dn a =? dn b); [|apply or_refl]. apply bind_or; [apply or_refl|]. intros vars. apply bind_or; [apply evaluate_any|]. intros q. apply or_refl. Qed.
Lemma compose_any sl a b front : or_raises (compose sl a b front) (compose (sorting sl) a b front).
Proof. unfold compose. destruct (dn a =? dn b); [|apply or_refl]. apply bind_or; [destruct front; apply cmul_any|]. intros r. apply or_refl. Qed.

(** ** CPython's sets *)
Section Table.
Variable size : nat.
Hypothesis Hsize : size = 8 \/ size = 16.
Definition table (tb : list (option nat)) : Prop := length tb = size.
Definition probe (tb : list (option nat)) (key : nat) : option nat := set_probe (2 * length tb + key) (length tb - 1) tb key key (Nat.land key (length tb - 1)).
(** Every key is where it is looked for. *)
Definition found (tb : list (option nat)) : Prop := forall j k, j < size -> nth j tb None = Some k -> probe tb k = Some j.
Lemma land_lt i : Nat.land i (size - 1) < size.
Proof. destruct Hsize as [-> | ->]; [change (8 - 1) with (Nat.ones 3)|change (16 - 1) with (Nat.ones 4)]; rewrite Nat.land_ones; apply Nat.mod_upper_bound; discriminate. Qed.
Lemma near_lt i j : i < size -> In j (i :: (if i + 9 <=? size - 1 then seq (i + 1) 9 else [])) -> j < size.
Proof. intros Hi [<-|H]; [exact Hi|]. destruct (Nat.leb_spec (i + 9) (size - 1)); [|destruct H]. apply in_seq in H. lia. Qed.
Lemma probe_sound fuel tb key p i j : i < size -> set_probe fuel (size - 1) tb key p i = Some j -> j < size /\ slot_free tb key j = true.
Proof.
  revert p i. induction fuel as [|f IH]; intros p i Hi E; [discriminate|]. cbn [set_probe] in E. destruct (find _ _) as [j'|] eqn:F.
  - injection E as <-. apply find_some in F. destruct F as [F1 F2]. split; [apply (near_lt i j' Hi F1)|exact F2].
  - exact (IH _ _ (land_lt _) E).
Qed.
(** Filling another free slot does not disturb the search. *)
Lemma find_other {A} (f g : A -> bool) l j j' : (forall x, x <> j' -> g x = f x) -> f j' = true -> j <> j' -> (find f l = Some j -> find g l = Some j) /\ (find f l = None -> find g l = None).
Proof.
  intros Hfg Hj Hn. induction l as [|x l [IH1 IH2]]; cbn; [split; [discriminate|auto]|]. destruct (f x) eqn:Fx.
  - split; [|discriminate]. intros [= ->]. rewrite Hfg, Fx by auto. reflexivity.
  - assert (x <> j') by (intros ->; congruence). rewrite Hfg, Fx by assumption. auto.
Qed.
Lemma probe_other fuel tb tb' key p i j j' : (forall x, x <> j' -> slot_free tb' key x = slot_free tb key x) -> slot_free tb key j' = true -> j <> j' ->
  set_probe fuel (size - 1) tb key p i = Some j -> set_probe fuel (size - 1) tb' key p i = Some j.
Proof.
  intros H1 H2 H3. revert p i. induction fuel as [|f IH]; intros p i E; [discriminate|]. cbn [set_probe] in *.
  destruct (find_other _ _ (i :: (if i + 9 <=? size - 1 then seq (i + 1) 9 else [])) j j' H1 H2 H3) as [F1 F2]. destruct (find (slot_free tb key) _) as [x|] eqn:F.
  - injection E as ->. rewrite (F1 eq_refl). reflexivity.
  - rewrite (F2 eq_refl). exact (IH _ _ E).
Qed.
(** The search ends: once the perturbation is used up, all slots are visited. *)
Fixpoint walk (k i : nat) : nat := match k with 0 => i | S k' => walk k' (Nat.land (i * 5 + 1) (size - 1)) end.
Lemma walk_covers i s : i < size -> s < size -> exists k, k < size /\ walk k i = s.
Proof.
  intros Hi Hs. assert (C : existsb (fun k => walk k i =? s) (seq 0 size) = true).
  { destruct Hsize as [E|E]; unfold walk; rewrite E in *; clear - Hi Hs;
      [do 8 (destruct i as [|i]; [do 8 (destruct s as [|s]; [reflexivity|]); lia|]); lia|do 16 (destruct i as [|i]; [do 16 (destruct s as [|s]; [reflexivity|]); lia|]); lia]. }
  apply existsb_exists in C. destruct C as (k & Hk & E). apply in_seq in Hk. apply Nat.eqb_eq in E. exists k. split; [lia|exact E].
Qed.
Lemma probe_walk tb key s k fuel i : slot_free tb key s = true -> walk k i = s -> k < fuel -> set_probe fuel (size - 1) tb key 0 i <> None.
Proof.
  intros Hs. revert fuel i. induction k as [|k IH]; intros [|fuel] i Hw Hf; try lia; cbn [set_probe walk] in *.
  - subst i. cbn [find]. rewrite Hs. discriminate.
  - destruct (find _ _); [discriminate|]. cbn [Nat.shiftr]. rewrite Nat.shiftr_0_l, Nat.add_0_r. apply IH; [exact Hw|lia].
Qed.
Lemma probe_ends tb key s : s < size -> slot_free tb key s = true -> forall p fuel i, i < size -> p + size <= fuel -> set_probe fuel (size - 1) tb key p i <> None.
Proof.
  intros Hs Hf p. induction p as [p IH] using lt_wf_ind. intros fuel i Hi Hl. destruct p as [|p].
  - destruct (walk_covers i s Hi Hs) as (k & Hk & Hw). apply (probe_walk tb key s k fuel i Hf Hw). lia.
  - destruct fuel as [|fuel]; [lia|]. cbn [set_probe]. destruct (find _ _); [discriminate|]. assert (L : Nat.shiftr (S p) 5 <= p). { rewrite Nat.shiftr_div_pow2. change (2 ^ 5) with 32. pose proof (Nat.div_lt (S p) 32 ltac:(lia) ltac:(lia)). lia. }
    apply IH; [lia|apply land_lt|lia].
Qed.
Lemma setn_nth {A} (l : list A) j v d i : j < length l -> nth i (set_nth l j v) d = if i =? j then v else nth i l d.
Proof.
  revert j i. induction l as [|a l IH]; intros [|j] i H; cbn in H; try lia; unfold set_nth; cbn.
  - destruct i; reflexivity.
  - destruct i as [|i]; [reflexivity|]. cbn [nth]. specialize (IH j i ltac:(lia)). unfold set_nth in IH. exact IH.
Qed.
Lemma set_nth_length {A} (l : list A) j v : j < length l -> length (set_nth l j v) = length l.
Proof. intros H. unfold set_nth. rewrite app_length, firstn_length. cbn [length]. rewrite skipn_length. lia. Qed.
Lemma in_items tb k : In k (set_items tb) <-> exists j, j < length tb /\ nth j tb None = Some k.
Proof.
  unfold set_items. rewrite in_flat_map. split.
  - intros (o & Ho & Hk). destruct o as [k'|]; [|destruct Hk]. destruct Hk as [->|[]]. destruct (In_nth tb (Some k) None Ho) as (j & Hj & E). eauto.
  - intros (j & Hj & E). exists (Some k). split; [|left; reflexivity]. rewrite <- E. apply nth_In, Hj.
Qed.
Lemma insert_step tb key : table tb -> found tb -> (exists s, s < size /\ slot_free tb key s = true) ->
  table (set_insert tb key) /\ found (set_insert tb key) /\ forall k, In k (set_items (set_insert tb key)) <-> k = key \/ In k (set_items tb).
Proof.
  unfold table. intros Ht Hf (s & Hs & Fs). unfold set_insert. fold (probe tb key). unfold probe at 1 2 3. rewrite Ht.
  destruct (set_probe (2 * size + key) (size - 1) tb key key (Nat.land key (size - 1))) as [j|] eqn:E; [|exfalso; revert E; apply (probe_ends tb key s Hs Fs); [apply land_lt|lia]].
  destruct (probe_sound _ _ _ _ _ _ (land_lt key) E) as [Hj Hfree].
  assert (Hlen : length (set_nth tb j (Some key)) = size) by (rewrite set_nth_length; lia). split; [exact Hlen|].
  assert (N : forall i, nth i (set_nth tb j (Some key)) None = if i =? j then Some key else nth i tb None) by (intros i; apply setn_nth; lia).
  assert (SF : forall k x, x <> j -> slot_free (set_nth tb j (Some key)) k x = slot_free tb k x). { intros k x Hx. unfold slot_free. rewrite N. destruct (Nat.eqb_spec x j); [contradiction|reflexivity]. }
  split.
  - intros i k Hi Hk. unfold probe. rewrite Hlen. rewrite N in Hk. destruct (Nat.eqb_spec i j) as [->|Hn].
    + injection Hk as <-. unfold slot_free in Hfree. destruct (nth j tb None) as [k'|] eqn:Ej.
      * apply Nat.eqb_eq in Hfree. subst k'. replace (set_nth tb j (Some key)) with tb; [exact E|]. apply (nth_ext _ _ None None); [lia|]. intros i Hi'. rewrite N. destruct (Nat.eqb_spec i j) as [->|_]; [exact Ej|reflexivity].
      * assert (G : forall fuel p i0, set_probe fuel (size - 1) tb key p i0 = Some j -> set_probe fuel (size - 1) (set_nth tb j (Some key)) key p i0 = Some j).
        { assert (SA : forall x, slot_free (set_nth tb j (Some key)) key x = slot_free tb key x). { intros x. destruct (Nat.eq_dec x j) as [->|Hx]; [|apply SF, Hx]. unfold slot_free. rewrite N, Nat.eqb_refl, Nat.eqb_refl, Ej. reflexivity. }
          assert (FE : forall l, find (slot_free (set_nth tb j (Some key)) key) l = find (slot_free tb key) l) by (induction l as [|x l IHl]; [reflexivity|]; cbn [find]; rewrite SA, IHl; reflexivity).
          induction fuel as [|fuel IHf]; intros p i0 E0; [discriminate|]. cbn [set_probe] in *. rewrite FE. destruct (find _ _); [exact E0|]. apply IHf, E0. }
        apply G, E.
    + specialize (Hf i k Hi Hk). unfold probe in Hf. rewrite Ht in Hf. unfold slot_free in Hfree. destruct (nth j tb None) as [k'|] eqn:Ej.
      * apply Nat.eqb_eq in Hfree. subst k'. replace (set_nth tb j (Some key)) with tb; [exact Hf|]. apply (nth_ext _ _ None None); [lia|]. intros x Hx. rewrite N. destruct (Nat.eqb_spec x j) as [->|_]; [exact Ej|reflexivity].
      * apply (probe_other _ tb _ k k _ i j); [intros x Hx; apply SF, Hx|unfold slot_free; rewrite Ej; reflexivity|exact Hn|exact Hf].
  - intros k. rewrite !in_items, Hlen, Ht. split.
    + intros (i & Hi & Hk). rewrite N in Hk. destruct (i =? j); [injection Hk as <-; auto|right; eauto].
    + intros [->|(i & Hi & Hk)]; [exists j; split; [exact Hj|rewrite N, Nat.eqb_refl; reflexivity]|]. exists i. split; [exact Hi|]. rewrite N. destruct (Nat.eqb_spec i j) as [->|_]; [|exact Hk]. unfold slot_free in Hfree. rewrite Hk in Hfree. apply Nat.eqb_eq in Hfree. subst. reflexivity.
Qed.
Lemma items_nodup tb : table tb -> found tb -> NoDup (set_items tb).
Proof.
  unfold table. intros Ht Hf. assert (I : forall i j k, i < size -> j < size -> nth i tb None = Some k -> nth j tb None = Some k -> i = j) by (intros i j k Hi Hj A B; pose proof (Hf i k Hi A); pose proof (Hf j k Hj B); congruence).
  clear Hf. rewrite <- Ht in I. clear Ht. induction tb as [|o tb IH]; [constructor|]. unfold set_items. cbn [flat_map]. fold (set_items tb).
  assert (R : NoDup (set_items tb)) by (apply IH; intros i j k Hi Hj A B; specialize (I (S i) (S j) k ltac:(cbn; lia) ltac:(cbn; lia) A B); lia). destruct o as [k|]; [|exact R]. constructor; [|exact R].
  rewrite in_items. intros (j & Hj & E). specialize (I 0 (S j) k ltac:(cbn; lia) ltac:(cbn; lia) eq_refl E). discriminate.
Qed.
Lemma items_few tb : table tb -> length (set_items tb) < size -> exists s, s < size /\ nth s tb None = None.
Proof.
  unfold table. clear Hsize. intros <-. induction tb as [|o tb IH]; cbn [length]; intros H; [cbn in H; lia|]. unfold set_items in H. cbn [flat_map] in H. fold (set_items tb) in H. destruct o as [k|]; [|exists 0; split; [lia|reflexivity]].
  cbn [length app] in H. destruct (IH ltac:(lia)) as (s & Hs & E). exists (S s). split; [lia|exact E].
Qed.
Lemma fold_insert l : forall tb, table tb -> found tb -> length (set_items tb) + length l < size ->
  let tb' := fold_left set_insert l tb in table tb' /\ found tb' /\ (forall k, In k (set_items tb') <-> In k l \/ In k (set_items tb)) /\ length (set_items tb') <= length (set_items tb) + length l.
Proof.
  induction l as [|a l IH]; intros tb Ht Hf Hl; cbn [fold_left].
  - split; [exact Ht|]. split; [exact Hf|]. split; [intros k; cbn; tauto|cbn; lia].
  - cbn [length] in Hl. destruct (items_few tb Ht ltac:(lia)) as (s & Hs & Es). destruct (insert_step tb a Ht Hf) as (T1 & F1 & I1). { exists s. split; [exact Hs|]. unfold slot_free. rewrite Es. reflexivity. }
    assert (L : length (set_items (set_insert tb a)) <= S (length (set_items tb))).
    { pose proof (items_nodup _ T1 F1) as N1. apply (NoDup_incl_length N1 (l' := a :: set_items tb)). intros k Hk. apply I1 in Hk. destruct Hk as [->|Hk]; [left; reflexivity|right; exact Hk]. }
    destruct (IH _ T1 F1 ltac:(lia)) as (T2 & F2 & I2 & L2). split; [exact T2|]. split; [exact F2|]. split; [|cbn [length]; lia]. intros k. rewrite I2, I1. cbn [In]. intuition.
Qed.
Lemma set_of_ok l : length l < size -> table (set_of size l) /\ found (set_of size l) /\ (forall k, In k (set_items (set_of size l)) <-> In k l) /\ length (set_items (set_of size l)) <= length l.
Proof.
  intros Hl. assert (E0 : set_items (repeat None size) = []) by (clear; induction size; [reflexivity|assumption]).
  destruct (fold_insert l (repeat None size)) as (T & F & I & L); [apply repeat_length| |rewrite E0; cbn; lia|].
  - intros j k Hj Hk. rewrite nth_repeat in Hk. discriminate.
  - split; [exact T|]. split; [exact F|]. rewrite E0 in *. split; [intros k; specialize (I k); cbn in I; unfold set_of; rewrite I; tauto|exact L].
Qed.
End Table.
Lemma cpython_lists : lists_union cpython_union.
Proof.
  intros n t I Ht HI. apply terms_In in Ht, HI. destruct Ht as (Lt & _ & _), HI as (LI & _ & _). unfold cpython_union.
  destruct (set_of_ok 8 (or_introl eq_refl) t ltac:(lia)) as (Ta & Fa & Ia & La). destruct (set_of_ok 8 (or_introl eq_refl) I ltac:(lia)) as (_ & _ & Ib & Lb).
  set (a := set_of 8 t) in *. set (b := set_items (set_of 8 I)) in *. destruct (Nat.leb_spec 5 (length (set_items a) + length b)) as [H|H].
  - destruct (set_of_ok 16 (or_intror eq_refl) (set_items a) ltac:(lia)) as (T2 & F2 & I2 & L2). destruct (fold_insert 16 (or_intror eq_refl) b _ T2 F2 ltac:(lia)) as (T3 & F3 & I3 & _). split; [apply (items_nodup 16 (or_intror eq_refl) _ T3 F3)|]. intros j. rewrite I3, I2, Ia, Ib. tauto.
  - destruct (fold_insert 8 (or_introl eq_refl) b a Ta Fa ltac:(lia)) as (T3 & F3 & I3 & _). split; [apply (items_nodup 8 (or_introl eq_refl) _ T3 F3)|]. intros j. rewrite I3, Ia, Ib. tauto.
Qed.
