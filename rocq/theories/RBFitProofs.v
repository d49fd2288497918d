(** Proofs about the data entering the fits. *)
From Coq Require Import QArith Lqa.
From Verif Require Import Base ResultFacts PyStr CountsModel CountsSpec CountsProofs MeasCalModel RBSeqModel RBFitModel RBFitSpec.
Open Scope nat_scope.

(** ** Merging counts *)
Definition wsum (P : pystr -> bool) (c : counts) : Z := zsum (map (fun kv => if P (fst kv) then snd kv else 0%Z) c).
Lemma wsum_dset P (r : counts) k v : wsum P (dset r k (dget0 r k + v)%Z) = (wsum P r + if P k then v else 0)%Z.
Proof.
  unfold wsum, dget0. induction r as [|[k0 v0] r IH]; cbn [dset dget map zsum fst snd].
  - destruct (P k); lia.
  - destruct (eqb_spec k k0) as [->|Hn]; cbn [map zsum fst snd]; [destruct (P k0); lia|]. rewrite IH. destruct (P k0), (P k); lia.
Qed.
Lemma wsum_inner P c : forall acc, wsum P (fold_left (fun r kv => dset r (fst kv) (dget0 r (fst kv) + snd kv)%Z) c acc) = (wsum P acc + wsum P c)%Z.
Proof.
  induction c as [|[k v] c IH]; intros acc; cbn [fold_left fst snd]; [unfold wsum at 3; cbn; lia|]. rewrite IH, wsum_dset. unfold wsum at 4. cbn [map zsum fst snd]. fold (wsum P c). lia.
Qed.
Lemma wsum_build P l : wsum P (build_counts l) = shots_with P l.
Proof.
  assert (X : forall l acc, wsum P (fold_left (fun acc c => fold_left (fun r kv => dset r (fst kv) (dget0 r (fst kv) + snd kv)%Z) c acc) l acc) = (wsum P acc + shots_with P l)%Z).
  { induction l0 as [|c l0 IH]; intros acc; cbn [fold_left]; [unfold shots_with; cbn; lia|]. rewrite IH, wsum_inner. unfold shots_with. cbn [map zsum]. fold (wsum P c). lia. }
  unfold build_counts. destruct l as [|c [|c' l]]; [reflexivity | unfold shots_with; cbn [map zsum]; unfold wsum; lia|]. rewrite X. unfold wsum at 1. cbn [map zsum]. lia.
Qed.

Lemma inner_keys c : forall (acc : counts), (forall k, In k (dkeys (fold_left (fun r kv => dset r (fst kv) (dget0 r (fst kv) + snd kv)%Z) c acc)) <-> In k (dkeys acc) \/ In k (map fst c)) /\
  (NoDup (dkeys acc) -> NoDup (dkeys (fold_left (fun r kv => dset r (fst kv) (dget0 r (fst kv) + snd kv)%Z) c acc))).
Proof.
  induction c as [|[k0 v0] c IH]; intros acc; cbn [fold_left map fst snd].
  - split; [intros k; cbn; tauto | auto].
  - destruct (IH (dset acc k0 (dget0 acc k0 + v0)%Z)) as [I1 I2]. split.
    + intros k. rewrite I1, In_dkeys_dset. cbn [In]. intuition congruence.
    + intros Hn. apply I2, NoDup_dset, Hn.
Qed.
Lemma build_keys l : (forall c, In c l -> NoDup (map fst c)) ->
  NoDup (dkeys (build_counts l)) /\ forall k, In k (dkeys (build_counts l)) -> exists c, In c l /\ In k (map fst c).
Proof.
  intros Hn. assert (X : forall l (acc : counts), NoDup (dkeys acc) -> let r := fold_left (fun acc c => fold_left (fun r kv => dset r (fst kv) (dget0 r (fst kv) + snd kv)%Z) c acc) l acc in
     NoDup (dkeys r) /\ forall k, In k (dkeys r) -> In k (dkeys acc) \/ exists c, In c l /\ In k (map fst c)).
  { clear. induction l as [|c l IH]; intros acc Ha; cbn [fold_left]; [split; auto|]. destruct (inner_keys c acc) as [I1 I2]. destruct (IH _ (I2 Ha)) as [J1 J2]. split; [exact J1|].
    intros k Hk. destruct (J2 k Hk) as [Hk'|(c' & Hc & Hk')].
    - apply I1 in Hk' as [Hk'|Hk']; [left; exact Hk' | right; exists c; split; [left; reflexivity | exact Hk']].
    - right. exists c'. split; [right; exact Hc | exact Hk']. }
  unfold build_counts. destruct l as [|c [|c' l]].
  - split; [constructor | intros k []].
  - split; [apply Hn; left; reflexivity|]. intros k Hk. exists c. split; [left; reflexivity | exact Hk].
  - destruct (X (c :: c' :: l) [] (NoDup_nil _)) as [J1 J2]. split; [exact J1|]. intros k Hk. destruct (J2 k Hk) as [[]|H]. exact H.
Qed.

(** ** Circuits found by name *)
Lemma get_counts_recorded r name : NoDup (map e_name r) ->
  match get_counts r name with Ok c => [c] | Err _ => [] end = map e_counts (filter (fun e => eqb (e_name e) name) r).
Proof.
  unfold get_counts. induction r as [|e r IH]; intros Hn; [reflexivity|]. cbn [map] in Hn. inversion Hn as [|? ? Hni Hn']; subst. cbn [find filter].
  destruct (eqb_spec (e_name e) name) as [E|E]; [|apply IH, Hn']. cbn [map]. f_equal.
  replace (filter (fun e0 => eqb (e_name e0) name) r) with (@nil experiment); [reflexivity|]. symmetry. clear IH Hn Hn'. induction r as [|e' r IH]; [reflexivity|]. cbn [filter].
  destruct (eqb_spec (e_name e') name) as [E'|]; [exfalso; apply Hni; left; congruence|]. apply IH. intros H. apply Hni. right. exact H.
Qed.
Lemma count_list_recorded n rs name : results_fine n rs -> count_list rs name = recorded rs name.
Proof.
  unfold count_list, recorded. induction rs as [|r rs IH]; intros H; [reflexivity|]. cbn [flat_map]. rewrite get_counts_recorded by (apply (H r); left; reflexivity).
  f_equal. apply IH. intros r' Hr'. apply H. right. exact Hr'.
Qed.
Lemma recorded_fine n rs name c : results_fine n rs -> In c (recorded rs name) -> counts_fine n c.
Proof.
  intros H Hc. unfold recorded in Hc. apply in_flat_map in Hc as (r & Hr & Hc). apply in_map_iff in Hc as (e & <- & He). apply filter_In in He as [He _]. apply (H r Hr), He.
Qed.

Lemma merged_valid n cs : (forall c, In c cs -> counts_fine n c) -> build_counts cs <> [] -> valid_counts n (build_counts cs).
Proof.
  intros H Hne. destruct (build_keys cs (fun c Hc => proj1 (H c Hc))) as [K1 K2].
  assert (F : forall k v, In (k, v) (build_counts cs) -> length k = n /\ is_bits k).
  { intros k v Hi. destruct (K2 k) as (c & Hc & Hk); [apply in_map_iff; exists (k, v); auto|]. apply in_map_iff in Hk as ([k' v'] & E & Hk). cbn in E. subst k'. apply (proj2 (H c Hc) _ _ Hk). }
  split; [exact Hne|]. split.
  - replace (map (fun kv => strip (fst kv)) (build_counts cs)) with (dkeys (build_counts cs)); [exact K1|]. apply map_ext_in. intros [k v] Hi. cbn. symmetry. apply strip_bits. apply (F k v Hi).
  - intros k v Hi. destruct (F k v Hi) as [F1 F2]. rewrite (strip_bits k F2). auto.
Qed.

(** ** Ground outcomes *)
Lemma seq_sorted a n : StronglySorted lt (seq a n).
Proof.
  revert a. induction n as [|n IH]; intros a; cbn; constructor; [apply IH|]. apply Forall_forall. intros x Hx. apply in_seq in Hx. lia.
Qed.
Lemma map_zeros s qs : rev (map (qubit_bit s) qs) = repeat ch0 (length qs) <-> forallb (fun q => eqb (qubit_bit s q) "0"%char) qs = true.
Proof.
  rewrite <- (rev_involutive (repeat ch0 (length qs))). split.
  - intros E. assert (E' : map (qubit_bit s) qs = rev (repeat ch0 (length qs))) by (rewrite <- (rev_involutive (map (qubit_bit s) qs)), E, rev_involutive; reflexivity).
    apply forallb_forall. intros q Hq. assert (H : In (qubit_bit s q) (map (qubit_bit s) qs)) by (apply in_map, Hq). rewrite E' in H. apply in_rev, repeat_spec in H. rewrite H. reflexivity.
  - intros H. f_equal. assert (X : map (qubit_bit s) qs = repeat ch0 (length qs)).
    { rewrite forallb_forall in H. clear - H. induction qs as [|q qs IH]; [reflexivity|]. cbn [map length repeat]. rewrite IH by (intros x Hx; apply H; right; exact Hx). f_equal.
      specialize (H q (or_introl eq_refl)). destruct (eqb_spec (qubit_bit s q) "0"%char); [assumption | discriminate]. }
    rewrite X. clear. symmetry. induction (length qs) as [|n IH]; [reflexivity|]. cbn [repeat]. cbn [rev]. rewrite IH. clear. induction n; [reflexivity|]. cbn. f_equal. exact IHn.
Qed.

Lemma raw_entry_ok n rs d name start width v : results_fine n rs -> 0 < width -> start + width <= n ->
  dget d name = Some (build_counts (count_list rs name)) -> raw_entry d name start width = Ok v ->
  (0 <> shots_with always (recorded rs name))%Z /\ (v == fraction rs name start width)%Q.
Proof.
  intros Hf Hw Hs Hd H. unfold raw_entry in H. unfold dget_e in H. rewrite Hd in H. cbn [bind] in H. rewrite (count_list_recorded n) in H by exact Hf.
  set (c := build_counts (recorded rs name)) in *. inv_bind H. rename v0 into sub.
  assert (Hne : c <> []) by (intros E0; rewrite E0 in E; discriminate).
  assert (Hv : valid_counts n c) by (apply merged_valid; [intros c0 Hc0; eapply recorded_fine; eassumption | exact Hne]).
  destruct (marginal_counts_exact_lemma n c (seq start width) (seq start width) false Hv) as (r & Er & Eg & _).
  - split; [apply seq_sorted | apply Permutation_refl].
  - intros q Hq. apply in_seq in Hq. lia.
  - destruct width; [lia | discriminate].
  - rewrite Er in E. injection E as <-. unfold ratio in H.
    assert (T : zsum (dvals c) = shots_with always (recorded rs name)).
    { rewrite <- wsum_build. fold c. unfold wsum, dvals, always. reflexivity. }
    assert (G : dget0 r (repeat ch0 width) = shots_with (ground start width) (recorded rs name)).
    { rewrite Eg, <- wsum_build. fold c. unfold marginal_spec, wsum. f_equal. apply map_ext_in. intros [k w] Hi. cbn [fst snd].
      destruct Hv as (_ & _ & Hv). assert (Hk : strip k = k).
      { destruct (build_keys (recorded rs name)) as [_ K2]; [intros c0 Hc0; eapply recorded_fine; eassumption|]. destruct (K2 k) as (c0 & Hc0 & Hk0); [apply in_map_iff; exists (k, w); auto|].
        apply in_map_iff in Hk0 as ([k' w'] & E0 & Hk0). cbn in E0. subst k'. apply strip_bits. apply (proj2 (recorded_fine n _ _ _ Hf Hc0) _ _ Hk0). }
      rewrite Hk. unfold outcome_on, ground. pose proof (map_zeros k (seq start width)) as M. rewrite seq_length in M.
      destruct (eqb_spec (rev (map (qubit_bit k) (seq start width))) (repeat ch0 width)) as [E0|E0].
      - apply M in E0. rewrite E0. reflexivity.
      - destruct (forallb _ (seq start width)) eqn:F; [exfalso; apply E0, M; reflexivity | reflexivity]. }
    rewrite T, G in H. destruct (Z.eqb_spec (shots_with always (recorded rs name)) 0) as [E0|E0]; [discriminate|]. injection H as <-. split; [congruence | reflexivity].
Qed.

(** ** The raw data *)
Lemma circ_counts_get rs names name : forall (d : dict pystr counts), (forall c, dget d name = Some c -> c = build_counts (count_list rs name)) ->
  forall c, dget (fold_left (fun d name => dset d name (build_counts (count_list rs name))) names d) name = Some c -> c = build_counts (count_list rs name).
Proof.
  induction names as [|x names IH]; intros d Hd c; cbn [fold_left]; [apply Hd|]. apply IH. intros c'. rewrite dget_dset. destruct (eqb_spec name x) as [->|]; [congruence | apply Hd].
Qed.

Lemma raw_patterns_inv d ty lengths seeds pats : forall ind start raw, raw_patterns d ty lengths seeds pats ind start = Ok raw ->
  length raw = length pats /\
  forall i pat rows, nth_error pats i = Some pat -> nth_error raw i = Some rows ->
    length rows = length seeds /\
    forall j seed row, nth_error seeds j = Some seed -> nth_error rows j = Some row ->
      exists ls, nth_error lengths (ind + i) = Some ls /\ length row = length ls /\
      forall k v, nth_error row k = Some v -> raw_entry d (ty ++ len_seed k seed) (start + start_of pats i) (length pat) = Ok v.
Proof.
  induction pats as [|p pats IH]; intros ind start raw H; cbn [raw_patterns] in H.
  - injection H as <-. split; [reflexivity|]. intros [|i]; discriminate.
  - inv_bind H. inv_bind H. injection H as <-. apply mapM_inv in E. destruct (IH _ _ _ E0) as [L R]. split; [cbn; lia|].
    intros [|i] pat rows Hp Hr; cbn [nth_error] in Hp, Hr.
    + injection Hp as <-. injection Hr as <-. split; [symmetry; apply (Forall2_length' _ _ _ E)|]. intros j seed row Hj Hrow.
      pose proof (Forall2_nth _ _ _ _ _ _ E Hj Hrow) as X. cbn beta in X. inv_bind X. exists v1. rewrite Nat.add_0_r. split; [apply index_inv, E1|]. apply mapM_inv in X. split; [rewrite <- (Forall2_length' _ _ _ X), seq_length; reflexivity|].
      intros k w Hk. assert (Hkl : k < length v1).
      { rewrite <- (seq_length (length v1) 0), (Forall2_length' _ _ _ X). apply nth_error_Some. congruence. }
      assert (Hs : nth_error (seq 0 (length v1)) k = Some k) by (rewrite nth_error_nth' with (d := 0); [rewrite seq_nth by exact Hkl; reflexivity | rewrite seq_length; exact Hkl]).
      unfold start_of. cbn. rewrite Nat.add_0_r. apply (Forall2_nth _ _ _ _ _ _ X Hs Hk).
    + destruct (R i pat rows Hp Hr) as [R1 R2]. split; [exact R1|]. intros j seed row Hj Hrow. destruct (R2 j seed row Hj Hrow) as (ls & A & B & C). exists ls.
      replace (ind + S i) with (S ind + i) by lia. split; [exact A|]. split; [exact B|]. intros k w Hk. specialize (C k w Hk).
      unfold start_of in *. cbn [firstn concat]. rewrite app_length. replace (start + (length p + _)) with (start + length p + length (concat (firstn i pats))) by lia. exact C.
Qed.

Lemma start_bound (pats : list (list nat)) i pat : nth_error pats i = Some pat -> start_of pats i + length pat <= length (concat pats).
Proof.
  unfold start_of. revert i. induction pats as [|p pats IH]; intros [|i] H; try discriminate; cbn [nth_error firstn concat] in *; rewrite ?app_length.
  - injection H as <-. cbn. lia.
  - specialize (IH i H). lia.
Qed.


Lemma calc_data_inv n f raw : calc_data f = Ok raw -> results_fine n (f_results f) -> Forall (fun p => p <> []) (f_pattern f) -> length (concat (f_pattern f)) <= n ->
  exists ty, type_of (f_results f) ty /\ length raw = length (f_pattern f) /\
  forall i pat rows, nth_error (f_pattern f) i = Some pat -> nth_error raw i = Some rows ->
    length rows = length (f_seeds f) /\
    forall j seed row, nth_error (f_seeds f) j = Some seed -> nth_error rows j = Some row ->
      exists ls, nth_error (f_lengths f) i = Some ls /\ length row = length ls /\
      forall k v, nth_error row k = Some v ->
        (0 <> shots_with always (recorded (f_results f) (ty ++ len_seed k seed)))%Z /\
        (v == fraction (f_results f) (ty ++ len_seed k seed) (start_of (f_pattern f) i) (length pat))%Q.
Proof.
  intros H Hf Hp Hn. unfold calc_data in H. inv_bind H. inv_bind H. inv_bind H. rename v into r0, v0 into e0, v1 into l0. apply index_inv in E, E0.
  set (ty := before (str "_length") (e_name e0)) in *. exists ty. split; [exists r0, e0; auto|].
  match type of H with raw_patterns ?d _ _ _ _ _ _ = _ => set (cc := d) in * end.
  destruct (raw_patterns_inv _ _ _ _ _ _ _ _ H) as [L R]. split; [exact L|]. intros i pat rows Hi Hr. destruct (R i pat rows Hi Hr) as [R1 R2]. split; [exact R1|].
  intros j seed row Hj Hrow. destruct (R2 j seed row Hj Hrow) as (ls & A & B & C). exists ls. split; [exact A|]. split; [exact B|]. intros k v Hk. specialize (C k v Hk). cbn [Nat.add] in C.
  destruct (dget cc (ty ++ len_seed k seed)) as [c|] eqn:Ec; [|unfold raw_entry, dget_e in C; rewrite Ec in C; discriminate].
  apply (raw_entry_ok n _ cc); try assumption.
  - rewrite Forall_forall in Hp. specialize (Hp pat (nth_error_In _ _ Hi)). destruct pat; [contradiction | cbn; lia].
  - pose proof (start_bound _ _ _ Hi). lia.
  - rewrite Ec. f_equal. unfold cc in Ec. eapply circ_counts_get; [|exact Ec]. intros c'. cbn. discriminate.
Qed.

(** ** Histories *)
Lemma add_seeds_inv r : forall sd sd', add_seeds sd r = (sd', None) ->
  (forall e, In e r -> exists s, seed_of (e_name e) = Ok s) /\ (NoDup sd -> NoDup sd') /\
  forall s, In s sd' <-> In s sd \/ exists e, In e r /\ seed_of (e_name e) = Ok s.
Proof.
  induction r as [|e r IH]; intros sd sd' H; cbn [add_seeds] in H.
  - injection H as <-. split; [intros e []|]. split; [auto|]. intros s. split; [auto | intros [Hs|(e & [] & _)]; exact Hs].
  - destruct (seed_of (e_name e)) as [s0|] eqn:E; [|discriminate]. destruct (IH _ _ H) as (I1 & I2 & I3). split; [|split].
    + intros e' [<-|He']; [eauto | apply I1, He'].
    + intros Hn. apply I2. unfold mem. destruct (existsb (eqb s0) sd) eqn:M; [exact Hn|]. clear - Hn M. 
      apply Permutation_NoDup with (l := s0 :: sd); [apply Permutation_cons_append|]. constructor; [|exact Hn]. intros Hi.
      assert (existsb (eqb s0) sd = true); [|congruence]. apply existsb_exists. exists s0. split; [exact Hi|]. destruct (eqb_spec s0 s0); congruence.
    + intros s. rewrite I3. unfold mem. destruct (existsb (eqb s0) sd) eqn:M.
      * apply existsb_exists in M as (s1 & Hs1 & Es1). destruct (eqb_spec s0 s1) as [<-|]; [|discriminate]. split.
        -- intros [Hs|(e' & He' & Es)]; [auto | right; exists e'; split; [right|]; assumption].
        -- intros [Hs|(e' & [<-|He'] & Es)]; [auto | left; congruence | right; eauto].
      * split.
        -- intros [Hs|(e' & He' & Es)]; [apply in_app_or in Hs as [Hs|[<-|[]]]; [auto | right; exists e; split; [left; reflexivity | exact E]] | right; exists e'; split; [right|]; assumption].
        -- intros [Hs|(e' & [<-|He'] & Es)]; [left; apply in_or_app; auto | left; apply in_or_app; right; left; congruence | right; eauto].
Qed.
Lemma add_results_inv rs : forall f f', add_results f rs = (f', None) ->
  f_results f' = f_results f ++ rs /\ f_lengths f' = f_lengths f /\ f_pattern f' = f_pattern f /\
  (NoDup (f_seeds f) -> NoDup (f_seeds f')) /\ forall s, In s (f_seeds f') <-> In s (f_seeds f) \/ seeds_named rs s.
Proof.
  induction rs as [|r rs IH]; intros f f' H; cbn [add_results] in H.
  - injection H as <-. rewrite app_nil_r. repeat split; auto. intros [H|(r & e & [] & _)]. exact H.
  - cbn [set_results f_seeds] in H. destruct (add_seeds (f_seeds f) r) as [sd err] eqn:E. destruct err; [discriminate|]. destruct (add_seeds_inv _ _ _ E) as (_ & S2 & S3).
    destruct (IH _ _ H) as (A & B & C & D & F). cbn in A, B, C, D, F. split; [rewrite A, <- app_assoc; reflexivity|]. split; [exact B|]. split; [exact C|]. split; [auto|].
    intros s. rewrite F, S3. unfold seeds_named. split.
    + intros [[Hs|(e & He & Es)]|(r' & e & Hr & He & Es)]; [auto | right; exists r, e; cbn; auto | right; exists r', e; cbn; auto].
    + intros [Hs|(r' & e & [<-|Hr] & He & Es)]; [auto | left; right; eauto | right; exists r', e; auto].
Qed.
Lemma add_data_inv f new rerun f' : add_data f new rerun = (f', None) ->
  f_results f' = f_results f ++ match new with Some rs => rs | None => [] end /\ f_lengths f' = f_lengths f /\ f_pattern f' = f_pattern f /\
  (NoDup (f_seeds f) -> NoDup (f_seeds f')) /\ (forall s, In s (f_seeds f') <-> In s (f_seeds f) \/ seeds_named (match new with Some rs => rs | None => [] end) s) /\
  (new <> None -> rerun = true -> calc_data f' = Ok (f_raw f') /\ f_mean f' = map column_means (f_raw f')).
Proof.
  unfold add_data. destruct new as [rs|].
  - destruct (add_results f rs) as [f1 err] eqn:E. destruct err; [discriminate|]. destruct (add_results_inv _ _ _ E) as (A & B & C & D & F). destruct rerun.
    + unfold recompute. destruct (calc_data f1) as [raw|] eqn:Ec; [|discriminate]. intros H. injection H as <-. cbn. repeat split; auto; try (apply F).
    + intros H. injection H as <-. split; [exact A|]. split; [exact B|]. split; [exact C|]. split; [exact D|]. split; [exact F|]. discriminate.
  - intros H. injection H as <-. rewrite app_nil_r. repeat split; auto; try contradiction. intros [H|(r & e & [] & _)]. exact H.
Qed.
Lemma added_inv h : forall f f', added f h f' ->
  f_results f' = f_results f ++ results_of h /\ f_lengths f' = f_lengths f /\ f_pattern f' = f_pattern f /\
  (NoDup (f_seeds f) -> NoDup (f_seeds f')) /\ (forall s, In s (f_seeds f') <-> In s (f_seeds f) \/ seeds_named (results_of h) s).
Proof.
  induction h as [|[new rerun] h IH]; intros f f' H; cbn [added] in H.
  - subst f'. cbn. rewrite app_nil_r. repeat split; auto. intros [H|(r & e & [] & _)]. exact H.
  - destruct H as (f1 & E & H). destruct (add_data_inv _ _ _ _ E) as (A & B & C & D & F & _). destruct (IH _ _ H) as (A' & B' & C' & D' & F').
    unfold results_of. cbn [flat_map fst]. fold (results_of h). split; [rewrite A', A, app_assoc; reflexivity|]. split; [congruence|]. split; [congruence|]. split; [auto|].
    intros s. rewrite F', F. unfold seeds_named. split.
    + intros [[Hs|(r & e & Hr & X)]|(r & e & Hr & X)]; [auto | right; exists r, e; split; [apply in_or_app; auto | exact X] | right; exists r, e; split; [apply in_or_app; auto | exact X]].
    + intros [Hs|(r & e & Hr & X)]; [auto|]. apply in_app_or in Hr as [Hr|Hr]; [left; right; exists r, e; auto | right; exists r, e; auto].
Qed.
Lemma added_app h1 : forall h2 f f', added f (h1 ++ h2) f' <-> exists g, added f h1 g /\ added g h2 f'.
Proof.
  induction h1 as [|[new rerun] h1 IH]; intros h2 f f'; cbn [added app]; [split; [intros H; exists f; auto | intros (g & -> & H); exact H]|].
  split; [intros (f1 & E & H); apply IH in H as (g & H1 & H2); exists g; eauto | intros (g & (f1 & E & H1) & H2); exists f1; split; [exact E|]; apply IH; eauto].
Qed.

(** ** The theorem on histories *)
Lemma nth_error_lt {A} (l : list A) k : k < length l -> exists v, nth_error l k = Some v.
Proof. intros H. destruct (nth_error l k) eqn:E; [eauto|]. apply nth_error_None in E. lia. Qed.
Lemma qmean_eq l m : Forall2 Qeq l m -> (qmean l == qmean m)%Q.
Proof.
  intros H. unfold qmean. assert (E : (fold_right Qplus 0 l == fold_right Qplus 0 m)%Q) by (induction H; cbn; [lra | rewrite H, IHForall2; lra]).
  rewrite E, (Forall2_length' _ _ _ H). reflexivity.
Qed.

Lemma history n lengths pattern h rs f : added (new_fitter lengths pattern) (h ++ [(Some rs, true)]) f ->
  results_fine n (results_of h ++ rs) -> Forall (fun p => p <> []) (f_pattern f) -> length (concat (f_pattern f)) <= n ->
  f_results f = results_of h ++ rs /\ NoDup (f_seeds f) /\ (forall s, In s (f_seeds f) <-> seeds_named (results_of h ++ rs) s) /\
  exists ty, type_of (results_of h ++ rs) ty /\
  forall i pat, nth_error (f_pattern f) i = Some pat ->
    exists ls, nth_error lengths i = Some ls /\ forall k, k < length ls ->
      (forall j seed, nth_error (f_seeds f) j = Some seed ->
        (0 <> shots_with always (recorded (results_of h ++ rs) (ty ++ len_seed k seed)))%Z /\
        exists v, raw_at f i j k = Some v /\ (v == fraction (results_of h ++ rs) (ty ++ len_seed k seed) (start_of (f_pattern f) i) (length pat))%Q) /\
      exists m, mean_at f i k = Some m /\
        (m == qmean (map (fun seed => fraction (results_of h ++ rs) (ty ++ len_seed k seed) (start_of (f_pattern f) i) (length pat)) (f_seeds f)))%Q.
Proof.
  intros Ha Hf Hp Hn. apply added_app in Ha as (g & Hg & (f1 & E & Ef)). cbn in Ef. subst f1.
  destruct (added_inv _ _ _ Hg) as (A & B & C & D & S1). destruct (add_data_inv _ _ _ _ E) as (A' & B' & C' & D' & S2 & Hc). cbn in A, B, C, D, S1.
  destruct Hc as [Hc Hm]; [discriminate | reflexivity|].
  assert (Hr : f_results f = results_of h ++ rs) by (rewrite A', A; reflexivity).
  assert (Hseeds : forall s, In s (f_seeds f) <-> seeds_named (results_of h ++ rs) s).
  { intros s. rewrite S2, S1. unfold seeds_named. split.
    - intros [[[]|(r & e & X & Y)]|(r & e & X & Y)]; exists r, e; (split; [apply in_or_app; auto | exact Y]).
    - intros (r & e & X & Y). apply in_app_or in X as [X|X]; [left; right | right]; exists r, e; auto. }
  split; [exact Hr|]. split; [apply D', D; constructor|]. split; [exact Hseeds|].
  destruct (calc_data_inv n f _ Hc) as (ty & Ht & L & R); try assumption; [rewrite Hr; exact Hf|]. rewrite Hr in *. exists ty. split; [exact Ht|].
  intros i pat Hi. destruct (nth_error_lt (f_raw f) i) as (rows & Erows); [rewrite L; apply nth_error_Some; congruence|]. destruct (R i pat rows Hi Erows) as [Rl Rr].
  assert (Hnil : f_seeds f <> []).
  { destruct Ht as (r & e & E1 & E2 & _). intros E0. destruct (add_seeds_inv r [] (fst (add_seeds [] r))) as (X & _).
    - assert (Hok : forall sd, exists sd', add_seeds sd r = (sd', None)).
      { assert (In r (results_of h ++ rs)) by (eapply nth_error_In, E1).
        assert (Hall : forall e, In e r -> exists s, seed_of (e_name e) = Ok s).
        { apply in_app_or in H as [H|H].
          - clear - Hg H. revert Hg. generalize (new_fitter lengths pattern). induction h as [|[new rerun] h IH]; intros f0 Hg; [destruct H|]. destruct Hg as (f1 & E & Hg). unfold results_of in H. cbn [flat_map fst] in H. apply in_app_or in H as [H|H]; [|eapply IH; eassumption].
            destruct new as [rs|]; [|destruct H]. unfold add_data in E. destruct (add_results f0 rs) as [f2 err] eqn:E2. destruct err; [discriminate|]. clear - H E2. revert f0 E2. induction rs as [|r0 rs IH]; intros f0 E2; [destruct H|].
            cbn [add_results] in E2. destruct (add_seeds (f_seeds (set_results f0 (f_results f0 ++ [r0]))) r0) as [sd err] eqn:E3. destruct err; [discriminate|]. destruct H as [<-|H]; [apply (add_seeds_inv _ _ _ E3) | eapply IH; eassumption].
          - unfold add_data in E. destruct (add_results g rs) as [f2 err] eqn:E3. destruct err; [discriminate|]. clear - H E3. revert g E3. induction rs as [|r0 rs IH]; intros f0 E2; [destruct H|].
            cbn [add_results] in E2. destruct (add_seeds (f_seeds (set_results f0 (f_results f0 ++ [r0]))) r0) as [sd err] eqn:E3. destruct err; [discriminate|]. destruct H as [<-|H]; [apply (add_seeds_inv _ _ _ E3) | eapply IH; eassumption]. }
        clear - Hall. induction r as [|e r IH]; intros sd; cbn [add_seeds]; [eauto|]. destruct (Hall e (or_introl eq_refl)) as (s & ->). apply IH. intros e' He'. apply Hall. right. exact He'. }
      destruct (Hok []) as (sd' & ->). reflexivity.
    - destruct (X e (nth_error_In _ _ E2)) as (s & Es). assert (In s (f_seeds f)) by (apply Hseeds; exists r, e; split; [eapply nth_error_In, E1 | split; [eapply nth_error_In, E2 | exact Es]]). rewrite E0 in H. destruct H. }
  destruct (f_seeds f) as [|seed0 seeds] eqn:Es; [contradiction|]. destruct rows as [|row0 rows0]; [cbn in Rl; lia|].
  destruct (Rr 0 seed0 row0 eq_refl eq_refl) as (ls & El & Elen & _). rewrite B', B in El. exists ls. split; [exact El|]. intros k Hk.
  assert (Ent : forall j seed, nth_error (seed0 :: seeds) j = Some seed -> exists row v, nth_error (row0 :: rows0) j = Some row /\ length row = length ls /\ nth_error row k = Some v /\
     (0 <> shots_with always (recorded (results_of h ++ rs) (ty ++ len_seed k seed)))%Z /\ (v == fraction (results_of h ++ rs) (ty ++ len_seed k seed) (start_of (f_pattern f) i) (length pat))%Q).
  { intros j seed Hj. destruct (nth_error_lt (row0 :: rows0) j) as (row & Erow); [rewrite Rl; apply nth_error_Some; congruence|]. destruct (Rr j seed row Hj Erow) as (ls' & El' & Elen' & X).
    rewrite B', B in El'. assert (ls' = ls) by congruence. subst ls'. destruct (nth_error_lt row k) as (v & Ev); [lia|]. exists row, v. repeat (split; [assumption|]). apply X, Ev. }
  split.
  - intros j seed Hj. destruct (Ent j seed Hj) as (row & v & E1 & E2 & E3 & E4 & E5). split; [exact E4|]. exists v. split; [|exact E5]. unfold raw_at. rewrite Erows, E1. exact E3.
  - unfold mean_at. rewrite Hm, nth_error_map, Erows. cbn [option_map]. unfold column_means. cbn [hd]. rewrite nth_error_map, Elen.
    rewrite nth_error_nth' with (d := 0) by (rewrite seq_length; exact Hk). rewrite seq_nth by exact Hk. cbn [option_map Nat.add]. eexists. split; [reflexivity|].
    apply qmean_eq. clear - Rl Ent. assert (X : forall j seed, nth_error (seed0 :: seeds) j = Some seed -> exists row, nth_error (row0 :: rows0) j = Some row /\ (nth k row 0 == fraction (results_of h ++ rs) (ty ++ len_seed k seed) (start_of (f_pattern f) i) (length pat))%Q).
    { intros j seed Hj. destruct (Ent j seed Hj) as (row & v & E1 & E2 & E3 & E4 & E5). exists row. split; [exact E1|]. rewrite (nth_error_nth _ _ _ E3). exact E5. }
    revert Rl X. generalize (row0 :: rows0), (seed0 :: seeds). clear. intros rows sds. revert rows. induction sds as [|s sds IH]; intros [|row rows] L X; cbn in L; try lia; [constructor|]. cbn [map]. constructor.
    + destruct (X 0 s eq_refl) as (row' & E & H). cbn in E. injection E as <-. exact H.
    + apply IH; [lia|]. intros j seed Hj. apply (X (S j) seed Hj).
Qed.

(** ** Results given twice *)
Lemma recorded_app rs rs' name : recorded (rs ++ rs') name = recorded rs name ++ recorded rs' name.
Proof. unfold recorded. apply flat_map_app. Qed.
Lemma shots_app P a b : shots_with P (a ++ b) = (shots_with P a + shots_with P b)%Z.
Proof. unfold shots_with. rewrite map_app. apply zsum_app. Qed.
Lemma fraction_twice rs name start width : (fraction (rs ++ rs) name start width == fraction rs name start width)%Q.
Proof.
  unfold fraction. rewrite recorded_app, !shots_app. set (a := shots_with (ground start width) _). set (b := shots_with always _). rewrite !inject_Z_plus.
  destruct (Z.eq_dec b 0) as [->|Hb].
  - change (inject_Z 0) with 0%Q. unfold Qdiv. assert (E : (0 + 0 == 0)%Q) by lra. rewrite E. unfold Qinv at 1 2. cbn. unfold Qeq. cbn. lia.
  - field. unfold Qeq. cbn. lia.
Qed.
Lemma results_fine_twice n rs : results_fine n rs -> results_fine n (rs ++ rs).
Proof. intros H r Hr. apply H. apply in_app_or in Hr. tauto. Qed.
Lemma wrapped_inv rs1 rs2 lengths pattern f1 f2 : wrapped_fitter (Some rs1) (Some rs2) lengths (Some pattern) = (Some (f1, f2), None) ->
  added (new_fitter lengths (Some pattern)) ([(Some rs1, true)] ++ [(Some rs1, true)]) f1 /\ added (new_fitter lengths (Some pattern)) ([(Some rs2, true)] ++ [(Some rs2, true)]) f2.
Proof.
  unfold wrapped_fitter, then_, rb_fitter. destruct (add_data (new_fitter lengths (Some pattern)) (Some rs1) true) as [a e1] eqn:E1. destruct (add_data (new_fitter lengths (Some pattern)) (Some rs2) true) as [b e2] eqn:E2. cbn [fst snd].
  destruct e1; [discriminate|]. destruct e2; [discriminate|]. destruct (add_data a (Some rs1) true) as [a' e3] eqn:E3. destruct (add_data b (Some rs2) true) as [b' e4] eqn:E4. cbn [fst snd]. destruct e3; [discriminate|]. destruct e4; [discriminate|]. intros H. injection H as <- <-.
  cbn [app added]. split; [exists a | exists b]; (split; [assumption|]); [exists a' | exists b']; auto.
Qed.
Lemma wrapped_entry n rs lengths pattern f : added (new_fitter lengths (Some pattern)) ([(Some rs, true)] ++ [(Some rs, true)]) f ->
  results_fine n rs -> Forall (fun p => p <> []) pattern -> length (concat pattern) <= n ->
  f_pattern f = pattern /\ exists ty, type_of rs ty /\ forall i pat, nth_error pattern i = Some pat ->
    exists ls, nth_error lengths i = Some ls /\ forall k j seed, k < length ls -> nth_error (f_seeds f) j = Some seed ->
      exists v, raw_at f i j k = Some v /\ (v == fraction rs (ty ++ len_seed k seed) (start_of pattern i) (length pat))%Q.
Proof.
  intros Ha Hf Hp Hn. destruct (added_inv _ _ _ Ha) as (_ & _ & Ep & _). cbn [new_fitter f_pattern] in Ep. assert (Er : results_of [(Some rs, true)] = rs) by (unfold results_of; cbn; apply app_nil_r).
  destruct (history n lengths (Some pattern) _ rs f Ha) as (_ & _ & _ & ty & Ht & R); rewrite ?Ep, ?Er; try assumption; [apply results_fine_twice, Hf|]. rewrite ?Er in *. split; [reflexivity || exact Ep|]. exists ty. split.
  - destruct Ht as (r & e & E1 & E2 & E3). exists r, e. split; [|auto]. destruct rs; [discriminate|]. exact E1.
  - intros i pat Hi. rewrite Ep in R. destruct (R i pat Hi) as (ls & El & X). exists ls. split; [exact El|]. intros k j seed Hk Hj. destruct (X k Hk) as [Y _]. destruct (Y j seed Hj) as (_ & v & Ev & Q). exists v. split; [exact Ev|]. rewrite Q. apply fraction_twice.
Qed.

(** ** When the data exist *)
Lemma mapM_def {A B} (f : A -> result B) l : (forall a, In a l -> exists b, f a = Ok b) -> exists bs, mapM f l = Ok bs.
Proof. intros H. destruct (mapM_total f (fun _ _ => True) l) as (bs & E & _); [intros a Ha; destruct (H a Ha) as (b & Eb); exists b; auto | eauto]. Qed.
Lemma entry_defined n rs d name start width : results_fine n rs -> 0 < width -> start + width <= n ->
  dget d name = Some (build_counts (count_list rs name)) -> shots_with always (recorded rs name) <> 0%Z -> exists v, raw_entry d name start width = Ok v.
Proof.
  intros Hf Hw Hs Hd Ht. unfold raw_entry, dget_e. rewrite Hd. cbn [bind]. rewrite (count_list_recorded n) by exact Hf. set (c := build_counts (recorded rs name)) in *.
  assert (T : zsum (dvals c) = shots_with always (recorded rs name)) by (rewrite <- wsum_build; reflexivity).
  assert (Hne : c <> []) by (intros E0; apply Ht; rewrite <- T, E0; reflexivity).
  assert (Hv : valid_counts n c) by (apply merged_valid; [intros c0 Hc0; eapply recorded_fine; eassumption | exact Hne]).
  destruct (marginal_counts_exact_lemma n c (seq start width) (seq start width) false Hv) as (r & Er & _).
  - split; [apply seq_sorted | apply Permutation_refl].
  - intros q Hq. apply in_seq in Hq. lia.
  - destruct width; [lia | discriminate].
  - rewrite Er. cbn [bind]. unfold ratio. rewrite T. destruct (Z.eqb_spec (shots_with always (recorded rs name)) 0); [contradiction | eauto].
Qed.
Lemma circ_counts_total rs names name : forall (d : dict pystr counts), In name names \/ dget d name = Some (build_counts (count_list rs name)) ->
  dget (fold_left (fun d name => dset d name (build_counts (count_list rs name))) names d) name = Some (build_counts (count_list rs name)).
Proof.
  induction names as [|x names IH]; intros d H; cbn [fold_left]; [destruct H as [[]|H]; exact H|]. apply IH. destruct H as [[->|H]|H].
  - right. rewrite dget_dset, eqb_refl. reflexivity.
  - left. exact H.
  - right. rewrite dget_dset. destruct (eqb_spec name x) as [->|]; [reflexivity | exact H].
Qed.
Lemma calc_defined n f ty l0 : results_fine n (f_results f) -> type_of (f_results f) ty -> nth_error (f_lengths f) 0 = Some l0 ->
  Forall (fun p => p <> []) (f_pattern f) -> length (concat (f_pattern f)) <= n ->
  (forall i, i < length (f_pattern f) -> exists ls, nth_error (f_lengths f) i = Some ls /\ length ls <= length l0) ->
  (forall seed k, In seed (f_seeds f) -> k < length l0 -> shots_with always (recorded (f_results f) (ty ++ len_seed k seed)) <> 0%Z) ->
  exists raw, calc_data f = Ok raw.
Proof.
  intros Hf (r & e & E1 & E2 & E3) El Hp Hn Hl Hs. unfold calc_data. rewrite (index_ok _ _ _ E1). cbn [bind]. rewrite (index_ok _ _ _ E2). cbn [bind]. cbn zeta. rewrite <- E3, (index_ok _ _ _ El). cbn [bind].
  set (names := flat_map _ _). set (d := fold_left (fun (d : dict pystr counts) (name : pystr) => dset d name (build_counts (count_list (f_results f) name))) names []).
  assert (Hd : forall seed k, In seed (f_seeds f) -> k < length l0 -> dget d (ty ++ len_seed k seed) = Some (build_counts (count_list (f_results f) (ty ++ len_seed k seed)))).
  { intros seed k H1 H2. apply circ_counts_total. left. apply in_flat_map. exists seed. split; [exact H1|]. apply in_map_iff. exists k. split; [reflexivity | apply in_seq; lia]. }
  assert (G : forall pats ind start, Forall (fun p => p <> []) pats -> start + length (concat pats) <= n ->
     (forall i, i < length pats -> exists ls, nth_error (f_lengths f) (ind + i) = Some ls /\ length ls <= length l0) ->
     exists raw, raw_patterns d ty (f_lengths f) (f_seeds f) pats ind start = Ok raw).
  { induction pats as [|p pats IH]; intros ind start Hp' Hn' Hl'; cbn [raw_patterns]; [eauto|]. apply Forall_cons_iff in Hp' as [H1 H2]. cbn [concat] in Hn'. rewrite app_length in Hn'.
    destruct (Hl' 0) as (ls & E & Hle); [cbn; lia|]. rewrite Nat.add_0_r in E. rewrite (index_ok _ _ _ E).
    destruct (mapM_def (fun seed => do ls0 <- Ok ls; mapM (fun k => raw_entry d (ty ++ len_seed k seed) start (length p)) (seq 0 (length ls0))) (f_seeds f)) as (here & ->).
    - intros seed Hseed. cbn [bind]. apply mapM_def. intros k Hk. apply in_seq in Hk. apply (entry_defined n (f_results f)); auto; [destruct p; [contradiction | cbn; lia] | lia | apply Hd; auto; lia | apply Hs; auto; lia].
    - cbn [bind]. destruct (IH (S ind) (start + length p)) as (more & ->); auto; [lia|intros i Hi; destruct (Hl' (S i)) as (ls' & E' & Hle'); [cbn; lia|]; exists ls'; split; [rewrite <- E'; f_equal; lia | exact Hle']|]. cbn [bind]. eauto. }
  apply G; auto.
Qed.
