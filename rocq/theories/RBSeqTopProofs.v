From Coq Require Import QArith.
From Verif Require Import Base LinAlg QSem PyStr DihedralModel ResultFacts RBSeqModel RBSeqSpec RBSeqProofs RBSeqActProofs RBSeqRunProofs.
Open Scope nat_scope.

(** ** Patterns *)
Lemma occurrences_filter q l : occurrences q l = count_occ Nat.eq_dec l q.
Proof.
  induction l as [|x l IH]; [reflexivity|]. unfold occurrences in *. cbn [filter count_occ].
  destruct (Nat.eqb_spec q x) as [->|Hn]; cbn [length].
  - destruct (Nat.eq_dec x x); [f_equal; exact IH | congruence].
  - destruct (Nat.eq_dec x q); [congruence | exact IH].
Qed.
Lemma has_duplicate_spec l : has_duplicate l = false <-> NoDup l.
Proof.
  unfold has_duplicate. rewrite (NoDup_count_occ Nat.eq_dec). rewrite <- not_true_iff_false, existsb_exists. split.
  - intros H x. rewrite <- occurrences_filter. destruct (Nat.le_gt_cases (occurrences x l) 1) as [|Hgt]; [assumption|exfalso].
    apply H. exists x. split; [|apply Nat.ltb_lt; exact Hgt].
    destruct (in_dec Nat.eq_dec x l) as [|Hn]; [assumption|]. exfalso. rewrite occurrences_filter in Hgt.
    apply (count_occ_not_In Nat.eq_dec) in Hn. lia.
  - intros H [x [Hx Hl]]. apply Nat.ltb_lt in Hl. rewrite occurrences_filter in Hl. specialize (H x). lia.
Qed.
Lemma fold_max_spec l : l <> [] -> is_max (fold_right Nat.max 0 l) l.
Proof.
  induction l as [|x l IH]; [congruence|]. intros _. cbn [fold_right]. destruct l as [|y l].
  - cbn. rewrite Nat.max_0_r. split; [left; reflexivity|]. intros z [<-|[]]. lia.
  - destruct IH as [Hi Hm]; [discriminate|]. split.
    + destruct (Nat.max_spec x (fold_right Nat.max 0 (y :: l))) as [[_ ->]|[_ ->]]; [right; exact Hi | left; reflexivity].
    + intros z [<-|Hz]; [lia|]. specialize (Hm z Hz). lia.
Qed.
Lemma is_max_unique l m m' : is_max m l -> is_max m' l -> m = m'.
Proof. intros [H H'] [K K']. apply Nat.le_antisymm; auto. Qed.

Lemma distinct_one l : length (distinct l) <= 1 <-> forall x y, In x l -> In y l -> x = y.
Proof.
  unfold distinct. split.
  - intros H x y Hx Hy. apply (nodup_In Nat.eq_dec) in Hx, Hy. destruct (nodup Nat.eq_dec l) as [|a [|b m]]; cbn in *; [tauto| |lia].
    destruct Hx as [<-|[]], Hy as [<-|[]]. reflexivity.
  - intros H. pose proof (NoDup_nodup Nat.eq_dec l) as Hn.
    assert (H' : forall x y, In x (nodup Nat.eq_dec l) -> In y (nodup Nat.eq_dec l) -> x = y) by (intros x y Hx Hy; apply H; apply (nodup_In Nat.eq_dec); assumption).
    destruct (nodup Nat.eq_dec l) as [|a [|b m]]; cbn; try lia. exfalso. inversion Hn as [|? ? Ha _]. apply Ha. left. apply H'; cbn; auto.
Qed.

Lemma check_pattern_inv pattern pur inter r : check_pattern pattern pur inter = Ok r ->
  NoDup (concat pattern) /\ (pur = true -> forall a b, In a pattern -> In b pattern -> length a = length b) /\
  (forall dims, inter = Some dims -> dims = map (@length nat) pattern) /\ concat pattern <> [] /\
  fst (fst r) = concat pattern /\ is_max (snd (fst r)) (concat pattern) /\ is_max (snd r) (map (@length nat) pattern).
Proof.
  unfold check_pattern. intros H. destruct (has_duplicate (concat pattern)) eqn:Ed; [discriminate|].
  destruct (pur && (1 <? length (distinct (map (@length nat) pattern)))) eqn:Ep; [discriminate|].
  destruct (match inter with Some dims => _ | None => _ end) eqn:Ei; [discriminate|].
  inv_bind H. inv_bind H. injection H as <-. cbn [fst snd].
  split; [apply has_duplicate_spec, Ed|]. split.
  { intros -> a b Ha Hb. cbn [andb] in Ep. apply Nat.ltb_ge in Ep.
    apply (proj1 (distinct_one _) Ep); apply in_map; assumption. }
  split.
  { intros dims ->. apply negb_false_iff in Ei. destruct (eqb_spec (map (@length nat) pattern) dims); [auto | discriminate]. }
  destruct (concat pattern) as [|x l] eqn:Ec; [discriminate|]. split; [discriminate|]. split; [reflexivity|].
  split.
  - unfold np_max in E. injection E as <-. apply (fold_max_spec (x :: l)). discriminate.
  - unfold np_max in E0. destruct (map (@length nat) pattern) as [|d ds] eqn:Em; [discriminate|]. injection E0 as <-. apply (fold_max_spec (d :: ds)). discriminate.
Qed.

Lemma check_pattern_total pattern pur inter : NoDup (concat pattern) -> concat pattern <> [] ->
  (pur = true -> forall a b, In a pattern -> In b pattern -> length a = length b) ->
  (forall dims, inter = Some dims -> dims = map (@length nat) pattern) -> exists r, check_pattern pattern pur inter = Ok r.
Proof.
  intros Hn Hc Hp Hi. unfold check_pattern. apply has_duplicate_spec in Hn. rewrite Hn.
  replace (pur && (1 <? length (distinct (map (@length nat) pattern)))) with false.
  2:{ symmetry. destruct pur; [|reflexivity]. cbn [andb]. apply Nat.ltb_ge. apply distinct_one. intros x y Hx Hy.
      apply in_map_iff in Hx, Hy. destruct Hx as [a [<- Ha]], Hy as [b [<- Hb]]. apply Hp; auto. }
  replace (match inter with Some dims => negb (eqb (map (@length nat) pattern) dims) | None => false end) with false.
  2:{ destruct inter as [dims|]; [|reflexivity]. rewrite (Hi dims eq_refl). destruct (eqb_spec (map (@length nat) pattern) (map (@length nat) pattern)); [reflexivity | congruence]. }
  assert (exists m, np_max (concat pattern) = Ok m) as [m ->] by (destruct (concat pattern); [congruence | cbn; eauto]).
  assert (exists m, np_max (map (@length nat) pattern) = Ok m) as [d ->] by (destruct pattern; [cbn in Hc; congruence | cbn; eauto]).
  cbn. eauto.
Qed.

(** ** The whole function *)
Lemma turns_schedule pattern mult : schedule pattern mult = turns pattern mult.
Proof. reflexivity. Qed.

Lemma nth_error_map' {A B} (f : A -> B) l i b : nth_error (map f l) i = Some b -> exists a, nth_error l i = Some a /\ b = f a.
Proof. rewrite nth_error_map. destruct (nth_error l i); cbn; intros H; [injection H as <-; eauto | discriminate]. Qed.

Lemma seq_inv grp a out : randomized_benchmarking_seq grp a = Ok out ->
  exists m d mult t inter os, check_pattern (default_pattern (a_pat _ a)) (a_pur _ a) (option_map (map (ielem_qubits grp)) (a_inter _ a)) = Ok (concat (default_pattern (a_pat _ a)), m, d) /\
    handle_length_multiplier (a_mult _ a) (length (default_pattern (a_pat _ a))) (a_pur _ a) = Ok mult /\
    rb_group_of (a_group _ a) = Ok t /\ handle_interleaved_elem grp t (a_inter _ a) = Ok inter /\
    all_seeds grp t (default_pattern (a_pat _ a)) (concat (default_pattern (a_pat _ a))) d mult (a_align _ a) inter (default_lv (a_lv _ a)) (a_pur _ a) (a_off _ a) (a_rs _ a) (a_nseeds _ a) = Ok os /\
    xdata_of out = calc_xdata (default_lv (a_lv _ a)) mult /\
    forall k css, returned out k = Some css -> exists f, css = map (map f) os /\
      forall o, (a_pur _ a = true -> length (o_pur o) = 3 ^ d) -> pick grp t inter (a_pur _ a) k o = Some (f o).
Proof.
  unfold randomized_benchmarking_seq. intros H. inv_bind H. destruct v as [[q m] d]. inv_bind H. inv_bind H. inv_bind H. inv_bind H.
  rename v into mult. rename v0 into t. rename v1 into inter. rename v2 into os.
  pose proof (check_pattern_inv _ _ _ _ E) as (_ & _ & _ & _ & Hq & _). cbn in Hq. subst q.
  exists m, d, mult, t, inter, os. split; [exact E|]. split; [exact E0|]. split; [exact E1|]. split; [exact E2|]. split; [exact E3|].
  destruct (a_pur grp a) eqn:Ep.
  - injection H as <-. split; [reflexivity|]. intros k css Hk. destruct k as [| | | |x]; cbn [returned] in Hk; try discriminate.
    destruct (Nat.ltb_spec x (3 ^ d)) as [Hx|]; [|discriminate]. injection Hk as <-.
    exists (fun o => nth x (o_pur o) {| cname := []; cbody := [] |}). split.
    + unfold select_purity. rewrite map_map. apply map_ext. intros per. 
      erewrite nth_indep; [rewrite (map_nth (fun d0 => map (fun o => nth d0 (o_pur o) {| cname := []; cbody := [] |}) per)) with (d := 0) | rewrite map_length, seq_length; exact Hx].
      rewrite seq_nth by exact Hx. reflexivity.
    + intros o Ho. cbn. apply nth_error_nth'. rewrite Ho; auto.
  - destruct inter as [ies|], t; injection H as <-; (split; [reflexivity|]); intros k css Hk; destruct k; cbn [returned] in Hk; try discriminate; injection Hk as <-; eexists; (split; [reflexivity|]); reflexivity.
Qed.

Lemma run_explained grp a out : randomized_benchmarking_seq grp a = Ok out ->
  exists t mult inter logs,
    rb_group_of (a_group _ a) = Ok t /\
    handle_length_multiplier (a_mult _ a) (length (default_pattern (a_pat _ a))) (a_pur _ a) = Ok mult /\
    handle_interleaved_elem grp t (a_inter _ a) = Ok inter /\
    xdata_of out = calc_xdata (default_lv (a_lv _ a)) mult /\
    explained grp a out t mult inter logs /\ chain_all grp t 0 (a_rs _ a) logs.
Proof.
  intros H. destruct (seq_inv _ _ _ H) as (m & d & mult & t & inter & os & Ec & Em & Et & Ei & Ea & Ex & Hr).
  pose proof (check_pattern_inv _ _ _ _ Ec) as (Hn & Hp & Hi & Hne & _ & _ & Hmax). cbn [snd] in Hmax.
  assert (Hdim : a_pur _ a = true -> 0 < d /\ length (qubits_of (default_pattern (a_pat _ a)) 0) = d).
  { intros Ep. specialize (Hp Ep). destruct Hmax as [Hin Hle]. destruct (default_pattern (a_pat _ a)) as [|pat0 pats] eqn:Epat; [destruct Hin|].
    assert (length pat0 = d) as Hd. { apply in_map_iff in Hin. destruct Hin as [pat [<- Hpat]]. apply Hp; [left; reflexivity | exact Hpat]. }
    split; [|exact Hd]. destruct d as [|d']; [exfalso|lia]. apply Hne. clear -Hle. induction (pat0 :: pats) as [|x l IH]; [reflexivity|].
    cbn in *. assert (length x <= 0) by (apply Hle; left; reflexivity). destruct x; [|cbn in *; lia]. cbn. apply IH. intros y Hy. apply Hle. right; exact Hy. }
  apply all_seeds_inv in Ea. destruct Ea as (logs & L1 & L2 & L3 & L4 & L5).
  exists t, mult, inter, logs. split; [exact Et|]. split; [exact Em|]. split; [exact Ei|]. split; [exact Ex|]. split; [|exact L3].
  assert (Hfacts : forall s steps, nth_error logs s = Some steps -> exists o, nth_error os s = Some o /\
      seed_facts grp t (default_pattern (a_pat _ a)) d mult (a_align _ a) inter (default_lv (a_lv _ a)) (a_pur _ a) (a_off _ a) s o steps).
  { intros s steps Hs. pose proof (nth_error_lt _ _ _ Hs). destruct (nth_error os s) as [o|] eqn:Eo; [|apply nth_error_None in Eo; lia].
    exists o. split; auto. }
  constructor.
  - exact L1.
  - intros s steps Hs. destruct (Hfacts s steps Hs) as [o [_ Hf]]. apply (sf_last _ _ _ _ _ _ _ _ _ _ _ _ _ Hf).
  - apply Forall_forall. intros ev Hev. apply in_concat in Hev. destruct Hev as [evs [He Hev]]. apply in_concat in He. destruct He as [steps [Hst He]].
    apply In_nth_error in Hst. destruct Hst as [s Hst]. destruct (Hfacts s steps Hst) as [o [_ Hf]].
    pose proof (sf_drawn _ _ _ _ _ _ _ _ _ _ _ _ _ Hf) as Hd. rewrite Forall_forall in Hd. apply Hd. apply in_concat. eauto.
  - exact L4.
  - apply Forall_forall. intros evs Hev. apply in_concat in Hev. destruct Hev as [steps [Hst He]].
    apply In_nth_error in Hst. destruct Hst as [s Hst]. destruct (Hfacts s steps Hst) as [o [_ Hf]].
    pose proof (sf_sched _ _ _ _ _ _ _ _ _ _ _ _ _ Hf) as Hd. rewrite Forall_forall in Hd. apply Hd, He.
  - intros k css Hk. destruct (Hr k css Hk) as [f [-> Hf]]. split; [rewrite map_length; exact L2|].
    intros s cs Hs. apply nth_error_map' in Hs. destruct Hs as [o [Ho ->]]. pose proof (nth_error_lt _ _ _ Ho).
    destruct (nth_error logs s) as [steps|] eqn:El; [|apply nth_error_None in El; lia]. exists steps. split; [reflexivity|].
    pose proof (L5 _ _ _ Ho El) as SF. rewrite map_length. split; [apply SF|]. split; [apply SF|].
    intros i c Hc. apply nth_error_map' in Hc. destruct Hc as [oi [Hoi ->]].
    destruct (sf_outs _ _ _ _ _ _ _ _ _ _ _ _ _ SF i oi Hoi) as (r & st & e0 & rs & cnt & A1 & A2 & A3 & A4 & A5).
    exists r. split; [exact A1|]. split; [exact A2|].
    assert (Hlen : length (firstn r steps) = r) by (apply firstn_length_le; exact A2).
    rewrite <- Hlen in A4 at 1.
    destruct (emit_inv grp t _ d mult (a_align _ a) inter (a_pur _ a) (a_off _ a) Hdim s i st e0 rs cnt _ oi A3 A4 A5) as [P1 P2].
    destruct (P2 k (f oi) (Hf oi P1)) as [Q1 Q2]. split; [|exact Q2].
    rewrite Q1. destruct k; try reflexivity. unfold pick in Hf. 
    destruct (a_pur grp a) eqn:Ep; [|specialize (Hf oi P1); discriminate]. destruct (Hdim eq_refl) as [_ ->]. reflexivity.
  - exact Hdim.
Qed.

(** ** Counting draws *)
Lemma count_turns pattern mult p : p < length pattern -> 
  count_occ Nat.eq_dec (turns pattern mult) p = match nth_error mult p with Some (NInt z) => Z.to_nat z | _ => 0 end.
Proof.
  intros Hp. unfold turns. set (f := fun p => match nth_error mult p with Some (NInt z) => Z.to_nat z | _ => 0 end).
  change (match nth_error mult p with Some (NInt z) => Z.to_nat z | _ => 0 end) with (f p).
  change (fun p0 => repeat p0 (match nth_error mult p0 with Some (NInt z) => Z.to_nat z | _ => 0 end)) with (fun p0 => repeat p0 (f p0)).
  assert (H : forall l, NoDup l -> count_occ Nat.eq_dec (flat_map (fun p0 => repeat p0 (f p0)) l) p = if in_dec Nat.eq_dec p l then f p else 0).
  { induction l as [|q l IH]; intros Hn; [reflexivity|]. inversion Hn as [|? ? Hq Hl]; subst. cbn [flat_map].
    rewrite count_occ_app, IH by exact Hl. destruct (Nat.eq_dec q p) as [->|Hne].
    - rewrite count_occ_repeat_eq by reflexivity. destruct (in_dec Nat.eq_dec p l); [contradiction|].
      destruct (in_dec Nat.eq_dec p (p :: l)) as [|Hx]; [lia | exfalso; apply Hx; left; reflexivity].
    - rewrite count_occ_repeat_neq by congruence. destruct (in_dec Nat.eq_dec p l) as [Hi|Hi], (in_dec Nat.eq_dec p (q :: l)) as [Hi'|Hi']; cbn in *; try lia; exfalso; tauto. }
  rewrite H by apply seq_NoDup. destruct (in_dec Nat.eq_dec p (seq 0 (length pattern))) as [|Hx]; [reflexivity|]. exfalso. apply Hx, in_seq. lia.
Qed.

Lemma drawn_for_turns G pattern mult p (steps : list (list (event G))) : Forall (fun evs => map ev_p evs = turns pattern mult) steps -> p < length pattern ->
  drawn_for G p steps = length steps * match nth_error mult p with Some (NInt z) => Z.to_nat z | _ => 0 end.
Proof.
  intros H Hp. unfold drawn_for. induction H as [|evs steps He H IH]; [reflexivity|]. cbn [concat length]. rewrite filter_app, app_length, IH, Nat.mul_succ_l, Nat.add_comm.
  f_equal. rewrite <- (count_turns pattern mult p Hp), <- He. clear. induction evs as [|ev evs IH]; [reflexivity|]. cbn [filter map count_occ].
  destruct (Nat.eqb_spec (ev_p ev) p) as [E|E]; destruct (Nat.eq_dec (ev_p ev) p); try congruence; cbn [length]; rewrite IH; reflexivity.
Qed.

Lemma drawn_count G pattern mult (logs : list (list (list (event G)))) s steps r p : Forall (fun evs => map ev_p evs = turns pattern mult) (concat logs) ->
  nth_error logs s = Some steps -> r <= length steps -> p < length pattern ->
  drawn_for G p (firstn r steps) = r * match nth_error mult p with Some (NInt z) => Z.to_nat z | _ => 0 end.
Proof.
  intros H Hs Hr Hp. rewrite (drawn_for_turns _ pattern mult).
  - rewrite firstn_length_le by exact Hr. reflexivity.
  - rewrite Forall_forall in H. apply Forall_forall. intros evs He. apply H. apply in_concat. exists steps. split; [eapply nth_error_In; eauto|].
    rewrite <- (firstn_skipn r steps). apply in_app_iff. auto.
  - exact Hp.
Qed.

Lemma xdata_entry lv mult p m i r : nth_error mult p = Some m -> nth_error lv i = Some r ->
  exists row, nth_error (calc_xdata lv mult) p = Some row /\ length row = length lv /\ nth_error row i = Some (num_mul (Z.of_nat r) m).
Proof.
  intros Hm Hr. unfold calc_xdata. eexists. split; [apply map_nth_error; exact Hm|]. split; [apply map_length|].
  apply (map_nth_error (fun l => num_mul (Z.of_nat l) m)). exact Hr.
Qed.

(** ** Names *)
Definition prefix_of (t : group_type) (dim : nat) (k : kind) : pystr :=
  (match t with TClifford => str "rb" | TDihedral => str "rb_cnotdihedral" end) ++
  match k, t with
   | KStd, TClifford => []
   | KStd, TDihedral => str "_Z"
   | KInt, TClifford => str "_interleaved"
   | KInt, TDihedral => str "_interleaved_Z"
   | KX, _ => str "_X"
   | KIntX, _ => str "_interleaved_X"
   | KPur d, _ => str "_purity_" ++ letters dim d
   end.
Lemma expected_name_prefix t dim k i s : expected_name t dim k i s = prefix_of t dim k ++ str "_length" ++ str "_" ++ dec i ++ str "_seed_" ++ zdec s.
Proof. unfold expected_name, prefix_of. rewrite <- app_assoc. reflexivity. Qed.

Lemma letters_zxy dim d c : In c (letters dim d) -> c = "Z"%char \/ c = "X"%char \/ c = "Y"%char.
Proof. unfold letters. intros H. apply in_map_iff in H. destruct H as [k [<- _]]. destruct (digit d k) as [|[|n]]; cbn; auto. Qed.

Lemma prefix_nopair t dim k : nopair "_" "l" (prefix_of t dim k) = true.
Proof.
  destruct k as [| | | |d]; try (destruct t; reflexivity). unfold prefix_of. rewrite app_assoc. apply nopair_app.
  - destruct t; reflexivity.
  - apply nopair_no. intros H. apply letters_zxy in H. destruct H as [H|[H|H]]; discriminate.
  - intros c H. apply letters_zxy in H. destruct H as [->|[->| ->]]; discriminate.
Qed.
Lemma name_before t dim k i s : before (str "_length") (expected_name t dim k i s) = prefix_of t dim k.
Proof. rewrite expected_name_prefix. apply (before_sep "_"%char "l"%char (str "ength")); [discriminate | apply prefix_nopair]. Qed.
Lemma name_after t dim k i s : exists q, expected_name t dim k i s = q ++ "_"%char :: zdec s.
Proof.
  rewrite expected_name_prefix. exists (prefix_of t dim k ++ str "_length" ++ str "_" ++ dec i ++ str "_seed").
  rewrite <- !app_assoc. reflexivity.
Qed.
Lemma name_seed t dim k i s : undec (last (split "_" (expected_name t dim k i s)) []) = Ok s.
Proof.
  destruct (name_after t dim k i s) as [q ->]. rewrite last_split; [apply undec_zdec|]. apply zdec_no; [reflexivity | discriminate].
Qed.

Lemma digits_inj dim : forall d d', d < 3 ^ dim -> d' < 3 ^ dim -> (forall k, k < dim -> digit d k = digit d' k) -> d = d'.
Proof.
  induction dim as [|dim IH]; intros d d' H H' E; cbn [Nat.pow] in *; [lia|].
  assert (d / 3 = d' / 3) as Hq.
  { apply IH; [apply Nat.div_lt_upper_bound; lia | apply Nat.div_lt_upper_bound; lia|]. intros k Hk. rewrite <- !digit_S. apply E. lia. }
  pose proof (E 0 ltac:(lia)) as E0. rewrite !digit_0 in E0.
  rewrite (Nat.div_mod d 3), (Nat.div_mod d' 3) by lia. rewrite Hq, E0. reflexivity.
Qed.
Lemma letter_inj a b : a < 3 -> b < 3 -> letter a = letter b -> a = b.
Proof. intros Ha Hb. destruct a as [|[|[|a]]]; [| | |lia]; destruct b as [|[|[|b]]]; try lia; cbn; intros H; try reflexivity; discriminate. Qed.
Lemma letters_inj dim d d' : d < 3 ^ dim -> d' < 3 ^ dim -> letters dim d = letters dim d' -> d = d'.
Proof.
  intros H H' E. apply (digits_inj dim); auto. intros k Hk. apply letter_inj; try apply digit_lt.
  assert (forall x, nth k (letters dim x) "Z"%char = letter (digit x k)) as Hn.
  { intros x. unfold letters. erewrite nth_indep; [rewrite (map_nth (fun k => letter (digit x k))) with (d := 0) | rewrite map_length, seq_length; exact Hk]. rewrite seq_nth by exact Hk. reflexivity. }
  rewrite <- !Hn, E. reflexivity.
Qed.

Definition kind_ok (dim : nat) (k : kind) : Prop := match k with KPur d => d < 3 ^ dim | _ => True end.
Lemma prefix_inj t dim k k' : kind_ok dim k -> kind_ok dim k' -> prefix_of t dim k = prefix_of t dim k' -> k = k'.
Proof.
  intros H H' E. unfold prefix_of in E. apply app_inv_head in E.
  destruct k as [| | | |d], k' as [| | | |d']; try reflexivity; try (destruct t; discriminate).
  destruct t; apply app_inv_head in E; f_equal; apply (letters_inj dim); assumption.
Qed.
Lemma name_inj t dim k i s k' i' s' : kind_ok dim k -> kind_ok dim k' -> expected_name t dim k i s = expected_name t dim k' i' s' -> k = k' /\ i = i' /\ s = s'.
Proof.
  intros H H' E. pose proof (f_equal (before (str "_length")) E) as E1. rewrite !name_before in E1. apply (prefix_inj t dim _ _ H H') in E1. subst k'.
  rewrite !expected_name_prefix in E. do 3 apply app_inv_head in E.
  change (str "_seed_") with ("_"%char :: str "seed_") in E. cbn [app] in E.
  apply sep_inj in E; try (apply dec_not_digit; reflexivity). destruct E as [E1 E2].
  split; [reflexivity|]. split; [apply dec_inj, E1|]. injection E2 as E2. apply zdec_inj, E2.
Qed.
