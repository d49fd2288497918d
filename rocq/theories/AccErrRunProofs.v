(** Runs whose traps are all hit by errors are rarely accepted. *)
From Coq Require Import QArith.
From Verif Require Import Base LinAlg ResultFacts QSem CountsModel DihedralModel RBSeqModel RBSeqSpec RBSeqActProofs StdGates AccModel AccSpec AccFitSpec AccLayerProofs AccQotpProofs AccProbProofs AccTrapProofs AccFitProofs
  AccErrSpec AccErrProofs AccErrTrapProofs AccErrShapeProofs AccErrNoisyProofs AccErrMainProofs.
Open Scope nat_scope.

(** ** Counting products *)
Lemma count_split b : forall a (P Q : bits -> bool), count (fun bs => P (firstn a bs) && Q (skipn a bs)) (cube (a + b)) = count P (cube a) * count Q (cube b).
Proof.
  induction a as [|a IH]; intros P Q.
  - cbn [plus cube firstn skipn]. unfold count. cbn [filter length]. destruct (P []); cbn [length andb]; [rewrite Nat.mul_1_l; reflexivity|]. induction (cube b) as [|x l IHl]; [reflexivity|exact IHl].
  - cbn [plus cube]. rewrite !count_app, !count_map. cbn [firstn skipn]. rewrite (IH (fun l => P (false :: l)) Q), (IH (fun l => P (true :: l)) Q). lia.
Qed.
Lemma count_true d : count (fun _ => true) (cube d) = 2 ^ d.
Proof. unfold count. rewrite <- cube_len. induction (cube d) as [|x l IH]; [reflexivity|]. cbn. rewrite IH. reflexivity. Qed.
Lemma count_skip a b Q : count (fun bs => Q (skipn a bs)) (cube (a + b)) = 2 ^ a * count Q (cube b).
Proof. rewrite <- count_true. rewrite <- (count_split b a (fun _ => true) Q). reflexivity. Qed.
Lemma count_not {A} (P : A -> bool) l : count P l + count (fun a => negb (P a)) l = length l.
Proof. unfold count. induction l as [|a l IH]; [reflexivity|]. cbn. destruct (P a); cbn; lia. Qed.

Lemma count_or {A} (P Q : A -> bool) l : (forall a, In a l -> P a = true \/ Q a = true) -> length l <= count P l + count Q l.
Proof. unfold count. induction l as [|a l IH]; intros H; [cbn; lia|]. specialize (IH (fun b Hb => H b (or_intror Hb))). cbn [filter length]. destruct (H a (or_introl eq_refl)) as [E|E]; rewrite E; [destruct (Q a)|destruct (P a)]; cbn [length]; lia. Qed.
(** Wrong preparations alone are seen in one of the two bases. *)
Lemma half g2 n lss es p : g2 = str "cx" \/ g2 = str "cz" -> Forall (good_locs n) lss -> Forall (zero n) es -> (exists q, q < n /\ p q = true) ->
  2 ^ S (total lss) <= 2 * count (fun bs => negb (silent n (shown g2 n lss es p bs))) (cube (S (total lss))).
Proof.
  intros Hg G Hz (q & Hq & Hp). cbn [cube]. rewrite count_app, !count_map, Nat.pow_succ_r'. apply Nat.mul_le_mono_l. rewrite <- cube_len. apply count_or. intros bs Hb. apply cube_in in Hb.
  destruct (silent n (shown g2 n lss es p (false :: bs))) eqn:S1; [|left; reflexivity]. destruct (silent n (shown g2 n lss es p (true :: bs))) eqn:S2; [|right; reflexivity]. exfalso.
  pose proof (silent_both g2 Hg n lss es p bs G Hb S1 S2) as Z. apply (steps_zero g2 Hg n lss G es bs _ Hb Hz) in Z. specialize (Z q Hq). cbn beta in Z. rewrite Hp in Z. discriminate.
Qed.
Lemma quarter_any g2 n lss es p : g2 = str "cx" \/ g2 = str "cz" -> Forall (good_locs n) lss -> length es = length lss -> erroneous n p es ->
  2 ^ S (total lss) <= 4 * count (fun bs => negb (silent n (shown g2 n lss es p bs))) (cube (S (total lss))).
Proof.
  intros Hg G Hl He. destruct (some_nontrivial n es) as [H|H]; [apply quarter; assumption|]. destruct He as [He|He]; [apply quarter; assumption|]. pose proof (half g2 n lss es p Hg G H He). lia.
Qed.

(** ** Traps without errors show zeros *)
Section Clean.
Variable g2 : pystr.
Hypothesis Hg2 : g2 = str "cx" \/ g2 = str "cz".
Variable n : nat.
Lemma tl_clean b u e f : okl u -> z0 e (sup u) -> z0 f (sup u) -> z0 (tlg g2 b u e f) (sup u).
Proof.
  intros Hu He Hf. destruct u as [a c|q]; cbn in Hu.
  - pose proof (Hf a (or_introl eq_refl)) as Fa. pose proof (Hf c (or_intror (or_introl eq_refl))) as Fc. pose proof (He a (or_introl eq_refl)) as Ea. pose proof (He c (or_intror (or_introl eq_refl))) as Ec.
    destruct (tl_pair g2 Hg2 b a c e f Hu) as [A C]. rewrite Ea, Ec, Fa, Fc in A, C. intros j [<-|[<-|[]]]; [rewrite A|rewrite C]; clear - Hg2; destruct Hg2 as [-> | ->]; destruct b; vm_compute; reflexivity.
  - pose proof (Hf q (or_introl eq_refl)) as Fa. pose proof (He q (or_introl eq_refl)) as Ea. intros j [<-|[]]. rewrite (tl_idle g2 Hg2 b q e f), Ea, Fa. clear - Hg2. destruct Hg2 as [-> | ->]; destruct b; vm_compute; reflexivity.
Qed.
Lemma T_clean ls bs e f : good_locs n ls -> length bs = length ls -> zero n e -> zero n f -> zero n (Tlg g2 bs ls e f).
Proof.
  intros G Hb He H j Hj. destruct (at_loc n ls j G Hj) as (k & u & Hu & Hi & Ho). destruct (bit_at bs k ls u Hb Hu) as [b Hk]. rewrite (T_at g2 Hg2 ls bs k u b _ _ j (proj1 G) Hu Hk Hi). apply (tl_clean b u e f Ho); [| |exact Hi]; intros q Hq.
  - apply He, (sup_lt n ls k u q G Hu Hq).
  - apply H, (sup_lt n ls k u q G Hu Hq).
Qed.
Lemma steps_clean lss : Forall (good_locs n) lss -> forall es bs f, length bs = total lss -> Forall (zero n) es -> zero n f -> zero n (steps g2 lss es bs f).
Proof.
  induction 1 as [|ls lss G Gs IH]; intros es bs f Hb He H; [exact H|]. destruct es as [|e es]; [exact H|]. unfold total in Hb. cbn in Hb. rewrite app_length in Hb. cbn [steps]. apply Forall_cons_iff in He as [He Hes]. apply IH; [rewrite skipn_length; unfold total; lia|exact Hes|]. apply T_clean; auto. rewrite firstn_length. lia.
Qed.
Lemma shown_clean lss es p bs : Forall (good_locs n) lss -> length bs = S (total lss) -> ~ erroneous n p es -> silent n (shown g2 n lss es p bs) = true.
Proof.
  intros G Hb He. destruct (some_nontrivial n es) as [H|H]; [exfalso; apply He; left; exact H|]. destruct bs as [|b bs]; [discriminate|]. injection Hb as Hb. apply silent_iff. intros j Hj.
  assert (Hp : forall q, q < n -> p q = false) by (intros q Hq; destruct (p q) eqn:E; [exfalso; apply He; right; eauto|reflexivity]). unfold shown. cbn [nth List.tl].
  destruct b.
  - rewrite hg_at by exact Hj. rewrite (steps_clean lss G es bs _ Hb H); [reflexivity| |exact Hj]. intros q Hq. rewrite hg_at by exact Hq. unfold flipped. cbn. rewrite (Hp q Hq). reflexivity.
  - cbn [frs fold_left]. change (snd (steps g2 lss es bs (flipped p) j) = false). rewrite (steps_clean lss G es bs _ Hb H); [reflexivity| |exact Hj]. intros q Hq. unfold flipped. rewrite (Hp q Hq). reflexivity.
Qed.
End Clean.

Section Accept.
Variables (v d w : nat) (shows : nat -> bits -> pystr) (zeros : pystr) (hit : nat -> bool).
Definition width (k : nat) : nat := if k =? v then w else d + w.
Fixpoint acc (ks : list nat) (bs : bits) : bool :=
  match ks with
  | [] => true
  | k :: ks' => (if k =? v then true else eqb (shows k (firstn d bs)) zeros) && acc ks' (skipn (width k) bs)
  end.
Definition span (ks : list nat) : nat := list_sum (map width ks).
Definition hits (ks : list nat) : list nat := filter (fun k => negb (k =? v) && hit k) ks.
Lemma acc_count ks : Forall (fun k => k <> v -> hit k = true -> 2 ^ d <= 4 * count (fun bs => negb (eqb (shows k bs) zeros)) (cube d)) ks ->
  4 ^ length (hits ks) * count (acc ks) (cube (span ks)) <= 3 ^ length (hits ks) * 2 ^ span ks.
Proof.
  induction 1 as [|k ks Hk Hks IH]; [cbn; lia|]. unfold span in *. cbn [map list_sum fold_right hits filter]. fold (list_sum (map width ks)) (hits ks). unfold width at 1 3. cbn [acc]. unfold width at 1.
  destruct (Nat.eqb_spec k v) as [->|Hv]; cbn [negb andb].
  - rewrite count_skip, Nat.pow_add_r. nia.
  - assert (E : count (fun bs => eqb (shows k (firstn d bs)) zeros && acc ks (skipn (d + w) bs)) (cube (d + w + list_sum (map width ks))) = count (fun c => eqb (shows k c) zeros) (cube d) * (2 ^ w * count (acc ks) (cube (list_sum (map width ks))))).
    { rewrite <- count_skip, <- Nat.add_assoc. rewrite <- (count_split _ d (fun c => eqb (shows k c) zeros) (fun c => acc ks (skipn w c))). unfold count. f_equal. apply filter_ext. intros bs. f_equal. f_equal. clear. revert bs. induction d as [|d' IHd]; intros bs; [reflexivity|]. destruct bs as [|x bs]; [rewrite !skipn_nil; reflexivity|]. cbn. apply IHd. }
    rewrite E. specialize (Hk Hv). pose proof (count_not (fun c => eqb (shows k c) zeros) (cube d)) as N. rewrite cube_len in N.
    set (X := count (fun c => eqb (shows k c) zeros) (cube d)) in *. rewrite !Nat.pow_add_r. set (C := count (acc ks) _) in *. set (R := 2 ^ list_sum (map width ks)) in *. set (W := 2 ^ w) in *. set (D := 2 ^ d) in *.
    destruct (hit k); cbn [length].
    + specialize (Hk eq_refl). rewrite !Nat.pow_succ_r'. set (T4 := 4 ^ length (hits ks)) in *. set (T3 := 3 ^ length (hits ks)) in *.
      assert (X4 : 4 * X <= 3 * D) by lia. transitivity ((4 * X) * W * (T4 * C)); [lia|]. transitivity ((3 * D) * W * (T3 * R)); [|lia]. apply Nat.mul_le_mono; [apply Nat.mul_le_mono_r; exact X4|exact IH].
    + set (T4 := 4 ^ length (hits ks)) in *. set (T3 := 3 ^ length (hits ks)) in *. transitivity (X * W * (T4 * C)); [lia|]. transitivity (D * W * (T3 * R)); [|lia]. apply Nat.mul_le_mono; [apply Nat.mul_le_mono_r; lia|exact IH].
Qed.
Lemma skipn_skipn_add {A} (l : list A) a b : skipn a (skipn b l) = skipn (b + a) l.
Proof. revert l. induction b as [|b IH]; intros l; [reflexivity|]. destruct l as [|x l]; [rewrite !skipn_nil; reflexivity|]. cbn. apply IH. Qed.
Lemma acc_iff m : forall k0 bs, acc (seq k0 m) bs = true <-> forall j, j < m -> k0 + j <> v -> shows (k0 + j) (firstn d (skipn (span (seq k0 j)) bs)) = zeros.
Proof.
  induction m as [|m IH]; intros k0 bs; [split; [intros _ j Hj; lia|reflexivity]|]. cbn [seq acc]. rewrite andb_true_iff, IH. split.
  - intros [A B] [|j] Hj Hv; [rewrite Nat.add_0_r in *; cbn [seq span map list_sum fold_right]; unfold span; cbn; destruct (Nat.eqb_spec k0 v); [contradiction|]; apply eqb_eq, A|].
    specialize (B j ltac:(lia) ltac:(lia)). rewrite skipn_skipn_add in B. replace (k0 + S j) with (S k0 + j) by lia. exact B.
  - intros H. split; [destruct (Nat.eqb_spec k0 v) as [|Hv]; [reflexivity|]; apply eqb_eq; specialize (H 0 ltac:(lia)); rewrite Nat.add_0_r in H; apply (H Hv)|].
    intros j Hj Hv. specialize (H (S j) ltac:(lia) ltac:(lia)). rewrite skipn_skipn_add. replace (S k0 + j) with (k0 + S j) by lia. exact H.
Qed.
End Accept.
Lemma hits_length v hs m : NoDup hs -> Forall (fun k => k < m /\ k <> v) hs -> length (hits v (fun k => existsb (Nat.eqb k) hs) (seq 0 m)) = length hs.
Proof.
  intros Hd Hh. rewrite Forall_forall in Hh. apply Permutation_length, NoDup_Permutation; [apply NoDup_filter, seq_NoDup|exact Hd|]. intros k. unfold hits. rewrite filter_In, in_seq, andb_true_iff, negb_true_iff, Nat.eqb_neq, existsb_exists. split.
  - intros (_ & _ & x & Hx & E). apply Nat.eqb_eq in E. congruence.
  - intros Hk. destruct (Hh k Hk). repeat split; try lia. exists k. split; [exact Hk|apply Nat.eqb_refl].
Qed.

Section Run.
Context {F : Type} {HF : Fld F}.
Variable gmat : pystr -> list Q -> bits -> bits -> F.
Variables r i : F.
Hypothesis Hstd : std_gates gmat r i.
Variable n : nat.
Variable tp : list cinstr -> list cinstr.
Hypothesis Htp : transpiles gmat n tp.
(** The random bits of a pad. *)
Definition padded (L : layers) : nat := n + length (ly_two L) * (2 * n) + 2 * n.
Lemma qotp_pos rnd pos L circ postp pos' : good_layers n L -> qotp_fromlayers tp rnd pos L = Ok (circ, postp, pos') -> pos' = pos + padded L /\ length postp = n.
Proof.
  intros G E. destruct (qotp_action gmat r i Hstd tp n Htp rnd pos L circ postp pos' G E) as (_ & _ & xs & Lx & -> & _). rewrite rev_length. split; [|exact Lx].
  destruct G as [Gn _ _ _]. unfold qotp_fromlayers in E. inv_bind E. destruct v as [[c1 t1] p1]. inv_bind E. injection E as _ _ <-. rewrite Gn in *.
  assert (K : forall twos k s s', foldM (qotp_step tp rnd L) (combine (seq k (length twos)) twos) s = Ok s' -> snd s' = snd s + length twos * (2 * n)).
  { clear - Gn. induction twos as [|t twos IH]; intros k s s' E; [injection E as <-; cbn; lia|]. cbn [length seq combine foldM] in E. inv_bind E. apply IH in E. rewrite E. destruct s as [[c tm] p]. cbn [qotp_step] in E0. inv_bind E0. inv_bind E0. injection E0 as <-. cbn [snd length]. rewrite Gn. lia. }
  apply K in E0. cbn [snd] in E0. unfold padded. lia.
Qed.
Lemma padded_trap L singles : padded (trap_layers L singles) = padded L. Proof. reflexivity. Qed.
Lemma generate_pos L rnd v : good_layers n L -> (ly_gate L = str "cx" \/ ly_gate L = str "cz") -> forall m k0 out0 p0 out pos,
  foldM (one_circuit tp L rnd v) (seq k0 m) (out0, p0) = Ok (out, pos) ->
  let wd := width v (draws n L) (padded L) in pos = p0 + list_sum (map wd (seq k0 m)) /\ exists news, out = out0 ++ news /\ length news = m /\
  forall j c, nth_error news j = Some c -> length (snd c) = n /\ (k0 + j <> v -> exists singles p1 p2, routine_two L rnd (p0 + list_sum (map wd (seq k0 j))) = Ok (singles, p1) /\ qotp_fromlayers tp rnd p1 (trap_layers L singles) = Ok (fst c, snd c, p2)).
Proof.
  intros G Hg. induction m as [|m IH]; intros k0 out0 p0 out pos E wd; cbn [seq foldM] in E.
  - injection E as <- <-. cbn. split; [lia|]. exists []. rewrite app_nil_r. repeat split; auto; destruct j; discriminate.
  - inv_bind E. destruct v0 as [o1 p1]. cbn [one_circuit] in E0. inv_bind E0. destruct v0 as [Lk pk]. cbn [fst snd] in E0. inv_bind E0. destruct v0 as [[c p] p2]. injection E0 as <- <-.
    destruct (IH (S k0) _ _ _ _ E) as (Ep & news & -> & Ln & H). fold wd in Ep, H.
    assert (S0 : p2 = p0 + wd k0 /\ length p = n /\ (k0 <> v -> exists singles q1 q2, routine_two L rnd p0 = Ok (singles, q1) /\ qotp_fromlayers tp rnd q1 (trap_layers L singles) = Ok (c, p, q2))).
    { unfold wd, width. destruct (Nat.eqb_spec k0 v) as [Ev|Ev].
      - injection E1 as <- <-. destruct (qotp_pos _ _ _ _ _ _ G E2) as [-> Hl]. split; [reflexivity|split; [exact Hl|congruence]].
      - inv_bind E1. destruct v0 as [sg ps]. injection E1 as <- <-. cbn [fst snd] in *. destruct (routine_two_action gmat r i Hstd n L rnd p0 sg ps G E0) as [G' _]. destruct (trap_shown n (ly_gate L) Hg L rnd p0 sg ps eq_refl G E0) as [Eps _].
        destruct (qotp_pos _ _ _ _ _ _ G' E2) as [-> Hl]. rewrite padded_trap. unfold draws. split; [lia|split; [exact Hl|]]. intros _. exists sg, ps. eexists. split; [exact E0|exact E2]. }
    destruct S0 as (-> & Hl & Ht). split; [cbn [seq map list_sum fold_right]; fold (list_sum (map wd (seq (S k0) m))); lia|]. exists ((c, p) :: news). split; [rewrite <- app_assoc; reflexivity|]. split; [cbn; lia|].
    intros [|j] c0 Hj.
    + injection Hj as <-. cbn [fst snd]. split; [exact Hl|]. rewrite Nat.add_0_r. cbn [seq map list_sum fold_right]. rewrite Nat.add_0_r. exact Ht.
    + destruct (H j c0 Hj) as [A B]. split; [exact A|]. intros Hv. destruct (B ltac:(lia)) as (sg & q1 & q2 & R1 & R2). exists sg, q1, q2. split; [|exact R2]. rewrite <- R1. f_equal. cbn [seq map list_sum fold_right]. fold (list_sum (map wd (seq (S k0) j))). lia.
Qed.
Lemma draw_slice rnd bs p d : p + d <= length bs -> draw (chosen rnd 0 bs) p d = firstn d (skipn p bs).
Proof.
  intros H. apply bits_ext; [rewrite length_draw, firstn_length, skipn_length; lia|]. intros j Hj. rewrite length_draw in Hj. rewrite (nth_firstn_lt 0) by exact Hj. rewrite nth_skipn_add. unfold draw. rewrite (nth_indep _ false (chosen rnd 0 bs 0)) by (rewrite map_length, seq_length; exact Hj). rewrite map_nth, seq_nth by exact Hj. unfold chosen.
  cbn [Nat.leb andb plus]. destruct (Nat.ltb_spec (p + j) (length bs)); [|lia]. f_equal. lia.
Qed.
Lemma span_in v d w m j : j < m -> j <> v -> span v d w (seq 0 j) + d <= span v d w (seq 0 m).
Proof.
  intros Hj Hv. replace m with (j + S (m - S j)) by lia. rewrite seq_app. unfold span. rewrite map_app, list_sum_app. cbn [plus seq map list_sum fold_right]. unfold width at 3. destruct (Nat.eqb_spec j v); [contradiction|]. lia.
Qed.
(** Whether the bits drawn have a run accepted. *)
Definition run_accepts (L : layers) (num v : nat) (prep : nat -> nat -> bool) (es : nat -> list error) : bits -> bool :=
  acc v (draws n L) (padded L) (fun k => outcome n L (prep k) (es k) (fun _ => false)) (repeat ch0 n) (seq 0 (num + 1)).
Lemma run_main g2 ops L num v (prep : nat -> nat -> bool) (es : nat -> list error) hs : Forall (native n) ops -> measures_all n ops -> g2 = str "cx" \/ g2 = str "cz" ->
  layer_parser tp g2 n ops = Ok L -> v <= num -> (forall k, length (es k) = length (ly_two L)) -> NoDup hs -> Forall (fun k => k <= num /\ k <> v /\ erroneous n (prep k) (es k)) hs ->
  let N := span v (draws n L) (padded L) (seq 0 (num + 1)) in let accepts := run_accepts L num v prep es in
    (forall rnd bs, length bs = N -> exists out, generate_circuits tp L (chosen rnd 0 bs) num v = Ok (out, N) /\ length out = num + 1 /\
      (forall k circ postp, k <> v -> nth_error out k = Some (circ, postp) -> exists key, possible gmat n n (noisy n (prep k) (es k) (fun _ => false) circ) key) /\
      forall c ks w f, c_postp c = map snd out -> c_vzero c = v -> length ks = length out ->
      (forall k key circ postp, nth_error ks k = Some key -> nth_error out k = Some (circ, postp) ->
         c_counts c k = Ok [(key, 1%Z)] /\ (k = v -> is_key n key) /\ (k <> v -> possible gmat n n (noisy n (prep k) (es k) (fun _ => false) circ) key)) ->
      exists w' f', single_protocol_run (c_counts c) (c_postp c) (c_vzero c) w f = (w', f', None) /\ f_flag f' = accepts bs /\ f_acc f' = (if accepts bs then 1 else 0) + f_acc f) /\
    4 ^ length hs * length (filter accepts (cube N)) <= 3 ^ length hs * 2 ^ N.
Proof.
  intros Hn Hm Hg El Hv Hes Hd He. destruct (parsed_good gmat r i Hstd tp n Htp g2 ops L Hn El) as (G & Em & Egt & _). assert (Hg' := Hg). rewrite <- Egt in Hg'.
  set (d := draws n L). set (wp := padded L). set (shows := fun k => outcome n L (prep k) (es k) (fun _ => false)). set (zs := repeat ch0 n).
  cbv zeta. unfold run_accepts. fold d wp shows zs. split.
  - intros rnd bs Hb. destruct (generate_total gmat r i Hstd n tp Htp g2 ops L (chosen rnd 0 bs) num v Hn Hg El) as [[out pos] Eg].
    destruct (generate_pos L (chosen rnd 0 bs) v G Hg' (num + 1) 0 [] 0 out pos Eg) as (Ep & news & Eo & Ln & Ho). cbn [app] in Eo. subst news. cbn [plus] in Ep. fold d wp in Ep. fold (span v d wp (seq 0 (num + 1))) in Ep.
    exists out. rewrite <- Ep. split; [exact Eg|]. split; [exact Ln|]. split.
    { intros k circ postp Hkv Eo. destruct (Ho k (circ, postp) Eo) as [_ B]. destruct (B Hkv) as (sg & p1 & p2 & R1 & R2). cbn [fst snd] in R1, R2.
      apply (noisy_trap gmat r i Hstd n tp Htp g2 ops L _ _ sg p1 circ postp p2 (prep k) (es k) (fun _ => false) Hn Hm Hg El (Hes k) R1 R2). }
    intros c ks w f Hp Hz Hk Hc.
    assert (Ht : forall k key circ postp, k <> v -> nth_error out k = Some (circ, postp) -> possible gmat n n (noisy n (prep k) (es k) (fun _ => false) circ) key ->
      is_key n key /\ shift_key key postp = shows k (firstn d (skipn (span v d wp (seq 0 k)) bs))).
    { intros k key circ postp Hkv Eo Hpos. destruct (Ho k (circ, postp) Eo) as [_ B]. destruct (B Hkv) as (sg & p1 & p2 & R1 & R2). cbn [plus fst snd] in R1, R2. fold d wp in R1. fold (span v d wp (seq 0 k)) in R1.
      destruct (noisy_trap gmat r i Hstd n tp Htp g2 ops L _ _ sg p1 circ postp p2 (prep k) (es k) (fun _ => false) Hn Hm Hg El (Hes k) R1 R2) as [_ C]. destruct (C key Hpos) as [C1 C2]. split; [exact C1|]. rewrite C2. unfold shows. f_equal. fold d.
      apply draw_slice. rewrite Hb. apply span_in; [|exact Hkv]. rewrite <- Ln. apply nth_error_Some. congruence. }
    assert (Hks : exists keys, ks = map key_of keys /\ Forall (fun b => length b = n) keys).
    { assert (A : Forall (fun k => exists b, length b = n /\ k = key_of b) ks).
      { apply Forall_forall. intros key Hin. apply In_nth_error in Hin. destruct Hin as [k Ek]. destruct (nth_error out k) as [[circ postp]|] eqn:Eo.
        - destruct (Hc k key circ postp Ek Eo) as (_ & H1 & H2). destruct (Nat.eq_dec k v) as [E|E]; [apply (H1 E)|apply (Ht k key circ postp E Eo (H2 E))].
        - apply nth_error_None in Eo. assert (k < length ks) by (apply nth_error_Some; congruence). lia. }
      clear -A. induction A as [|k ks (b & Hb & ->) A (keys & -> & HF')]; [exists []; auto|]. exists (b :: keys). split; [reflexivity|constructor; auto]. }
    destruct Hks as (keys & -> & Hlen). rewrite map_length in Hk.
    assert (SS : single_shot c keys).
    { constructor.
      - rewrite Hp, map_length. exact Hk.
      - rewrite Hz, Hp, map_length. lia.
      - intros k key Ek. destruct (nth_error out k) as [[circ postp]|] eqn:Eo.
        + apply (Hc k (key_of key) circ postp); [rewrite nth_error_map, Ek; reflexivity|exact Eo].
        + apply nth_error_None in Eo. assert (k < length keys) by (apply nth_error_Some; congruence). lia.
      - intros k key p Ek Epp. rewrite Hp, nth_error_map in Epp. destruct (nth_error out k) as [cp|] eqn:Eo; [|discriminate]. injection Epp as <-.
        destruct (Ho k cp Eo) as (-> & _). rewrite Forall_forall in Hlen. apply Hlen. eapply nth_error_In, Ek. }
    assert (TZ : traps_zero c keys <-> acc v d wp shows zs (seq 0 (num + 1)) bs = true).
    { assert (K : forall k key circ postp, k <> v -> nth_error keys k = Some key -> nth_error out k = Some (circ, postp) -> (key = pad postp <-> shows k (firstn d (skipn (span v d wp (seq 0 k)) bs)) = zs)).
      { intros k key circ postp Hkv Ek Eo. destruct (Hc k (key_of key) circ postp) as (_ & _ & Hpos); [rewrite nth_error_map, Ek; reflexivity|exact Eo|]. destruct (Ht k _ circ postp Hkv Eo (Hpos Hkv)) as [_ <-].
        destruct (Ho k _ Eo) as [Lp _]. cbn [snd] in Lp. assert (Lk : length key = n) by (rewrite Forall_forall in Hlen; apply Hlen; eapply nth_error_In, Ek).
        unfold pad. assert (Z : shift_key (key_of key) postp = key_of (xors key (rev postp))) by (rewrite <- (rev_involutive postp) at 1; apply shift_key_of; rewrite rev_length; lia). rewrite Z.
        rewrite <- xors_self_zero by (rewrite rev_length; lia). rewrite length_key, length_xors, rev_length by (rewrite ?rev_length; lia). unfold zs. rewrite Lk. rewrite ?Lp, ?Nat.min_id. reflexivity. }
      rewrite (acc_iff v d wp shows zs (fun _ => true)). cbn [plus]. split.
      - intros T j Hj Hjv. destruct (nth_error out j) as [[circ postp]|] eqn:Eo; [|apply nth_error_None in Eo; lia]. destruct (nth_error keys j) as [key|] eqn:Ek; [|apply nth_error_None in Ek; lia].
        apply (K j key circ postp Hjv Ek Eo). apply (T j key postp); [congruence|exact Ek|]. rewrite Hp, nth_error_map, Eo. reflexivity.
      - intros T k key p Hkv Ek Epp. rewrite Hp, nth_error_map in Epp. destruct (nth_error out k) as [[circ postp]|] eqn:Eo; [|discriminate]. injection Epp as <-. cbn [snd]. rewrite Hz in Hkv. apply (K k key circ postp Hkv Ek Eo). apply T; [|exact Hkv]. rewrite <- Ln. apply nth_error_Some. congruence. }
    destruct (single_run_ok c keys w f SS) as (w' & f' & E & _ & T1 & T2 & _). exists w', f'. split; [exact E|]. destruct (acc v d wp shows zs (seq 0 (num + 1)) bs).
    + destruct (T1 (proj2 TZ eq_refl)) as (A & B & _). auto.
    + destruct T2 as (A & B & _); [intros Tz; apply TZ in Tz; discriminate|]. auto.
  - rewrite Forall_forall in He. pose proof (acc_count v d wp shows zs (fun k => existsb (Nat.eqb k) hs) (seq 0 (num + 1))) as A. rewrite (hits_length v hs (num + 1) Hd) in A by (apply Forall_forall; intros k Hk; destruct (He k Hk) as (? & ? & _); lia). apply A.
    apply Forall_forall. intros k _ Hkv Hk. apply existsb_exists in Hk as (x & Hx & Ex). apply Nat.eqb_eq in Ex. subst x.
    pose proof (quarter_any (ly_gate L) n (map (locs n) (ly_two L)) (es k) (prep k) Hg') as Q. fold (draws n L) in Q. fold d in Q. eapply Nat.le_trans; [apply Q|].
    + apply Forall_map. destruct G as [_ _ Gt _]. eapply Forall_impl; [|exact Gt]. intros l Hl. apply (locs_good n (ly_gate L)), Hl.
    + rewrite map_length. apply Hes.
    + apply (He k Hx).
    + unfold count. apply Nat.mul_le_mono_l. apply Nat.eq_le_incl. f_equal. apply filter_ext. intros bs. f_equal. unfold shows, zs. destruct (eqb_spec (outcome n L (prep k) (es k) (fun _ => false) bs) (repeat ch0 n)) as [E|E].
      * apply outcome_zero, E.
      * destruct (silent n _) eqn:S; [|reflexivity]. apply outcome_zero in S. contradiction.
Qed.
(** A run with errors in the traps [hs]: the bits drawn decide whether it is accepted, and
    at most (3/4)^(length hs) of them have it accepted. *)
Theorem run_rarely_accepted g2 ops L num v (prep : nat -> nat -> bool) (es : nat -> list error) hs : Forall (native n) ops -> measures_all n ops -> g2 = str "cx" \/ g2 = str "cz" ->
  layer_parser tp g2 n ops = Ok L -> v <= num -> (forall k, length (es k) = length (ly_two L)) -> NoDup hs -> Forall (fun k => k <= num /\ k <> v /\ erroneous n (prep k) (es k)) hs ->
  exists N (accepts : bits -> bool),
    (forall rnd bs, length bs = N -> exists out, generate_circuits tp L (chosen rnd 0 bs) num v = Ok (out, N) /\ length out = num + 1 /\
      (forall k circ postp, k <> v -> nth_error out k = Some (circ, postp) -> exists key, possible gmat n n (noisy n (prep k) (es k) (fun _ => false) circ) key) /\
      forall c ks w f, c_postp c = map snd out -> c_vzero c = v -> length ks = length out ->
      (forall k key circ postp, nth_error ks k = Some key -> nth_error out k = Some (circ, postp) ->
         c_counts c k = Ok [(key, 1%Z)] /\ (k = v -> is_key n key) /\ (k <> v -> possible gmat n n (noisy n (prep k) (es k) (fun _ => false) circ) key)) ->
      exists w' f', single_protocol_run (c_counts c) (c_postp c) (c_vzero c) w f = (w', f', None) /\ f_flag f' = accepts bs /\ f_acc f' = (if accepts bs then 1 else 0) + f_acc f) /\
    4 ^ length hs * length (filter accepts (cube N)) <= 3 ^ length hs * 2 ^ N.
Proof. intros Hn Hm Hg El Hv Hes Hd He. do 2 eexists. exact (run_main g2 ops L num v prep es hs Hn Hm Hg El Hv Hes Hd He). Qed.
Lemma span_is v d w m : forall a, span v d w (seq a m) + (if (a <=? v) && (v <? a + m) then d else 0) = m * (d + w).
Proof.
  induction m as [|m IH]; intros a; [cbn [seq]; destruct (Nat.leb_spec a v), (Nat.ltb_spec v (a + 0)); cbn [andb]; cbn; lia|].
  specialize (IH (S a)). unfold span in *. cbn [seq map list_sum fold_right]. fold (list_sum (map (width v d w) (seq (S a) m))). set (X := list_sum (map (width v d w) (seq (S a) m))) in *. unfold width.
  destruct (Nat.eqb_spec a v), (Nat.leb_spec (S a) v), (Nat.ltb_spec v (S a + m)), (Nat.leb_spec a v), (Nat.ltb_spec v (a + S m)); cbn [andb] in *; lia.
Qed.
Lemma span_same v d w num : v <= num -> span v d w (seq 0 (num + 1)) = num * d + (num + 1) * w.
Proof.
  intros H. pose proof (span_is v d w (num + 1) 0) as E. destruct (Nat.leb_spec 0 v), (Nat.ltb_spec v (0 + (num + 1))); cbn [andb] in E; try lia.
Qed.
Lemma credit h : 16 * (S h * 3 ^ h) <= 27 * 4 ^ h.
Proof.
  assert (A : forall k, 16 * ((k + 4) * 3 ^ (k + 3)) <= 27 * 4 ^ (k + 3)).
  { induction k as [|k IH]; [cbn; lia|]. replace (S k + 3) with (S (k + 3)) by lia. rewrite !Nat.pow_succ_r'. set (T := 3 ^ (k + 3)) in *. set (U := 4 ^ (k + 3)) in *. nia. }
  destruct h as [|[|[|h]]]; [cbn; lia|cbn; lia|cbn; lia|]. specialize (A h). replace (h + 4) with (S (S (S (S h)))) in A by lia. replace (h + 3) with (S (S (S h))) in A by lia. exact A.
Qed.
Lemma remove_length v (l : list nat) : NoDup l -> In v l -> S (length (remove Nat.eq_dec v l)) = length l.
Proof.
  induction l as [|x l IH]; intros Hd Hin; [destruct Hin|]. inversion Hd as [|? ? Hx Hl]. subst. cbn [remove]. destruct (Nat.eq_dec v x) as [->|Hv].
  - rewrite notin_remove by exact Hx. reflexivity.
  - destruct Hin as [Hin|Hin]; [congruence|]. cbn [length]. rewrite IH by assumption. reflexivity.
Qed.
Lemma remove_NoDup v (l : list nat) : NoDup l -> NoDup (remove Nat.eq_dec v l).
Proof.
  induction l as [|x l IH]; intros Hd; [constructor|]. inversion Hd as [|? ? Hx Hl]. subst. cbn [remove]. destruct (Nat.eq_dec v x); [apply IH, Hl|]. constructor; [|apply IH, Hl]. intros H. apply in_remove in H. tauto.
Qed.
Lemma sum_le (f : nat -> nat) c b l : (forall x, In x l -> c * f x <= b) -> c * list_sum (map f l) <= length l * b.
Proof. induction l as [|x l IH]; intros H; [cbn; lia|]. cbn [map list_sum fold_right length]. fold (list_sum (map f l)). specialize (IH (fun y Hy => H y (or_intror Hy))). pose proof (H x (or_introl eq_refl)). lia. Qed.
Lemma clean_accepts g2 ops L num v prep es bs : Forall (native n) ops -> g2 = str "cx" \/ g2 = str "cz" -> layer_parser tp g2 n ops = Ok L -> v <= num -> length bs = span v (draws n L) (padded L) (seq 0 (num + 1)) ->
  (forall k, k <= num -> k <> v -> ~ erroneous n (prep k) (es k)) -> run_accepts L num v prep es bs = true.
Proof.
  intros Hn Hg El Hv Hb He. destruct (parsed_good gmat r i Hstd tp n Htp g2 ops L Hn El) as (G & Em & Egt & _). rewrite <- Egt in Hg. unfold run_accepts. apply (acc_iff _ _ _ _ _ (fun _ => true)). cbn [plus]. intros k Hk Hkv. apply outcome_zero. apply shown_clean; [exact Hg| | |apply He; [lia|exact Hkv]].
  - apply Forall_map. destruct G as [_ _ Gt _]. eapply Forall_impl; [|exact Gt]. intros l Hl. apply (locs_good n (ly_gate L)), Hl.
  - change (S (total (map (locs n) (ly_two L)))) with (draws n L). pose proof (span_in v (draws n L) (padded L) (num + 1) k Hk Hkv). rewrite firstn_length, skipn_length. lia.
Qed.
(** Struck targets are seldom accepted, over the positions of the target and the bits. *)
Theorem credibility g2 ops L num (prep : nat -> nat -> bool) (es : nat -> list error) struck : Forall (native n) ops -> measures_all n ops -> g2 = str "cx" \/ g2 = str "cz" ->
  layer_parser tp g2 n ops = Ok L -> (forall k, length (es k) = length (ly_two L)) -> NoDup struck -> Forall (fun k => k <= num /\ erroneous n (prep k) (es k)) struck ->
  exists N (accepts : nat -> bits -> bool),
    (forall v, v <= num -> forall rnd bs, length bs = N -> exists out, generate_circuits tp L (chosen rnd 0 bs) num v = Ok (out, N) /\ length out = num + 1 /\
      (forall k circ postp, k <> v -> nth_error out k = Some (circ, postp) -> exists key, possible gmat n n (noisy n (prep k) (es k) (fun _ => false) circ) key) /\
      forall c ks w f, c_postp c = map snd out -> c_vzero c = v -> length ks = length out ->
      (forall k key circ postp, nth_error ks k = Some key -> nth_error out k = Some (circ, postp) ->
         c_counts c k = Ok [(key, 1%Z)] /\ (k = v -> is_key n key) /\ (k <> v -> possible gmat n n (noisy n (prep k) (es k) (fun _ => false) circ) key)) ->
      exists w' f', single_protocol_run (c_counts c) (c_postp c) (c_vzero c) w f = (w', f', None) /\ f_flag f' = accepts v bs /\ f_acc f' = (if accepts v bs then 1 else 0) + f_acc f) /\
    16 * list_sum (map (fun v => length (filter (accepts v) (cube N))) struck) <= 27 * 2 ^ N /\
    (forall v bs, v <= num -> length bs = N -> (forall k, k <= num -> k <> v -> ~ erroneous n (prep k) (es k)) -> accepts v bs = true).
Proof.
  intros Hn Hm Hg El Hes Hd He. rewrite Forall_forall in He. set (N := num * draws n L + (num + 1) * padded L).
  assert (M : forall v hs, v <= num -> NoDup hs -> Forall (fun k => k <= num /\ k <> v /\ erroneous n (prep k) (es k)) hs -> _) by (intros v hs Hv Hdh Hh; exact (run_main g2 ops L num v prep es hs Hn Hm Hg El Hv Hes Hdh Hh)).
  exists N, (fun v => run_accepts L num v prep es). split; [|split; [|intros v bs Hv Hb Hc; apply (clean_accepts g2 ops); auto; rewrite (span_same v _ _ num Hv); exact Hb]].
  - intros v Hv. destruct (M v [] Hv (NoDup_nil _) (Forall_nil _)) as [A _]. rewrite (span_same v _ _ num Hv) in A. exact A.
  - destruct struck as [|x0 struck0] eqn:Es; [cbn; lia|]. rewrite <- Es in *. assert (Hl : length struck = S (length struck0)) by (rewrite Es; reflexivity). set (h := length struck0) in *. clearbody h. clear Es x0 struck0.
    assert (B : forall v, In v struck -> 4 ^ h * length (filter (run_accepts L num v prep es) (cube N)) <= 3 ^ h * 2 ^ N).
    { intros v Hin. destruct (He v Hin) as [Hv _]. destruct (M v (remove Nat.eq_dec v struck) Hv (remove_NoDup v struck Hd)) as [_ B].
      { apply Forall_forall. intros k Hk. apply in_remove in Hk as [Hk Hkv]. destruct (He k Hk). auto. }
      rewrite (span_same v _ _ num Hv) in B. fold N in B. pose proof (remove_length v struck Hd Hin) as R. replace (length (remove Nat.eq_dec v struck)) with h in B by lia. exact B. }
    apply sum_le in B. rewrite Hl in B. pose proof (credit h) as C. set (S0 := list_sum _) in *. set (T4 := 4 ^ h) in *. set (T3 := 3 ^ h) in *. set (T2 := 2 ^ N) in *.
    assert (P : 0 < T4) by (unfold T4; clear; induction h; cbn; lia). apply (Nat.mul_le_mono_pos_l _ _ T4 P). transitivity (16 * (S h * T3) * T2); [lia|]. transitivity (27 * T4 * T2); [apply Nat.mul_le_mono_r, C|lia].
Qed.
End Run.
