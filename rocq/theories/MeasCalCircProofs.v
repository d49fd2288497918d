(** Proofs about the calibration circuits. *)
From Coq Require Import QArith.
From Verif Require Import LinAlg Base CountsModel CountsSpec CountsProofs BasisSem MeasCalModel MeasCalSpec.
Open Scope nat_scope.

(** ** The error monad *)
Lemma mapM_app {A B} (f : A -> result B) l l' :
  mapM f (l ++ l') = do a <- mapM f l; do b <- mapM f l'; Ok (a ++ b).
Proof.
  induction l as [|x l IH]; cbn.
  - destruct (mapM f l'); reflexivity.
  - destruct (f x); cbn; [|reflexivity]. rewrite IH.
    destruct (mapM f l); cbn; [|reflexivity]. destruct (mapM f l'); reflexivity.
Qed.

Lemma mapM_ext {A B} (f g : A -> result B) l :
  (forall a, In a l -> f a = g a) -> mapM f l = mapM g l.
Proof.
  induction l as [|a l IH]; cbn; intros H; [reflexivity|].
  rewrite H by (left; reflexivity). rewrite IH by (intros; apply H; right; assumption). reflexivity.
Qed.

Lemma mapM_map {A B C} (f : B -> result C) (g : A -> B) l :
  mapM f (map g l) = mapM (fun a => f (g a)) l.
Proof. induction l as [|a l IH]; cbn; [reflexivity|]. rewrite IH; reflexivity. Qed.

Lemma mapM_Ok {A B} (f : A -> result B) l bs :
  mapM f l = Ok bs <-> Forall2 (fun a b => f a = Ok b) l bs.
Proof.
  revert bs; induction l as [|a l IH]; intros bs; cbn.
  - split; [intros [= <-]; constructor | intros H; inversion H; reflexivity].
  - split.
    + destruct (f a) eqn:Ea; cbn; [|discriminate]. destruct (mapM f l) eqn:El; cbn; [|discriminate].
      intros [= <-]. constructor; [exact Ea | apply IH; reflexivity].
    + intros H; inversion H as [|? b ? bs' Ha Hl]; subst. rewrite Ha; cbn.
      apply IH in Hl. rewrite Hl; reflexivity.
Qed.

Lemma mapM_all_Ok {A B} (f : A -> result B) (g : A -> B) l :
  (forall a, In a l -> f a = Ok (g a)) -> mapM f l = Ok (map g l).
Proof.
  induction l as [|a l IH]; cbn; intros H; [reflexivity|].
  rewrite H by (left; reflexivity). cbn. rewrite IH by (intros; apply H; right; assumption). reflexivity.
Qed.

Lemma bind_Ok {A B} (r : result A) (f : A -> result B) b :
  bind r f = Ok b -> exists a, r = Ok a /\ f a = Ok b.
Proof. destruct r; cbn; [eauto | discriminate]. Qed.

Lemma bind_assoc {A B C} (r : result A) (f : A -> result B) (g : B -> result C) :
  bind (bind r f) g = bind r (fun a => bind (f a) g).
Proof. destruct r; reflexivity. Qed.

(** ** Positions *)
Lemma combine_nth_map {A B} (l : list A) (r : list B) da db :
  length l <= length r ->
  combine l r = map (fun i => (nth i l da, nth i r db)) (seq 0 (length l)).
Proof.
  revert r; induction l as [|a l IH]; intros [|b r] Hl; cbn in *; try reflexivity; try lia.
  f_equal. rewrite (IH r) by lia. rewrite <- seq_shift, map_map. reflexivity.
Qed.

Lemma combine_app_l {A B} (l l' : list A) (r : list B) :
  combine (l ++ l') r = combine l r ++ combine l' (skipn (length l) r).
Proof.
  revert r; induction l as [|a l IH]; intros r; cbn; [reflexivity|].
  destruct r as [|b r]; cbn; [destruct l'; reflexivity|]. rewrite IH; reflexivity.
Qed.

Lemma nth_rev_firstn (b : pystr) e i d :
  i < e -> e <= length b -> nth i (rev (firstn e b)) d = nth (e - 1 - i) b d.
Proof.
  intros Hi He. rewrite rev_nth by (rewrite firstn_length_le; lia).
  rewrite firstn_length_le by lia.
  rewrite <- (firstn_skipn e b) at 2. rewrite app_nth1; [f_equal; lia|].
  rewrite firstn_length_le; lia.
Qed.

Lemma nth_firstn_lt {A} (l : list A) k i d : i < k -> nth i (firstn k l) d = nth i l d.
Proof.
  revert k i; induction l as [|a l IH]; intros [|k] [|i] H; cbn; try reflexivity; try lia.
  apply IH; lia.
Qed.

Lemma nth_skipn_add {A} (l : list A) k i d : nth i (skipn k l) d = nth (k + i) l d.
Proof. revert k; induction l as [|a l IH]; intros [|k]; cbn; try reflexivity; [destruct i; reflexivity | apply IH]. Qed.

Lemma nth_slice {A} (l : list A) a e i d :
  a + i < e -> nth i (slice l a e) d = nth (a + i) l d.
Proof. intros Hi. unfold slice. rewrite nth_firstn_lt by lia. apply nth_skipn_add. Qed.

Lemma skipn_rev_firstn (b : pystr) e k :
  k <= e -> e <= length b -> skipn k (rev (firstn e b)) = rev (firstn (e - k) b).
Proof.
  intros Hk He. rewrite skipn_rev, firstn_length_le by lia. f_equal.
  rewrite firstn_firstn. f_equal; lia.
Qed.

Definition prep_one (qr : nat) (qc : nat * ascii) : result (list instr) :=
  if eqb (snd qc) ch1 then do q <- reg_index qr (fst qc); Ok [IX q] else Ok [].

Lemma prep_gates_flat qr b pat : forall e,
  length (concat pat) <= e -> e <= length b ->
  prep_gates qr b e pat
  = do l <- mapM (prep_one qr) (combine (concat pat) (rev (firstn e b))); Ok (concat l).
Proof.
  induction pat as [|ql pat IH]; intros e He Hb; cbn [concat prep_gates]; [reflexivity|].
  cbn [concat] in He. rewrite app_length in He.
  rewrite combine_app_l, mapM_app, skipn_rev_firstn by lia.
  rewrite IH by lia.
  rewrite (combine_nth_map ql _ 0 "?"%char) by (rewrite rev_length, firstn_length_le; lia).
  rewrite mapM_map.
  rewrite (mapM_ext _ (fun a => prep_one qr (nth a ql 0, nth a (rev (firstn e b)) "?"%char))).
  - destruct (mapM _ (seq 0 (length ql))); cbn [bind]; [|reflexivity].
    rewrite !bind_assoc. destruct (mapM _ (combine (concat pat) _)); cbn; [|reflexivity].
    rewrite concat_app. reflexivity.
  - intros a Ha. apply in_seq in Ha. unfold prep_one; cbn [fst snd].
    rewrite nth_slice, nth_rev_firstn by lia.
    replace (e - length ql + (length ql - a - 1)) with (e - 1 - a) by lia. reflexivity.
Qed.

Definition meas_one (qr cr : nat) (qc : nat * nat) : result instr :=
  do q <- reg_index qr (fst qc); do c <- reg_index cr (snd qc); Ok (IMeasure q c).

Lemma meas_gates_flat qr cr n pat : forall e,
  length (concat pat) <= e -> e <= n ->
  meas_gates qr cr n e pat
  = mapM (meas_one qr cr) (combine (concat pat) (seq (n - e) (length (concat pat)))).
Proof.
  induction pat as [|ql pat IH]; intros e He Hn; cbn [concat meas_gates]; [reflexivity|].
  cbn [concat] in He. rewrite app_length in He.
  rewrite combine_app_l, mapM_app. rewrite IH by lia.
  rewrite app_length, seq_app, skipn_app, seq_length, Nat.sub_diag, skipn_O.
  rewrite skipn_all2 by (rewrite seq_length; lia). cbn [app].
  replace (n - (e - length ql)) with (n - e + length ql) by lia.
  rewrite (combine_nth_map ql _ 0 0) by (rewrite app_length, seq_length; lia).
  rewrite mapM_map.
  rewrite (mapM_ext _ (fun a => meas_one qr cr (nth a ql 0,
     nth a (seq (n - e) (length ql) ++ seq (n - e + length ql) (length (concat pat))) 0))).
  - reflexivity.
  - intros a Ha. apply in_seq in Ha. unfold meas_one; cbn [fst snd].
    rewrite app_nth1 by (rewrite seq_length; lia). rewrite seq_nth by lia.
    replace (n - (e - a)) with (n - e + a) by lia. reflexivity.
Qed.

(** ** Execution *)
Definition xs_of (l : list (nat * ascii)) : list instr :=
  concat (map (fun qc => if eqb (snd qc) ch1 then [IX (fst qc)] else []) l).

Lemma exec_xs l : forall s,
  NoDup (map fst l) ->
  (forall q c, In (q, c) l -> qb (exec (xs_of l) s) q = xorb (eqb c ch1) (qb s q)) /\
  (forall q, ~ In q (map fst l) -> qb (exec (xs_of l) s) q = qb s q) /\
  (forall k, cb (exec (xs_of l) s) k = cb s k).
Proof.
  induction l as [|[q0 c0] l IH]; intros s Hnd; cbn [map fst] in *.
  - split; [intros q c []|split; reflexivity].
  - inversion Hnd as [|? ? Hni Hnd']; subst. unfold xs_of; cbn [map concat fst snd].
    rewrite exec_app. fold (xs_of l).
    set (s' := exec (if eqb c0 ch1 then [IX q0] else []) s).
    destruct (IH s' Hnd') as (H1 & H2 & H3).
    assert (Hs' : forall q, qb s' q = if q =? q0 then xorb (eqb c0 ch1) (qb s q0) else qb s q).
    { intros q. unfold s'. destruct (eqb c0 ch1); cbn.
      - unfold upd. destruct (Nat.eqb_spec q q0); subst; reflexivity.
      - destruct (Nat.eqb_spec q q0); subst; [|reflexivity]. destruct (qb s q0); reflexivity. }
    split; [|split].
    + intros q c [He|Hin].
      * injection He as <- <-. rewrite H2 by exact Hni. rewrite Hs', Nat.eqb_refl. reflexivity.
      * rewrite (H1 q c Hin), Hs'. destruct (Nat.eqb_spec q q0) as [->|]; [|reflexivity].
        exfalso; apply Hni. apply in_map_iff. exists (q0, c); auto.
    + intros q Hq. rewrite H2 by (intros Hi; apply Hq; right; exact Hi). rewrite Hs'.
      destruct (Nat.eqb_spec q q0) as [->|]; [|reflexivity]. exfalso; apply Hq; left; reflexivity.
    + intros k. rewrite H3. unfold s'. destruct (eqb c0 ch1); reflexivity.
Qed.

Definition ms_of (l : list (nat * nat)) : list instr := map (fun qc => IMeasure (fst qc) (snd qc)) l.

Lemma exec_ms l : forall s, NoDup (map snd l) ->
  (forall q c, In (q, c) l -> cb (exec (ms_of l) s) c = qb s q) /\
  (forall c, ~ In c (map snd l) -> cb (exec (ms_of l) s) c = cb s c) /\
  qb (exec (ms_of l) s) = qb s.
Proof.
  induction l as [|[q0 c0] l IH]; intros s Hnd; cbn [map snd ms_of] in *.
  - split; [intros q c []|split; reflexivity].
  - inversion Hnd as [|? ? Hni Hnd']; subst. rewrite exec_cons. fold (ms_of l).
    destruct (IH (exec_instr s (IMeasure q0 c0)) Hnd') as (H1 & H2 & H3). cbn in H1, H2, H3.
    split; [|split].
    + intros q c [He|Hin]; [|apply H1; exact Hin].
      injection He as <- <-. rewrite H2 by exact Hni. apply upd_same.
    + intros c Hc. rewrite H2 by (intros Hi; apply Hc; right; exact Hi). apply upd_other. intros ->; apply Hc; left; reflexivity.
    + exact H3.
Qed.

(** ** The whole circuit *)
Lemma reg_index_Ok n i j : reg_index n i = Ok j -> j = i /\ i < n.
Proof. unfold reg_index. destruct (Nat.ltb_spec i n); [intros [= <-]; auto | discriminate]. Qed.

Lemma reg_index_lt n i : i < n -> reg_index n i = Ok i.
Proof. unfold reg_index. intros H. destruct (Nat.ltb_spec i n); [reflexivity | lia]. Qed.

Lemma meas_one_Ok qr cr l out :
  mapM (meas_one qr cr) l = Ok out ->
  out = ms_of l /\ forall q c, In (q, c) l -> q < qr /\ c < cr.
Proof.
  intros H. apply mapM_Ok in H. induction H as [|[q c] i l out Hi Hl IH]; cbn.
  - split; [reflexivity | intros q c []].
  - destruct IH as [-> IH]. unfold meas_one in Hi; cbn [fst snd] in Hi.
    apply bind_Ok in Hi. destruct Hi as (q' & Hq & Hi). apply bind_Ok in Hi. destruct Hi as (c' & Hc & Hi).
    apply reg_index_Ok in Hq, Hc. destruct Hq as [-> Hq], Hc as [-> Hc]. injection Hi as <-.
    split; [reflexivity|]. intros q' c' [He|Hin]; [injection He as <- <-; auto | auto].
Qed.

Lemma map_fst_combine {A B} (l : list A) (r : list B) : length l <= length r -> map fst (combine l r) = l.
Proof.
  revert r; induction l as [|a l IH]; intros [|b r] H; cbn in *; try reflexivity; try lia.
  rewrite IH by lia; reflexivity.
Qed.
Lemma map_snd_combine {A B} (l : list A) (r : list B) : length r <= length l -> map snd (combine l r) = r.
Proof.
  revert r; induction l as [|a l IH]; intros [|b r] H; cbn in *; try reflexivity; try lia.
  rewrite IH by lia; reflexivity.
Qed.

Lemma cal_circuit_body qr cr lab pat b c :
  length b = length (concat pat) ->
  cal_circuit qr cr lab pat b = Ok c ->
  let n := length (concat pat) in
  c = {| c_name := lab ++ str "cal_" ++ b; c_nq := qr; c_ncl := cr;
         c_body := xs_of (combine (concat pat) (rev b)) ++ [IBarrier] ++
                   ms_of (combine (concat pat) (seq 0 n)) |} /\
  (forall q, In q (concat pat) -> q < qr) /\ n <= cr.
Proof.
  intros Hb H n. unfold cal_circuit in H. fold n in H.
  apply bind_Ok in H. destruct H as (g1 & H1 & H). apply bind_Ok in H. destruct H as (g2 & H2 & H).
  injection H as <-. rewrite meas_gates_flat in H2 by lia. rewrite Nat.sub_diag in H2. fold n in H2.
  apply meas_one_Ok in H2. destruct H2 as [-> H2].
  assert (Hq : forall q, In q (concat pat) -> q < qr).
  { intros q Hq. apply In_nth_error in Hq. destruct Hq as (i & Hi).
    assert (Hil : i < n) by (apply nth_error_Some; congruence).
    apply (H2 q i). rewrite (combine_nth_map _ _ 0 0) by (rewrite seq_length; reflexivity).
    apply in_map_iff. exists i. fold n. rewrite seq_nth by exact Hil.
    rewrite (nth_error_nth _ _ _ Hi). split; [reflexivity | apply in_seq; lia]. }
  rewrite prep_gates_flat in H1 by lia.
  rewrite firstn_all2 in H1 by lia.
  rewrite (mapM_all_Ok (prep_one qr) (fun qc => if eqb (snd qc) ch1 then [IX (fst qc)] else [])) in H1.
  - cbn in H1. injection H1 as <-. split; [reflexivity|]. split; [exact Hq|].
    destruct n as [|n'] eqn:En; [lia|].
    assert (Hin : In (nth n' (concat pat) 0, n') (combine (concat pat) (seq 0 (S n')))).
    { rewrite (combine_nth_map _ _ 0 0) by (rewrite seq_length; lia). apply in_map_iff. exists n'.
      fold n. rewrite En. rewrite seq_nth by lia. split; [reflexivity | apply in_seq; lia]. }
    apply H2 in Hin. lia.
  - intros [q ch] Hin. unfold prep_one; cbn [fst snd]. destruct (eqb ch ch1); [|reflexivity].
    rewrite reg_index_lt; [reflexivity|]. apply Hq. eapply in_combine_l; exact Hin.
Qed.

Lemma cal_circuit_ok qr cr lab pat b :
  length b = length (concat pat) -> (forall q, In q (concat pat) -> q < qr) ->
  length (concat pat) <= cr -> exists c, cal_circuit qr cr lab pat b = Ok c.
Proof.
  intros Hb Hq Hc. unfold cal_circuit.
  rewrite prep_gates_flat, meas_gates_flat by lia. rewrite Nat.sub_diag, firstn_all2 by lia.
  rewrite (mapM_all_Ok (prep_one qr) (fun qc => if eqb (snd qc) ch1 then [IX (fst qc)] else [])).
  - cbn [bind]. rewrite (mapM_all_Ok (meas_one qr cr) (fun qc => IMeasure (fst qc) (snd qc))).
    + eexists; reflexivity.
    + intros [q k] Hin. unfold meas_one; cbn [fst snd].
      rewrite !reg_index_lt; [reflexivity| |].
      * apply in_combine_r, in_seq in Hin. lia.
      * apply Hq. eapply in_combine_l; exact Hin.
  - intros [q ch] Hin. unfold prep_one; cbn [fst snd]. destruct (eqb ch ch1); [|reflexivity].
    rewrite reg_index_lt; [reflexivity|]. apply Hq. eapply in_combine_l; exact Hin.
Qed.

Lemma map_nth_seq {A} (l : list A) d : map (fun i => nth i l d) (seq 0 (length l)) = l.
Proof.
  induction l as [|a l IH]; cbn; [reflexivity|]. f_equal. rewrite <- seq_shift, map_map. exact IH.
Qed.

Lemma cal_body_outcome flat b cr :
  NoDup flat -> length b = length flat -> is_bits b -> length flat <= cr ->
  outcome_string cr (exec (xs_of (combine flat (rev b)) ++ [IBarrier] ++
                           ms_of (combine flat (seq 0 (length flat)))) all_zero)
  = repeat "0"%char (cr - length flat) ++ b.
Proof.
  intros Hnd Hb Hbits Hcr. set (n := length flat) in *.
  rewrite !exec_app. cbn [exec fold_left exec_instr].
  change (fold_left exec_instr (xs_of (combine flat (rev b))) all_zero)
    with (exec (xs_of (combine flat (rev b))) all_zero).
  change (fold_left exec_instr (ms_of (combine flat (seq 0 n)))) with (exec (ms_of (combine flat (seq 0 n)))).
  destruct (exec_xs (combine flat (rev b)) all_zero) as (Hx & _ & Hxc).
  { rewrite map_fst_combine by (rewrite rev_length; lia). exact Hnd. }
  set (s1 := exec (xs_of (combine flat (rev b))) all_zero) in *.
  destruct (exec_ms (combine flat (seq 0 n)) s1) as (Hm & Hmo & _).
  { rewrite map_snd_combine by (rewrite seq_length; unfold n; lia). apply seq_NoDup. }
  unfold outcome_string.
  replace (seq 0 cr) with (seq 0 n ++ seq n (cr - n)) by (rewrite <- seq_app; f_equal; lia).
  rewrite map_app, rev_app_distr. f_equal.
  - rewrite (map_ext_in _ (fun _ => "0"%char)).
    + clear. generalize (cr - n) as k. intros k. generalize n as m. induction k as [|k IH]; intros m; cbn; [reflexivity|].
      rewrite IH. clear. induction k as [|k IHk]; cbn; [reflexivity|]. f_equal; exact IHk.
    + intros c Hc. apply in_seq in Hc. rewrite Hmo.
      * rewrite Hxc. reflexivity.
      * rewrite map_snd_combine by (rewrite seq_length; unfold n; lia). intros Hi; apply in_seq in Hi; lia.
  - transitivity (rev (rev b)); [f_equal | apply rev_involutive].
    transitivity (map (fun i => nth i (rev b) "?"%char) (seq 0 n)).
    + apply map_ext_in. intros c Hc. apply in_seq in Hc.
      rewrite (Hm (nth c flat 0) c).
      * rewrite (Hx (nth c flat 0) (nth c (rev b) "?"%char)).
        -- cbn [qb all_zero]. rewrite xorb_false_r.
           assert (Hin : In (nth c (rev b) "?"%char) b) by (apply in_rev, nth_In; rewrite rev_length; lia).
           destruct (Hbits _ Hin) as [E|E]; rewrite E; reflexivity.
        -- rewrite (combine_nth_map _ _ 0 "?"%char) by (rewrite rev_length; lia). apply in_map_iff.
           exists c. split; [reflexivity | apply in_seq; fold n; lia].
      * rewrite (combine_nth_map _ _ 0 0) by (rewrite seq_length; reflexivity). apply in_map_iff.
        exists c. fold n. rewrite seq_nth by lia. split; [reflexivity | apply in_seq; lia].
    + rewrite <- Hb, <- (rev_length b). apply map_nth_seq.
Qed.

(** ** Labels *)
Lemma group_label_concat sizes (L : pystr) : forall acc,
  fold_left (fun (basis_state : pystr) list_size => firstn list_size L ++ basis_state) sizes acc
  = concat (rev (map (fun s => firstn s L) sizes)) ++ acc.
Proof.
  induction sizes as [|s sizes IH]; intros acc; cbn; [reflexivity|].
  rewrite IH, concat_app. cbn. rewrite app_nil_r, <- app_assoc. reflexivity.
Qed.

Lemma group_label_eq sizes L : group_label sizes L = concat (rev (map (fun s => firstn s L) sizes)).
Proof. unfold group_label. rewrite group_label_concat, app_nil_r. reflexivity. Qed.

Lemma rev_concat {A} (ls : list (list A)) : rev (concat ls) = concat (map (@rev A) (rev ls)).
Proof.
  induction ls as [|l ls IH]; cbn; [reflexivity|].
  rewrite rev_app_distr, map_app, concat_app, IH. cbn. rewrite app_nil_r. reflexivity.
Qed.

Lemma rev_group_label sizes L : rev (group_label sizes L) = concat (map (fun s => rev (firstn s L)) sizes).
Proof. rewrite group_label_eq, rev_concat, rev_involutive, map_map. reflexivity. Qed.

Lemma nth_concat_slice {A} (ls : list (list A)) g :
  firstn (length (nth g ls [])) (skipn (fold_right Nat.add 0 (firstn g (map (@length A) ls))) (concat ls))
  = nth g ls [].
Proof.
  revert g; induction ls as [|l ls IH]; intros [|g]; cbn [nth concat map firstn fold_right skipn].
  - reflexivity.
  - rewrite firstn_nil. reflexivity.
  - rewrite firstn_app, Nat.sub_diag, firstn_all. cbn. apply app_nil_r.
  - rewrite skipn_app, skipn_all2 by lia. cbn [app].
    replace (length l + fold_right Nat.add 0 (firstn g (map (length (A:=A)) ls)) - length l)
      with (fold_right Nat.add 0 (firstn g (map (length (A:=A)) ls))) by lia.
    apply IH.
Qed.

Lemma group_part_label sizes L g :
  (forall s, In s sizes -> s <= length L) -> g < length sizes ->
  group_part sizes g (group_label sizes L) = firstn (nth g sizes 0) L.
Proof.
  intros Hs Hg. unfold group_part, group_offset. rewrite rev_group_label.
  set (ls := map (fun s => rev (firstn s L)) sizes).
  assert (Hmap : map (@length ascii) ls = sizes).
  { unfold ls. rewrite map_map. rewrite <- (map_id sizes) at 2. apply map_ext_in.
    intros s Hin. rewrite rev_length, firstn_length_le by auto. reflexivity. }
  assert (Hnth : nth g ls [] = rev (firstn (nth g sizes 0) L)).
  { unfold ls. rewrite nth_indep with (d' := (fun s => rev (firstn s L)) 0) by (rewrite map_length; exact Hg).
    apply (map_nth (fun s => rev (firstn s L))). }
  pose proof (nth_concat_slice ls g) as H. rewrite Hmap, Hnth in H.
  rewrite rev_length, firstn_length_le in H by (apply Hs, nth_In; exact Hg).
  rewrite H, rev_involutive. reflexivity.
Qed.

Lemma group_label_length sizes L :
  (forall s, In s sizes -> s <= length L) -> length (group_label sizes L) = fold_right Nat.add 0 sizes.
Proof.
  intros Hs. rewrite <- rev_length, rev_group_label.
  induction sizes as [|s sizes IH]; cbn; [reflexivity|].
  rewrite app_length, rev_length, firstn_length_le by (apply Hs; left; reflexivity).
  rewrite IH by (intros; apply Hs; right; assumption). reflexivity.
Qed.

Lemma group_label_bits sizes L : is_bits L -> is_bits (group_label sizes L).
Proof.
  intros HL. rewrite group_label_eq. intros c Hc. apply in_concat in Hc. destruct Hc as (x & Hx & Hc).
  apply in_rev, in_map_iff in Hx. destruct Hx as (s & <- & _). apply HL.
  rewrite <- (firstn_skipn s L). apply in_or_app; left; exact Hc.
Qed.

Lemma max_fold_ge_acc l a : a <= fold_left Nat.max l a.
Proof.
  revert a; induction l as [|b l IH]; intros a; cbn; [lia|].
  transitivity (Nat.max a b); [lia | apply IH].
Qed.

Lemma max_fold_ge l a x : In x (a :: l) -> x <= fold_left Nat.max l a.
Proof.
  revert a; induction l as [|b l IH]; intros a; cbn [fold_left].
  - intros [->|[]]; cbn; lia.
  - intros [->|[->|Hin]].
    + transitivity (Nat.max x b); [lia | apply max_fold_ge_acc].
    + transitivity (Nat.max a x); [lia | apply max_fold_ge_acc].
    + apply IH; right; exact Hin.
Qed.

Lemma max_fold_In l a : In (fold_left Nat.max l a) (a :: l).
Proof.
  revert a; induction l as [|b l IH]; intros a; cbn; [auto|].
  destruct (IH (Nat.max a b)) as [H|H]; [|right; right; exact H].
  rewrite <- H. destruct (Nat.max_spec a b) as [[_ E]|[_ E]]; rewrite E; auto.
Qed.

Lemma max_e_spec l m : max_e l = Ok m -> In m l /\ forall x, In x l -> x <= m.
Proof.
  destruct l as [|a l]; cbn; [discriminate|]. intros [= <-].
  split; [apply max_fold_In | intros x Hx; apply max_fold_ge; exact Hx].
Qed.

Lemma filter_map_length {A B} (f : A -> B) p l : length (filter p (map f l)) = length (filter (fun a => p (f a)) l).
Proof. induction l as [|a l IH]; cbn; [reflexivity|]. destruct (p (f a)); cbn; congruence. Qed.

Lemma filter_ext_length {A} p q (l : list A) : (forall a, In a l -> p a = q a) -> length (filter p l) = length (filter q l).
Proof.
  induction l as [|a l IH]; cbn; intros H; [reflexivity|].
  rewrite H by (left; reflexivity).
  destruct (q a); cbn; [f_equal|]; apply IH; intros; apply H; right; assumption.
Qed.

Lemma filter_false {A} (l : list A) : filter (fun _ => false) l = [].
Proof. induction l; auto. Qed.
Lemma filter_true {A} (l : list A) : filter (fun _ => true) l = l.
Proof. induction l as [|a l IH]; cbn; congruence. Qed.

Lemma count_prefix y : forall m, is_bits y -> length y <= m ->
  length (filter (fun L => eqb (firstn (length y) L) y) (all_bits m)) = 2 ^ (m - length y).
Proof.
  induction y as [|c y IH]; intros m Hy Hm.
  - cbn [length firstn]. rewrite (filter_ext_length _ (fun _ => true)) by (intros; apply eqb_refl).
    rewrite filter_true, all_bits_length. f_equal; cbn; lia.
  - destruct m as [|m]; [cbn in Hm; lia|]. cbn [all_bits length firstn].
    apply is_bits_cons in Hy. destruct Hy as [Hc Hy].
    rewrite filter_app, app_length, !filter_map_length. cbn [firstn].
    assert (Hcase : forall a, length (filter (fun L => eqb (a :: firstn (length y) L) (c :: y)) (all_bits m))
                    = if eqb a c then 2 ^ (m - length y) else 0).
    { intros a. destruct (eqb_spec a c) as [->|Hn].
      - rewrite <- (IH m) by (auto; cbn in Hm; lia). apply filter_ext_length. intros L _.
        destruct (eqb_spec (firstn (length y) L) y) as [->|Hn']; [apply eqb_refl|].
        apply eqb_neq. congruence.
      - rewrite (filter_ext_length _ (fun _ => false)); [rewrite filter_false; reflexivity|].
        intros L _. apply eqb_neq. congruence. }
    rewrite !Hcase. replace (S m - S (length y)) with (m - length y) by lia.
    destruct Hc as [-> | ->]; unfold eqb; cbn; lia.
Qed.

(** ** Pattern check *)
Lemma pattern_fold l : forall seen, NoDup seen ->
  foldM (fun seen q => if mem q seen then Err QiskitError else Ok (seen ++ [q])) l seen
  = if list_eq_dec Nat.eq_dec l [] then Ok seen
    else match ListDec.NoDup_dec Nat.eq_dec (seen ++ l) with
         | left _ => Ok (seen ++ l) | right _ => Err QiskitError end.
Proof.
  induction l as [|q l IH]; intros seen Hnd; cbn [foldM].
  - reflexivity.
  - destruct (list_eq_dec Nat.eq_dec (q :: l) []) as [E|_]; [discriminate E|].
    destruct (mem q seen) eqn:Em; cbn [bind].
    + destruct (ListDec.NoDup_dec _ _) as [Hn|]; [|reflexivity]. exfalso.
      apply NoDup_remove_2 in Hn. apply Hn. apply in_or_app; left. apply mem_In; exact Em.
    + assert (Hnd' : NoDup (seen ++ [q])).
      { apply (Permutation_NoDup (Permutation_cons_append seen q)). constructor; [|exact Hnd].
        apply mem_not_In; exact Em. }
      rewrite IH by exact Hnd'. rewrite <- !app_assoc. cbn [app].
      destruct (list_eq_dec _ _ _) as [->|_]; [|reflexivity].
      destruct (ListDec.NoDup_dec _ _); [reflexivity | contradiction].
Qed.

Lemma pattern_qubits_ok pat : NoDup (concat pat) -> pattern_qubits pat = Ok (concat pat).
Proof.
  intros H. unfold pattern_qubits. rewrite pattern_fold by constructor. cbn [app].
  destruct (list_eq_dec _ _ _) as [E|_]; [rewrite E; reflexivity|].
  destruct (ListDec.NoDup_dec _ _); [reflexivity | contradiction].
Qed.

Lemma pattern_qubits_err pat : ~ NoDup (concat pat) -> pattern_qubits pat = Err QiskitError.
Proof.
  intros H. unfold pattern_qubits. rewrite pattern_fold by constructor. cbn [app].
  destruct (list_eq_dec _ _ _) as [E|_]; [rewrite E in H; exfalso; apply H; constructor|].
  destruct (ListDec.NoDup_dec _ _); [contradiction | reflexivity].
Qed.

Lemma concat_length_sum (pat : list (list nat)) :
  length (concat pat) = fold_right Nat.add 0 (map (@length nat) pat).
Proof. induction pat; cbn; [reflexivity|]. rewrite app_length; congruence. Qed.

(** The pattern and register actually used. *)
Definition effective (mp : option (list (list nat))) (qr : option nat) : list (list nat) :=
  match mp with Some p => p | None => [seq 0 (match qr with Some q => q | None => 0 end)] end.

Lemma seq_NoDup_pat n : NoDup (concat [seq 0 n]).
Proof. cbn. rewrite app_nil_r. apply seq_NoDup. Qed.

Lemma tensored_inv mp qr cr lab circs pat :
  tensored_meas_cal mp qr cr lab = Ok (circs, pat) ->
  NoDup (concat pat) /\ pat = effective mp qr /\
  exists q m, let c := match cr with Some c => c | None => length (concat pat) end in
    In m (map (@length nat) pat) /\ (forall x, In x (map (@length nat) pat) -> x <= m) /\
    mapM (cal_circuit q c lab pat) (map (group_label (map (@length nat) pat)) (count_keys m)) = Ok circs.
Proof.
  intros H. unfold tensored_meas_cal in H.
  assert (Hgo : forall p q, NoDup (concat p) ->
     (do m <- max_e (map (length (A:=nat)) p);
      do circs <- mapM (cal_circuit q (match cr with Some c => c | None => length (concat p) end) lab p)
                    (map (group_label (map (length (A:=nat)) p)) (count_keys m));
      Ok (circs, p)) = Ok (circs, pat) ->
     NoDup (concat pat) /\ pat = p /\
     exists q m, let c := match cr with Some c => c | None => length (concat pat) end in
       In m (map (@length nat) pat) /\ (forall x, In x (map (@length nat) pat) -> x <= m) /\
       mapM (cal_circuit q c lab pat) (map (group_label (map (@length nat) pat)) (count_keys m)) = Ok circs).
  { intros p q Hnd Hgo. apply bind_Ok in Hgo. destruct Hgo as (m & Hm & Hgo).
    apply bind_Ok in Hgo. destruct Hgo as (cs & Hcs & Hgo). injection Hgo as -> ->.
    apply max_e_spec in Hm. destruct Hm. split; [exact Hnd|]. split; [reflexivity|].
    exists q, m. cbn zeta. auto. }
  destruct mp as [p|], qr as [q|]; cbn [effective]; try discriminate.
  - destruct (ListDec.NoDup_dec Nat.eq_dec (concat p)) as [Hnd|Hnd].
    + rewrite pattern_qubits_ok in H by exact Hnd. cbn [bind] in H. eapply Hgo; eauto.
    + rewrite pattern_qubits_err in H by exact Hnd. discriminate.
  - destruct (ListDec.NoDup_dec Nat.eq_dec (concat p)) as [Hnd|Hnd].
    + rewrite pattern_qubits_ok in H by exact Hnd. cbn [bind] in H.
      destruct (max_e (concat p)); cbn [bind] in H; [|discriminate]. eapply Hgo; eauto.
    + rewrite pattern_qubits_err in H by exact Hnd. discriminate.
  - cbn [bind] in H. eapply Hgo; [|exact H]. apply seq_NoDup_pat.
Qed.

Lemma Forall2_In_r {A B} (R : A -> B -> Prop) l l' b :
  Forall2 R l l' -> In b l' -> exists a, In a l /\ R a b.
Proof.
  induction 1 as [|a b' l l' Hab Hl IH]; intros []; [subst; exists a; split; [left|]; auto|].
  destruct IH as (a' & ? & ?); [assumption|]. exists a'; split; [right|]; auto.
Qed.

Lemma Forall2_len {A B} (R : A -> B -> Prop) l l' : Forall2 R l l' -> length l = length l'.
Proof. induction 1; cbn; congruence. Qed.

Lemma C06_lemma mp qr cr lab circs pat :
  tensored_meas_cal mp qr cr lab = Ok (circs, pat) -> concat pat <> [] ->
  NoDup (concat pat) /\ pat = effective mp qr /\
  forall c, In c circs -> exists b,
    c_name c = lab ++ str "cal_" ++ b /\
    length b = length (concat pat) /\ is_bits b /\
    length b <= c_ncl c /\
    noiseless_outcome c = repeat "0"%char (c_ncl c - length b) ++ b /\
    measurements (c_body c) = combine (concat pat) (seq 0 (length (concat pat))).
Proof.
  intros H Hne. apply tensored_inv in H. destruct H as (Hnd & Hpat & q & m & H).
  cbn zeta in H. destruct H as (Hm1 & Hm2 & Hcirc). split; [exact Hnd|]. split; [exact Hpat|].
  intros c Hc. apply mapM_Ok in Hcirc. destruct (Forall2_In_r _ _ _ _ Hcirc Hc) as (b & Hb & Hcc).
  apply in_map_iff in Hb. destruct Hb as (L & <- & HL).
  assert (Hm : 1 <= m).
  { destruct m; [|lia]. exfalso; apply Hne. clear -Hm2. induction pat as [|g pat IH]; [reflexivity|]. cbn.
    assert (length g <= 0) by (apply Hm2; left; reflexivity). destruct g; [|cbn in *; lia]. cbn.
    apply IH. intros x Hx; apply Hm2; right; exact Hx. }
  rewrite count_keys_all_bits in HL by exact Hm. apply all_bits_In in HL. destruct HL as [HLl HLb].
  set (sizes := map (@length nat) pat) in *.
  assert (Hlen : length (group_label sizes L) = length (concat pat)).
  { rewrite group_label_length, concat_length_sum; [reflexivity|]. intros s Hs; rewrite HLl; auto. }
  assert (Hbits : is_bits (group_label sizes L)) by (apply group_label_bits; exact HLb).
  apply cal_circuit_body in Hcc; [|exact Hlen]. destruct Hcc as (-> & Hq & Hcr). cbn zeta.
  exists (group_label sizes L). cbn [c_name c_ncl c_body].
  split; [reflexivity|]. split; [exact Hlen|]. split; [exact Hbits|]. split; [rewrite Hlen; exact Hcr|]. split.
  - unfold noiseless_outcome. cbn [c_ncl c_body]. rewrite cal_body_outcome; auto. rewrite Hlen; reflexivity.
  - unfold measurements. rewrite !flat_map_app. cbn [flat_map app].
    replace (flat_map _ (xs_of _)) with (@nil (nat * nat)).
    + cbn [app]. unfold ms_of. generalize (combine (concat pat) (seq 0 (length (concat pat)))). intros l.
      induction l as [|[a b] l IH]; cbn; [reflexivity|]. f_equal; exact IH.
    + symmetry. unfold xs_of. generalize (combine (concat pat) (rev (group_label sizes L))). intros l.
      induction l as [|[a b] l IH]; cbn [map concat fst snd]; [reflexivity|].
      rewrite flat_map_app. destruct (eqb b ch1); cbn; exact IH.
Qed.

Lemma C06_succeeds_lemma pat q cr lab :
  NoDup (concat pat) -> concat pat <> [] -> (forall x, In x (concat pat) -> x < q) ->
  (match cr with Some c => length (concat pat) <= c | None => True end) ->
  exists circs, tensored_meas_cal (Some pat) (Some q) cr lab = Ok (circs, pat).
Proof.
  intros Hnd Hne Hq Hcr. unfold tensored_meas_cal.
  rewrite pattern_qubits_ok by exact Hnd. cbn [bind].
  destruct (max_e (map (length (A:=nat)) pat)) as [m|] eqn:Em.
  2:{ destruct pat; [exfalso; apply Hne; reflexivity | discriminate]. }
  apply max_e_spec in Em. destruct Em as [Hm1 Hm2]. cbn [bind].
  set (c := match cr with Some c => c | None => length (concat pat) end).
  assert (Hm : 1 <= m).
  { destruct m; [|lia]. exfalso; apply Hne. clear -Hm2. induction pat as [|g pat IH]; [reflexivity|]. cbn.
    assert (length g <= 0) by (apply Hm2; left; reflexivity). destruct g; [|cbn in *; lia]. cbn.
    apply IH. intros x Hx; apply Hm2; right; exact Hx. }
  rewrite count_keys_all_bits by exact Hm.
  assert (Hex : forall ls, (forall L, In L ls -> In L (all_bits m)) ->
     exists circs, mapM (cal_circuit q c lab pat) (map (group_label (map (length (A:=nat)) pat)) ls) = Ok circs).
  { induction ls as [|L ls IH]; intros HL; cbn; [eexists; reflexivity|].
    destruct (cal_circuit_ok q c lab pat (group_label (map (length (A:=nat)) pat) L)) as (x & ->).
    - rewrite group_label_length, concat_length_sum; [reflexivity|].
      intros s Hs. specialize (HL L (or_introl eq_refl)). apply all_bits_In in HL. destruct HL as [-> _]. auto.
    - exact Hq.
    - unfold c; destruct cr; [assumption | lia].
    - destruct IH as (xs & ->); [intros; apply HL; right; assumption|]. eexists; reflexivity. }
  destruct (Hex (all_bits m) (fun _ h => h)) as (circs & ->). eexists; reflexivity.
Qed.

Lemma C06_default_register_lemma pat cr lab :
  NoDup (concat pat) -> concat pat <> [] ->
  (match cr with Some c => length (concat pat) <= c | None => True end) ->
  exists circs q, tensored_meas_cal (Some pat) None cr lab = Ok (circs, pat) /\
    In q (concat pat) /\ (forall x, In x (concat pat) -> x <= q) /\ forall c, In c circs -> c_nq c = q + 1.
Proof.
  intros Hnd Hne Hcr. destruct (max_e (concat pat)) as [m|] eqn:Em.
  2:{ exfalso. destruct (concat pat); [apply Hne; reflexivity | discriminate]. }
  pose proof Em as Em'. apply max_e_spec in Em'. destruct Em' as [Hm1 Hm2].
  destruct (C06_succeeds_lemma pat (m + 1) cr lab Hnd Hne) as (circs & Hc); [|exact Hcr|].
  { intros x Hx. specialize (Hm2 x Hx). lia. }
  assert (E : tensored_meas_cal (Some pat) None cr lab = tensored_meas_cal (Some pat) (Some (m + 1)) cr lab).
  { unfold tensored_meas_cal. rewrite pattern_qubits_ok by exact Hnd. cbn [bind]. rewrite Em. reflexivity. }
  exists circs, m. rewrite E. split; [exact Hc|]. split; [exact Hm1|]. split; [exact Hm2|].
  intros c Hin. unfold tensored_meas_cal in Hc. rewrite pattern_qubits_ok in Hc by exact Hnd. cbn [bind] in Hc.
  apply bind_Ok in Hc as (k & _ & Hc). apply bind_Ok in Hc as (cs & Hcs & [= ->]).
  apply mapM_Ok in Hcs. destruct (Forall2_In_r _ _ _ _ Hcs Hin) as (b & _ & Hb).
  unfold cal_circuit in Hb. apply bind_Ok in Hb as (g1 & _ & Hb). apply bind_Ok in Hb as (g2 & _ & [= <-]). reflexivity.
Qed.

Lemma C06_whole_register_lemma q cr lab : 1 <= q ->
  (match cr with Some c => q <= c | None => True end) ->
  exists circs, tensored_meas_cal None (Some q) cr lab = Ok (circs, [seq 0 q]).
Proof.
  intros Hq Hcr. destruct (C06_succeeds_lemma [seq 0 q] q cr lab) as (circs & Hc).
  - apply seq_NoDup_pat.
  - cbn. destruct q; [lia | discriminate].
  - intros x. cbn. rewrite app_nil_r. intros Hx. apply in_seq in Hx. lia.
  - cbn. rewrite app_nil_r, seq_length. exact Hcr.
  - exists circs. unfold tensored_meas_cal in Hc |- *. rewrite pattern_qubits_ok in Hc by apply seq_NoDup_pat. exact Hc.
Qed.

Lemma C07_lemma mp qr cr lab circs pat :
  tensored_meas_cal mp qr cr lab = Ok (circs, pat) -> concat pat <> [] ->
  exists m labels,
    In m (map (@length nat) pat) /\ (forall g, In g pat -> length g <= m) /\
    map c_name circs = map (fun b => lab ++ str "cal_" ++ b) labels /\
    length circs = 2 ^ m /\ NoDup (map c_name circs) /\
    forall g y, g < length pat -> length y = length (nth g pat []) -> is_bits y ->
      length (filter (fun b => eqb (group_part (map (@length nat) pat) g b) y) labels)
      = 2 ^ (m - length y).
Proof.
  intros H Hne. apply tensored_inv in H. destruct H as (Hnd & Hpat & q & m & H).
  cbn zeta in H. destruct H as (Hm1 & Hm2 & Hcirc).
  assert (Hm : 1 <= m).
  { destruct m; [|lia]. exfalso; apply Hne. clear -Hm2. induction pat as [|g pat IH]; [reflexivity|]. cbn.
    assert (length g <= 0) by (apply Hm2; left; reflexivity). destruct g; [|cbn in *; lia]. cbn.
    apply IH. intros x Hx; apply Hm2; right; exact Hx. }
  rewrite count_keys_all_bits in Hcirc by exact Hm.
  set (sizes := map (@length nat) pat) in *. apply mapM_Ok in Hcirc.
  exists m, (map (group_label sizes) (all_bits m)).
  assert (Hnames : map c_name circs = map (fun b => lab ++ str "cal_" ++ b) (map (group_label sizes) (all_bits m))).
  { clear -Hcirc. induction Hcirc as [|b c l l' Hb Hl IH]; cbn; [reflexivity|]. f_equal; [|exact IH].
    unfold cal_circuit in Hb. apply bind_Ok in Hb. destruct Hb as (g1 & _ & Hb).
    apply bind_Ok in Hb. destruct Hb as (g2 & _ & Hb). injection Hb as <-. reflexivity. }
  split; [exact Hm1|]. split; [intros g Hg; apply Hm2; apply in_map; exact Hg|].
  split; [exact Hnames|]. split; [|split].
  - apply Forall2_len in Hcirc. rewrite <- Hcirc, map_length, all_bits_length. reflexivity.
  - rewrite Hnames, map_map.
    apply In_nth_error in Hm1. destruct Hm1 as (g & Hg).
    assert (Hgl : g < length sizes) by (apply nth_error_Some; congruence).
    apply (nth_error_nth _ _ 0) in Hg.
    apply (NoDup_map_inv (fun n => firstn m (group_part sizes g (skipn (length lab + 4) n)))).
    rewrite map_map. rewrite (map_ext_in _ (fun L => L)).
    + rewrite map_id. apply all_bits_NoDup.
    + intros L HL. apply all_bits_In in HL. destruct HL as [HLl _].
      rewrite app_assoc. rewrite skipn_app.
      rewrite skipn_all2 by (rewrite app_length; cbn; lia).
      rewrite app_length. change (length (str "cal_")) with 4. rewrite Nat.sub_diag. cbn [skipn app].
      rewrite group_part_label by (auto; intros s Hs; rewrite HLl; auto).
      rewrite Hg, firstn_firstn, Nat.min_id. apply firstn_all2. lia.
  - intros g y Hg Hy Hb. rewrite filter_map_length.
    rewrite <- (count_prefix y m Hb).
    + apply filter_ext_length. intros L HL. apply all_bits_In in HL. destruct HL as [HLl _].
      rewrite group_part_label.
      * unfold sizes. rewrite nth_indep with (d' := length (@nil nat)) by (rewrite map_length; exact Hg).
        rewrite map_nth, <- Hy. reflexivity.
      * intros s Hs; rewrite HLl; auto.
      * unfold sizes; rewrite map_length; exact Hg.
    + rewrite Hy. apply Hm2. apply in_map, nth_In, Hg.
Qed.

Lemma C07_reject_lemma pat qr cr lab :
  ~ NoDup (concat pat) -> tensored_meas_cal (Some pat) qr cr lab = Err QiskitError.
Proof.
  intros H. unfold tensored_meas_cal. rewrite pattern_qubits_err by exact H.
  destruct qr; reflexivity.
Qed.

Lemma complete_lemma ql qr cr lab circs labels :
  complete_meas_cal ql qr cr lab = Ok (circs, labels) ->
  let used := match ql with Some l => l | None => seq 0 (match qr with Some q => q | None => 0 end) end in
  used <> [] ->
  labels = count_keys (length used) /\ NoDup used /\
  map c_name circs = map (fun b => lab ++ str "cal_" ++ b) labels /\
  forall c b, In c circs -> c_name c = lab ++ str "cal_" ++ b ->
    length used <= c_ncl c /\
    noiseless_outcome c = repeat "0"%char (c_ncl c - length used) ++ b /\
    measurements (c_body c) = combine used (seq 0 (length used)).
Proof.
  intros H used Hne. unfold complete_meas_cal in H.
  assert (Hgo : exists q, (do r <- tensored_meas_cal (Some [used]) (Some q) cr lab;
     Ok (fst r, count_keys (length used))) = Ok (circs, labels)).
  { destruct ql as [l|], qr as [q|]; try discriminate; unfold used.
    - exists q. exact H.
    - destruct (max_e l) as [m|]; cbn [bind] in H; [|discriminate]. exists (m + 1). exact H.
    - exists q. exact H. }
  destruct Hgo as (q & Hgo). apply bind_Ok in Hgo. destruct Hgo as ([cs p] & Ht & Hgo).
  cbn [fst] in Hgo. injection Hgo as -> <-.
  pose proof (tensored_inv _ _ _ _ _ _ Ht) as (Hnd & Hp & q' & m & Hx). cbn [effective] in Hp. subst p.
  cbn in Hnd. rewrite app_nil_r in Hnd.
  cbn zeta in Hx. cbn [map] in Hx. destruct Hx as ([Hm|[]] & _ & Hcirc). subst m.
  apply C06_lemma in Ht; [|cbn; rewrite app_nil_r; exact Hne].
  destruct Ht as (_ & _ & Ht). cbn [concat] in Ht. rewrite app_nil_r in Ht.
  split; [reflexivity|]. split; [exact Hnd|]. split.
  - assert (Hn : length used >= 1) by (destruct used; [congruence | cbn; lia]).
    apply mapM_Ok in Hcirc. rewrite count_keys_all_bits in * by exact Hn.
    assert (Hid : map (group_label [length used]) (all_bits (length used)) = all_bits (length used)).
    { rewrite <- (map_id (all_bits (length used))) at 2. apply map_ext_in. intros L HL.
      apply all_bits_In in HL. destruct HL as [HL _]. rewrite group_label_eq. cbn. rewrite app_nil_r.
      apply firstn_all2. lia. }
    rewrite Hid in Hcirc. clear -Hcirc.
    induction Hcirc as [|b c l l' Hb Hl IH]; cbn; [reflexivity|]. f_equal; [|exact IH].
    unfold cal_circuit in Hb. apply bind_Ok in Hb. destruct Hb as (g1 & _ & Hb).
    apply bind_Ok in Hb. destruct Hb as (g2 & _ & Hb). injection Hb as <-. reflexivity.
  - intros c b Hc Hname. destruct (Ht c Hc) as (b' & Hn & Hl & _ & Hle & Ho & Hm).
    rewrite Hname in Hn. apply app_inv_head in Hn. apply app_inv_head in Hn. subst b'.
    rewrite Hl in *. auto.
Qed.
