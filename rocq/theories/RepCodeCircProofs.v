(** Execution of repetition-code circuits with faults. *)
From Verif Require Import Base BasisSem RepCodeModel RepCodeSpec.

(** * Shape of the circuits *)
Definition rounds_from (d T t k : nat) : list instr :=
  flat_map (fun r => round_gates d r (r <? T - 1) false) (seq t k).
Definition tail_gates (d T t : nat) : list instr := rounds_from d T t (T - t) ++ readout_gates d T.
Definition prep (d : nat) (b : bool) : list instr := if b then x_gates d false else [].

Lemma iter_syndrome k c0 :
  rc_T c0 = 0 ->
  let c := Nat.iter k (fun c => rc_syndrome c true false) c0 in
  rc_d c = rc_d c0 /\ rc_T c = k /\
  rc_circ0 c = rc_circ0 c0 ++ flat_map (fun r => round_gates (rc_d c0) r true false) (seq 0 k) /\
  rc_circ1 c = rc_circ1 c0 ++ flat_map (fun r => round_gates (rc_d c0) r true false) (seq 0 k) /\
  rc_cregs c = rc_cregs c0 ++ repeat (rc_d c0 - 1) k.
Proof.
  intros H0. induction k as [|k IH]; cbn zeta.
  - cbn. rewrite !app_nil_r, H0. auto.
  - cbn zeta in IH. destruct IH as (I1 & I2 & I3 & I4 & I5). change (Nat.iter (S k) (fun c => rc_syndrome c true false) c0)
      with (rc_syndrome (Nat.iter k (fun c => rc_syndrome c true false) c0) true false).
    set (cc := Nat.iter k _ c0) in *. unfold rc_syndrome. cbn [rc_d rc_T rc_circ0 rc_circ1 rc_cregs].
    rewrite I1, I2, I3, I4, I5. rewrite seq_S, flat_map_app. cbn [flat_map]. rewrite app_nil_r, !app_assoc.
    repeat split; try lia; try (rewrite <- !app_assoc; reflexivity).
    rewrite <- app_assoc. f_equal. clear. replace (S k) with (k + 1) by lia. rewrite repeat_app. reflexivity.
Qed.

Lemma code_shape d T : 1 <= T ->
  let c := repetition_code d T in
  rc_d c = d /\ rc_T c = T /\ rc_cregs c = repeat (d - 1) T ++ [d] /\
  forall b, rc_circ c b = prep d b ++ tail_gates d T 0.
Proof.
  intros HT. cbn zeta. unfold repetition_code.
  set (c1 := rc_x _ false true false).
  pose proof (iter_syndrome (T - 1) c1 eq_refl) as (I1 & I2 & I3 & I4 & I5).
  destruct (Nat.eqb_spec T 0); [lia|].
  set (cc := Nat.iter (T - 1) _ c1) in *.
  unfold rc_readout, rc_syndrome, rc_circ. cbn [rc_d rc_T rc_circ0 rc_circ1 rc_cregs].
  rewrite I1, I2, I3, I4, I5. clear I1 I2 I3 I4 I5. cbn [c1 rc_x rc_d rc_circ0 rc_circ1 rc_cregs app].
  assert (Hr : flat_map (fun r => round_gates d r true false) (seq 0 (T - 1)) ++ round_gates d (T - 1) false false
               = rounds_from d T 0 T).
  { unfold rounds_from. replace (seq 0 T) with (seq 0 (S (T - 1))) by (f_equal; lia). rewrite seq_S, flat_map_app. cbn [flat_map].
    rewrite app_nil_r. cbn [plus]. replace (T - 1 <? T - 1) with false by (symmetry; apply Nat.ltb_irrefl). f_equal.
    rewrite !flat_map_concat_map. f_equal. apply map_ext_in. intros r Hr. apply in_seq in Hr.
    destruct (Nat.ltb_spec r (T - 1)); [reflexivity | lia]. }
  split; [reflexivity|]. split; [lia|]. split.
  - f_equal. replace (repeat (d - 1) T) with (repeat (d - 1) (T - 1 + 1)) by (f_equal; lia). rewrite repeat_app. reflexivity.
  - intros b. unfold tail_gates, prep. rewrite Nat.sub_0_r. replace (T - 1 + 1) with T by lia.
    destruct b; cbn [app]; rewrite <- Hr, <- !app_assoc; reflexivity.
Qed.

(** * Execution lemmas *)
Lemma exec_cx (d : nat) (l : list (nat * nat)) s :
  (forall a b, In (a, b) l -> d - 1 <= a /\ b < d - 1) ->
  let s' := exec (map (fun '(a, b) => ICX a b) l) s in
  (forall q, d - 1 <= q -> qb s' q = qb s q) /\
  (forall j, j < d - 1 -> qb s' j = xorb (qb s j) (fold_right xorb false (map (fun '(a, b) => (b =? j) && qb s a) l))) /\
  (forall i, cb s' i = cb s i).
Proof.
  revert s. induction l as [|[a b] l IH]; intros s Hl; cbn zeta.
  - cbn. repeat split; intros; try rewrite xorb_false_r; reflexivity.
  - cbn [map fold_right]. rewrite exec_cons. set (s1 := exec_instr s (ICX a b)).
    destruct (Hl a b (or_introl eq_refl)) as [Ha Hb].
    specialize (IH s1 (fun a' b' Hi => Hl a' b' (or_intror Hi))). cbn zeta in IH. destruct IH as (I1 & I2 & I3).
    assert (Hc : forall q, d - 1 <= q -> qb s1 q = qb s q).
    { intros q Hq. cbn. apply upd_other. lia. }
    repeat split.
    + intros q Hq. rewrite I1, Hc by exact Hq. reflexivity.
    + intros j Hj. rewrite I2 by exact Hj.
      rewrite (map_ext_in _ (fun '(a, b) => (b =? j) && qb s a)).
      2:{ intros [a' b'] Hi. rewrite Hc; [reflexivity|]. apply (Hl a' b'). right; exact Hi. }
      cbn [s1 exec_instr qb]. unfold upd. rewrite (Nat.eqb_sym b j).
      destruct (Nat.eqb_spec j b) as [->|Hn]; cbn [andb].
      * rewrite <- !xorb_assoc. f_equal. apply xorb_comm.
      * rewrite xorb_false_l. reflexivity.
    + intros i. rewrite I3. reflexivity.
Qed.

Definition meas_seg (d t : nat) (reset : bool) (js : list nat) : list instr :=
  flat_map (fun j => IMeasure (linkq j) (t * (d - 1) + j) :: (if reset then [IReset (linkq j)] else [])) js.

Lemma exec_meas d t reset js s :
  NoDup js -> (forall j, In j js -> j < d - 1) ->
  let s' := exec (meas_seg d t reset js) s in
  (forall q, qb s' q = if reset && existsb (Nat.eqb q) js then false else qb s q) /\
  (forall j, j < d - 1 -> cb s' (t * (d - 1) + j) = if existsb (Nat.eqb j) js then qb s j else cb s (t * (d - 1) + j)) /\
  (forall i, i < t * (d - 1) -> cb s' i = cb s i).
Proof.
  revert s. induction js as [|j js IH]; intros s Hnd Hlt; cbn zeta.
  - cbn. rewrite Bool.andb_false_r. auto.
  - inversion Hnd as [|? ? Hni Hnd']; subst. unfold meas_seg. cbn [flat_map]. rewrite exec_app.
    set (s1 := exec (_ :: _) s).
    assert (Hq1 : forall q, qb s1 q = if reset && (q =? j) then false else qb s q).
    { intros q. unfold s1. destruct reset; cbn; [|reflexivity]. unfold upd, linkq. destruct (q =? j); reflexivity. }
    assert (Hc1 : forall i, cb s1 i = if i =? t * (d - 1) + j then qb s j else cb s i).
    { intros i. unfold s1. destruct reset; cbn; unfold upd, linkq; reflexivity. }
    specialize (IH s1 Hnd' (fun a Ha => Hlt a (or_intror Ha))). cbn zeta in IH. destruct IH as (I1 & I2 & I3).
    pose proof (Hlt j (or_introl eq_refl)) as Hj. fold (meas_seg d t reset js).
    repeat split.
    + intros q. rewrite I1, Hq1. cbn [existsb]. destruct reset; cbn [andb]; [|reflexivity].
      destruct (q =? j), (existsb (Nat.eqb q) js); reflexivity.
    + intros k Hk. rewrite I2 by exact Hk. cbn [existsb]. rewrite Hc1, Hq1.
      destruct (Nat.eqb_spec k j) as [->|Hn].
      * cbn [orb]. replace (existsb (Nat.eqb j) js) with false.
        2:{ symmetry. rewrite <- Bool.not_true_iff_false, existsb_exists. intros (x & Hx & E).
            apply Nat.eqb_eq in E; subst; auto. }
        rewrite Nat.eqb_refl. reflexivity.
      * cbn [orb]. rewrite Bool.andb_false_r. destruct (Nat.eqb_spec (t * (d - 1) + k) (t * (d - 1) + j)); [lia|].
        reflexivity.
    + intros i Hi. rewrite I3, Hc1 by exact Hi. destruct (Nat.eqb_spec i (t * (d - 1) + j)); [lia | reflexivity].
Qed.

Lemma exec_readout d T js s :
  NoDup js -> (forall j, In j js -> j < d) ->
  let s' := exec (map (fun j => IMeasure (codeq d j) (T * (d - 1) + j)) js) s in
  (forall j, j < d -> cb s' (T * (d - 1) + j) = if existsb (Nat.eqb j) js then qb s (codeq d j) else cb s (T * (d - 1) + j)) /\
  (forall i, i < T * (d - 1) -> cb s' i = cb s i).
Proof.
  revert s. induction js as [|j js IH]; intros s Hnd Hlt; cbn zeta; [cbn; auto|].
  inversion Hnd as [|? ? Hni Hnd']; subst. cbn [map]. rewrite exec_cons. set (s1 := exec_instr s _).
  specialize (IH s1 Hnd' (fun a Ha => Hlt a (or_intror Ha))). cbn zeta in IH. destruct IH as (I2 & I3).
  assert (Hc1 : forall i, cb s1 i = if i =? T * (d - 1) + j then qb s (codeq d j) else cb s i) by (intros; reflexivity).
  split.
  - intros k Hk. rewrite I2 by exact Hk. cbn [existsb]. rewrite Hc1.
    destruct (Nat.eqb_spec k j) as [->|Hn]; cbn [orb].
    + replace (existsb (Nat.eqb j) js) with false.
      2:{ symmetry. rewrite <- Bool.not_true_iff_false, existsb_exists. intros (x & Hx & E).
          apply Nat.eqb_eq in E; subst; auto. }
      rewrite Nat.eqb_refl. reflexivity.
    + destruct (Nat.eqb_spec (T * (d - 1) + k) (T * (d - 1) + j)); [lia|]. reflexivity.
  - intros i Hi. rewrite I3, Hc1 by exact Hi. destruct (Nat.eqb_spec i (T * (d - 1) + j)); [lia | reflexivity].
Qed.

(** The controlled-NOTs of a round, as pairs. *)
Definition cx1 (d : nat) := map (fun j => (codeq d j, linkq j)) (seq 0 (d - 1)).
Definition cx2 (d : nat) := map (fun j => (codeq d (j + 1), linkq j)) (seq 0 (d - 1)).
Definition cxs (d : nat) := cx1 d ++ cx2 d.
Definition icx (p : nat * nat) : instr := let '(a, b) := p in ICX a b.

Lemma round_shape d t reset :
  round_gates d t reset false = map icx (cxs d) ++ meas_seg d t reset (seq 0 (d - 1)).
Proof.
  unfold round_gates, cxs, cx1, cx2. rewrite app_nil_r, map_app, !map_map, <- app_assoc. reflexivity.
Qed.

Lemma cxs_In d a b : In (a, b) (cxs d) <-> b < d - 1 /\ (a = codeq d b \/ a = codeq d (b + 1)).
Proof.
  unfold cxs, cx1, cx2. rewrite in_app_iff, !in_map_iff. split.
  - intros [(j & E & Hj)|(j & E & Hj)]; injection E as <- <-; apply in_seq in Hj; unfold linkq; intuition lia.
  - intros [Hb [-> | ->]]; [left|right]; exists b; (split; [reflexivity | apply in_seq; lia]).
Qed.

Lemma cxs_bounds d a b : In (a, b) (cxs d) -> d - 1 <= a /\ b < d - 1.
Proof. intros H; apply cxs_In in H. unfold codeq in H. lia. Qed.

Lemma fold_xor_app (l l' : list bool) : fold_right xorb false (l ++ l') = xorb (fold_right xorb false l) (fold_right xorb false l').
Proof. induction l as [|a l IH]; cbn; [destruct (fold_right xorb false l'); reflexivity|]. rewrite IH, xorb_assoc. reflexivity. Qed.

Lemma fold_xor_pick (n j : nat) (f : nat -> bool) : forall i, i <= j < i + n ->
  fold_right xorb false (map (fun k => (k =? j) && f k) (seq i n)) = f j.
Proof.
  induction n as [|n IH]; intros i Hj; [lia|]. cbn [seq map fold_right].
  destruct (Nat.eqb_spec i j) as [->|Hn]; cbn [andb].
  - replace (fold_right xorb false _) with false; [apply xorb_false_r|].
    symmetry. clear IH Hj. assert (H : forall i, j < i -> fold_right xorb false (map (fun k => (k =? j) && f k) (seq i n)) = false).
    { induction n as [|n IHn]; intros i Hi; [reflexivity|]. cbn [seq map fold_right].
      destruct (Nat.eqb_spec i j); [lia|]. cbn [andb]. rewrite xorb_false_l. apply IHn. lia. }
    apply H. lia.
  - rewrite xorb_false_l. apply IH. lia.
Qed.

Definition par (l : list (nat * nat)) (j : nat) (f : nat -> bool) : bool :=
  fold_right xorb false (map (fun '(a, b) => (b =? j) && f a) l).

Lemma par_full d j f : j < d - 1 -> par (cxs d) j f = xorb (f (codeq d j)) (f (codeq d (j + 1))).
Proof.
  intros Hj. unfold par, cxs, cx1, cx2. rewrite map_app, !map_map, fold_xor_app. unfold linkq.
  rewrite (fold_xor_pick (d - 1) j (fun k => f (codeq d k))) by lia.
  rewrite (fold_xor_pick (d - 1) j (fun k => f (codeq d (k + 1)))) by lia. reflexivity.
Qed.

Lemma existsb_seq n j : existsb (Nat.eqb j) (seq 0 n) = (j <? n).
Proof.
  destruct (Nat.ltb_spec j n).
  - apply existsb_exists. exists j. split; [apply in_seq; lia | apply Nat.eqb_refl].
  - rewrite <- Bool.not_true_iff_false, existsb_exists. intros (x & Hx & E). apply Nat.eqb_eq in E. apply in_seq in Hx. lia.
Qed.

(** One whole round. *)
Lemma exec_round d t reset s :
  let s' := exec (round_gates d t reset false) s in
  (forall q, d - 1 <= q -> qb s' q = qb s q) /\
  (reset = true -> forall j, j < d - 1 -> qb s' j = false) /\
  (forall j, j < d - 1 -> cb s' (t * (d - 1) + j) = xorb (qb s j) (xorb (qb s (codeq d j)) (qb s (codeq d (j + 1))))) /\
  (forall i, i < t * (d - 1) -> cb s' i = cb s i).
Proof.
  cbn zeta. rewrite round_shape, exec_app.
  pose proof (exec_cx d (cxs d) s (cxs_bounds d)) as (C1 & C2 & C3). cbn zeta in *.
  change (fun '(a, b) => ICX a b) with icx in *. set (s1 := exec (map icx (cxs d)) s) in *.
  pose proof (exec_meas d t reset (seq 0 (d - 1)) s1 (seq_NoDup _ _) (fun j Hj => proj2 (proj1 (in_seq _ _ _) Hj))) as (M1 & M2 & M3).
  cbn zeta in *. repeat split.
  - intros q Hq. rewrite M1, existsb_seq. destruct (Nat.ltb_spec q (d - 1)); [lia|]. rewrite Bool.andb_false_r. auto.
  - intros -> j Hj. rewrite M1, existsb_seq. destruct (Nat.ltb_spec j (d - 1)); [reflexivity | lia].
  - intros j Hj. rewrite M2 by exact Hj. rewrite existsb_seq. destruct (Nat.ltb_spec j (d - 1)); [|lia].
    rewrite C2 by exact Hj. f_equal. apply par_full; exact Hj.
  - intros i Hi. rewrite M3, C3 by exact Hi. reflexivity.
Qed.

(** All rounds from [t] on, and the readout. *)
Lemma exec_tail d T : forall k t s, k = T - t -> t <= T ->
  (forall j, j < d - 1 -> qb s j = false) ->
  let s' := exec (tail_gates d T t) s in
  let c j := qb s (codeq d j) in
  (forall r j, t <= r < T -> j < d - 1 -> cb s' (r * (d - 1) + j) = xorb (c j) (c (j + 1))) /\
  (forall j, j < d -> cb s' (T * (d - 1) + j) = c j) /\
  (forall i, i < t * (d - 1) -> cb s' i = cb s i).
Proof.
  induction k as [|k IH]; intros t s Hk Ht Hl; cbn zeta; unfold tail_gates; rewrite <- Hk.
  - assert (t = T) by lia; subst t. cbn [rounds_from seq flat_map app]. unfold readout_gates.
    pose proof (exec_readout d T (seq 0 d) s (seq_NoDup _ _) (fun j Hj => proj2 (proj1 (in_seq _ _ _) Hj))) as (R1 & R2).
    cbn zeta in *. repeat split; [intros; lia | | exact R2].
    intros j Hj. rewrite R1 by exact Hj. rewrite existsb_seq. destruct (Nat.ltb_spec j d); [reflexivity | lia].
  - change (rounds_from d T t (S k)) with (round_gates d t (t <? T - 1) false ++ rounds_from d T (S t) k).
    rewrite <- app_assoc, exec_app.
    pose proof (exec_round d t (t <? T - 1) s) as (R1 & R2 & R3 & R4). cbn zeta in *.
    set (s1 := exec (round_gates d t (t <? T - 1) false) s) in *.
    assert (Hc : forall j, qb s1 (codeq d j) = qb s (codeq d j)) by (intros; apply R1; unfold codeq; lia).
    assert (Hfin : forall r j, r = t -> j < d - 1 ->
        cb s1 (r * (d - 1) + j) = xorb (qb s (codeq d j)) (qb s (codeq d (j + 1)))).
    { intros r j -> Hj. rewrite R3, Hl, xorb_false_l by exact Hj. reflexivity. }
    destruct (Nat.ltb_spec t (T - 1)).
    + specialize (IH (S t) s1 ltac:(lia) ltac:(lia) (R2 eq_refl)). cbn zeta in IH.
      unfold tail_gates in IH. replace (T - S t) with k in IH by lia.
      destruct IH as (I1 & I2 & I3). repeat split.
      * intros r j Hr Hj. destruct (Nat.eq_dec r t) as [->|Hn].
        -- rewrite I3; [apply Hfin; auto|]. cbn. nia.
        -- rewrite I1 by lia. rewrite !Hc. reflexivity.
      * intros j Hj. rewrite I2, Hc by exact Hj. reflexivity.
      * intros i Hi. rewrite I3 by (cbn; lia). apply R4; exact Hi.
    + assert (Hk0 : k = 0) by lia. subst k. assert (t = T - 1) by lia. cbn [rounds_from seq flat_map app]. unfold readout_gates.
      pose proof (exec_readout d T (seq 0 d) s1 (seq_NoDup _ _) (fun j Hj => proj2 (proj1 (in_seq _ _ _) Hj))) as (Q1 & Q2).
      cbn zeta in *. repeat split.
      * intros r j Hr Hj. rewrite Q2 by nia. apply Hfin; [lia | exact Hj].
      * intros j Hj. rewrite Q1 by exact Hj. rewrite existsb_seq. destruct (Nat.ltb_spec j d); [apply Hc | lia].
      * intros i Hi. rewrite Q2 by nia. apply R4; exact Hi.
Qed.
