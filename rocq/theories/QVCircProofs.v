(** Proofs about the quantum-volume circuits. *)
From Coq Require Import QArith Sorting.Sorted.
From Verif Require Import Base ResultFacts LinAlg PyStr QSem DihedralModel RBSeqModel RBSeqSpec RBSeqActProofs StdGates AccSpec AccProbProofs EmbedProofs QVModel QVSpec.
Open Scope nat_scope.

Lemma nodupb_spec l : nodupb l = true <-> NoDup l.
Proof.
  induction l as [|a l IH]; cbn [nodupb]; [split; [constructor | reflexivity]|]. rewrite NoDup_cons_iff, andb_true_iff, IH, negb_true_iff, mem_not_In. reflexivity.
Qed.
Lemma ascending_nodup l : ascending l -> NoDup l.
Proof.
  intros H. apply Sorted_StronglySorted in H; [|intros a b c; apply Nat.lt_trans].
  induction H as [|a l H IH Ha]; constructor; auto. intros Hi. rewrite Forall_forall in Ha. specialize (Ha a Hi). lia.
Qed.
Lemma max_of_spec l m : max_of l = Ok m -> m = fold_right Nat.max 0 l /\ forall q, In q l -> q <= m.
Proof.
  destruct l as [|a l]; [discriminate|]. intros H. cbn [max_of] in H. injection H as <-.
  assert (E : fold_left Nat.max l a = fold_right Nat.max 0 (a :: l)).
  { cbn [fold_right]. revert a; induction l as [|b l IH]; intros a; cbn [fold_left fold_right]; [lia|]. rewrite IH. lia. }
  split; [exact E|]. rewrite E. clear E. generalize (a :: l). intros l0. induction l0 as [|b l0 IH]; cbn [fold_right]; intros q Hq; [destruct Hq|]. destruct Hq as [<-|Hq]; [lia|]. specialize (IH q Hq). lia.
Qed.

(** A sorted list that is the part of [0..n-1] in it. *)
Lemma filter_ascending pat n : ascending pat -> (forall q, In q pat -> q < n) -> filter (fun q => mem q pat) (seq 0 n) = pat.
Proof.
  intros Ha Hl. assert (X : forall n k pat, StronglySorted lt pat -> (forall q, In q pat -> k <= q < k + n) -> filter (fun q => mem q pat) (seq k n) = pat).
  { clear. induction n as [|n IH]; intros k pat Hs Hr; cbn [seq filter].
    - destruct pat as [|q pat]; [reflexivity|]. specialize (Hr q (or_introl eq_refl)). lia.
    - destruct pat as [|q pat].
      + rewrite (IH (S k) [] Hs); [reflexivity | intros q []].
      + apply StronglySorted_inv in Hs. destruct Hs as [Hs Hq]. rewrite Forall_forall in Hq.
        destruct (Nat.eq_dec k q) as [<-|Hne].
        * replace (mem k (k :: pat)) with true by (symmetry; apply mem_In; left; reflexivity). f_equal.
          rewrite (filter_ext_in _ (fun q => mem q pat)).
          -- apply IH; auto. intros q Hi. specialize (Hq q Hi). specialize (Hr q (or_intror Hi)). lia.
          -- intros q Hi. apply in_seq in Hi. destruct (mem q pat) eqn:E.
             ++ apply mem_In in E. apply mem_In. right; exact E.
             ++ apply mem_not_In in E. apply mem_not_In. intros [<-|Hc]; [lia | contradiction].
        * replace (mem k (q :: pat)) with false.
          -- apply IH; [constructor; auto; rewrite Forall_forall; exact Hq|]. intros q' [<-|Hi]; [specialize (Hr q (or_introl eq_refl)); lia|]. specialize (Hq q' Hi). pose proof (Hr q (or_introl eq_refl)). pose proof (Hr q' (or_intror Hi)). lia.
          -- symmetry. apply mem_not_In. intros [E|Hi]; [congruence|]. specialize (Hq k Hi). specialize (Hr q (or_introl eq_refl)). lia. }
  apply X; [apply Sorted_StronglySorted; [intros a b c; apply Nat.lt_trans | exact Ha]|]. intros q Hq. specialize (Hl q Hq). lia.
Qed.

(** Every qubit has a gate. *)

Lemma active_placed N pat body : ascending pat -> (forall q, In q pat -> q < N) -> fits (length pat) body -> touches_all (length pat) body ->
  active N (map (on pat) body) = pat.
Proof.
  intros Ha Hl Hf Ht. rewrite <- (filter_ascending pat N Ha Hl) at 2. unfold active. apply filter_ext_in. intros q _.
  destruct (mem q pat) eqn:E.
  - apply mem_In in E. apply in_nth in E. destruct E as (i & Hi & <-). destruct (Ht i Hi) as (g & Hg & Hq).
    apply existsb_exists. exists (on pat g). split; [apply in_map; exact Hg|]. apply mem_In. cbn [on gqubits]. unfold place. apply in_map_iff. exists i; auto.
  - apply mem_not_In in E. destruct (existsb _ _) eqn:Ex; auto. exfalso. apply existsb_exists in Ex. destruct Ex as (g & Hg & Hm). apply mem_In in Hm.
    apply E. apply in_map_iff in Hg. destruct Hg as (g0 & <- & Hg0). unfold fits in Hf. rewrite Forall_forall in Hf. destruct (Hf g0 Hg0) as (_ & _ & Hq).
    cbn [on gqubits] in Hm. apply (in_place pat (gqubits g0)); auto.
Qed.

Lemma compose_all pat body : NoDup pat -> fits (length pat) body -> mapM (compose_on pat) body = Ok (map (on pat) body).
Proof.
  intros Hn Hf. apply mapM_ok. intros g Hg. unfold fits in Hf. rewrite Forall_forall in Hf. destruct (Hf g Hg) as (_ & Hnd & Hq).
  unfold compose_on. rewrite (mapM_ok _ (fun q => nth q pat 0)).
  - cbn [bind]. fold (place pat (gqubits g)). replace (nodupb (place pat (gqubits g))) with true; [reflexivity|]. symmetry. apply nodupb_spec. apply nodup_place; auto.
  - intros q Hi. apply index_ok. apply nth_error_nth'. apply Hq, Hi.
Qed.

Lemma on_seq d body : fits d body -> map (on (seq 0 d)) body = body.
Proof.
  intros Hf. rewrite <- (map_id body) at 2. apply map_ext_in. intros g Hg. unfold fits in Hf. rewrite Forall_forall in Hf. destruct (Hf g Hg) as (_ & _ & Hq).
  unfold on, place. destruct g as [n p qs]. cbn [gname gparams gqubits] in *. f_equal. rewrite <- (map_id qs) at 2. apply map_ext_in. intros q Hi. rewrite seq_nth by (apply Hq, Hi). reflexivity.
Qed.

Section C.
Variable lib : nat -> option Z -> nat -> list ginstr.
Variable rng : Z -> nat -> Z.

(** The gates drawn for a circuit. *)
Definition drawn (seed : option Z) (k d : nat) : list ginstr :=
  lib d (match seed with Some z => if (z =? 0)%Z then None else Some (rng z k) | None => None end) k.

Lemma seq_ascending k n : ascending (seq k n).
Proof.
  revert k; induction n as [|n IH]; intros k; cbn [seq]; constructor; [apply IH|]. destruct n; cbn [seq]; constructor; lia.
Qed.
Lemma placed_ascending l : ascending l -> ascending (placed_on l).
Proof. unfold placed_on. destruct (_ =? _); auto. intros _. apply seq_ascending. Qed.
Lemma placed_length l : length (placed_on l) = length l.
Proof. unfold placed_on. destruct (_ =? _); auto. apply seq_length. Qed.

Lemma qv_circuit_lemma seed k trial l : l <> [] -> ascending l -> fits (length l) (drawn seed k (length l)) -> touches_all (length l) (drawn seed k (length l)) ->
  exists c i N, qv_circuit lib rng seed k trial l = Ok (c, i) /\
    q_name c = qv_name (length l) trial /\ q_name i = q_name c /\ q_width c = N /\ (forall q, In q (placed_on l) -> q < N) /\
    q_clbits c = length l /\ q_width i = length l /\ q_body i = map CGate (drawn seed k (length l)) /\
    q_body c = map CGate (map (on (placed_on l)) (drawn seed k (length l))) ++ [CBarrier (placed_on l)] ++
               map (fun qc => CMeasure (fst qc) (snd qc)) (combine (placed_on l) (seq 0 (length l))).
Proof.
  intros Hne Ha Hf Ht. unfold qv_circuit. fold (drawn seed k (length l)). set (body := drawn seed k (length l)) in *.
  destruct (max_of l) as [m|] eqn:Em; [|destruct l; [congruence | discriminate]].
  destruct (max_of_spec l m Em) as [Hm Hle]. cbn [bind]. unfold placed_on. rewrite <- Hm.
  destruct (Nat.eqb_spec m (length l)) as [E|E]; cbn [negb].
  - cbn [bind fst snd]. unfold measure_active.
    assert (Eact : active (length l) body = seq 0 (length l)).
    { pose proof (active_placed (length l) (seq 0 (length l)) body) as X. rewrite seq_length, on_seq in X by exact Hf. apply X; auto; [apply seq_ascending | intros q Hq; apply in_seq in Hq; lia]. }
    rewrite Eact.
    rewrite seq_length. eexists. eexists. exists (length l). split; [reflexivity|]. cbn [q_name q_width q_clbits q_body].
    rewrite on_seq by exact Hf. repeat split; auto. intros q Hq. apply in_seq in Hq. lia.
  - rewrite compose_all by (auto; apply ascending_nodup; exact Ha). cbn [bind fst snd]. unfold measure_active.
    rewrite active_placed; auto; [|intros q Hq; specialize (Hle q Hq); lia].
    eexists. eexists. exists (m + 1). split; [reflexivity|]. cbn [q_name q_width q_clbits q_body]. repeat split; auto. intros q Hq. specialize (Hle q Hq). lia.
Qed.

Context {F K : Type} {HF : Fld F} {HK : Fld K}.
Variable gmat : pystr -> list Q -> bits -> bits -> F.
Variable w : F -> K.

Lemma qv_outcomes_lemma seed k trial l c i y : w f0 = f0 -> l <> [] -> ascending l ->
  fits (length l) (drawn seed k (length l)) -> touches_all (length l) (drawn seed k (length l)) ->
  qv_circuit lib rng seed k trial l = Ok (c, i) -> length y = length l ->
  prob gmat w (q_width c) (q_clbits c) (q_body c) (key_of y) = fdiv (w (final gmat (length l) (q_body i) y)) (total gmat w (length l) (q_body i)).
Proof.
  intros Hw Hne Ha Hf Ht H Hy. destruct (qv_circuit_lemma seed k trial l Hne Ha Hf Ht) as (c' & i' & N & E & _ & _ & EN & HN & Ecl & _ & Eb & Ec).
  rewrite H in E. injection E as <- <-. rewrite EN, Ecl, Eb, <- (placed_length l).
  apply prob_emb; auto; rewrite ?placed_length; auto.
  - apply ascending_nodup, placed_ascending, Ha.
  - rewrite Ec. clear. unfold gates. rewrite flat_map_app. rewrite <- (app_nil_r (map (on (placed_on l)) _)) at 2. f_equal.
    + induction (map (on (placed_on l)) (drawn seed k (length l))) as [|g b IH]; cbn; [reflexivity | f_equal; exact IH].
    + cbn. induction (combine _ _) as [|p b IH]; cbn; auto.
  - intros x Hx. rewrite Ec, reads_gates. rewrite <- (reads_pat (placed_on l) x), placed_length. reflexivity.
Qed.

(** ** All the circuits *)
Lemma qv_circuit_named seed k trial l c i : qv_circuit lib rng seed k trial l = Ok (c, i) ->
  q_name c = qv_name (length l) trial /\ q_name i = qv_name (length l) trial /\ q_width i = length l /\ q_body i = map CGate (drawn seed k (length l)).
Proof.
  unfold qv_circuit. intros H. destruct (max_of l); [|discriminate]. cbn [bind] in H. inv_bind H. destruct (measure_active (fst v) (snd v)). injection H as <- <-. repeat split.
Qed.
Lemma qv_circuits_lemma qls ntrials seed cs is : qv_circuits lib rng qls ntrials seed = Ok (cs, is) ->
  length cs = ntrials /\ length is = ntrials /\
  forall t, t < ntrials -> length (nth t cs []) = length qls /\ length (nth t is []) = length qls /\
    forall j l, nth_error qls j = Some l -> exists c i, nth_error (nth t cs []) j = Some c /\ nth_error (nth t is []) j = Some i /\
      qv_circuit lib rng seed (t * length qls + j) t l = Ok (c, i).
Proof.
  unfold qv_circuits. intros H. inv_bind H. clear E. inv_bind H. rename E into E0. injection H as <- <-. apply mapM_inv in E0.
  assert (Hl : length v0 = ntrials) by (rewrite <- (Forall2_length' _ _ _ E0), seq_length; reflexivity).
  rewrite !map_length. split; [exact Hl|]. split; [exact Hl|]. intros t Ht.
  assert (Et : nth_error (seq 0 ntrials) t = Some t) by (rewrite (nth_error_nth' _ 0) by (rewrite seq_length; exact Ht); rewrite seq_nth by exact Ht; reflexivity).
  destruct (nth_error v0 t) as [row|] eqn:Er; [|apply nth_error_None in Er; lia].
  pose proof (Forall2_nth _ _ _ _ _ _ E0 Et Er) as Hr. cbn beta in Hr. apply mapM_inv in Hr.
  assert (N1 : nth t (map (map fst) v0) [] = map fst row) by (change (@nil qvcirc) with (map (@fst qvcirc qvcirc) []); rewrite map_nth, (nth_error_nth _ _ _ Er); reflexivity).
  assert (N2 : nth t (map (map snd) v0) [] = map snd row) by (change (@nil qvcirc) with (map (@snd qvcirc qvcirc) []); rewrite map_nth, (nth_error_nth _ _ _ Er); reflexivity).
  rewrite N1, N2, !map_length.
  assert (Hlr : length row = length qls) by (rewrite <- (Forall2_length' _ _ _ Hr), combine_length, seq_length; lia).
  split; [exact Hlr|]. split; [exact Hlr|]. intros j l Hj.
  assert (Hjl : j < length qls) by (apply nth_error_Some; congruence).
  assert (Ec : nth_error (combine (seq 0 (length qls)) qls) j = Some (j, l)).
  { rewrite (nth_error_nth' _ (0, [])) by (rewrite combine_length, seq_length; lia). rewrite combine_nth by apply seq_length. rewrite seq_nth by exact Hjl. rewrite (nth_error_nth _ _ _ Hj). reflexivity. }
  destruct (nth_error row j) as [[c i]|] eqn:Ej; [|apply nth_error_None in Ej; lia].
  pose proof (Forall2_nth _ _ _ _ _ _ Hr Ec Ej) as Hc. cbn [fst snd] in Hc. exists c, i. rewrite !nth_error_map, Ej. cbn [option_map fst snd]. auto.
Qed.
End C.

(** ** Seeds *)
Lemma seeded_lemma lib lib' rng qls ntrials s : s <> 0%Z -> (forall d z k k', lib d (Some z) k = lib' d (Some z) k') ->
  qv_circuits lib rng qls ntrials (Some s) = qv_circuits lib' rng qls ntrials (Some s).
Proof.
  intros Hs H. assert (E : forall k t l, qv_circuit lib rng (Some s) k t l = qv_circuit lib' rng (Some s) k t l).
  { intros k t l. unfold qv_circuit. destruct (Z.eqb_spec s 0); [contradiction|]. rewrite (H _ _ k k). reflexivity. }
  unfold qv_circuits. destruct (mapM _ qls); [|reflexivity]. cbn [bind]. f_equal.
  assert (M : forall {A B} (f g : A -> result B) l, (forall a, f a = g a) -> mapM f l = mapM g l) by (intros A B f g l0 Hfg; induction l0 as [|a l0 IH]; cbn [mapM]; [reflexivity | rewrite Hfg, IH; reflexivity]).
  apply M. intros t. apply M. intros [j ql]. apply E.
Qed.
Lemma seed_zero_lemma lib rng qls ntrials : qv_circuits lib rng qls ntrials (Some 0%Z) = qv_circuits lib rng qls ntrials None.
Proof. reflexivity. Qed.
Lemma qv_circuits_summary lib rng qls ntrials seed cs is : qv_circuits lib rng qls ntrials seed = Ok (cs, is) ->
  length cs = ntrials /\ length is = ntrials /\
  forall t, t < ntrials -> length (nth t cs []) = length qls /\ length (nth t is []) = length qls /\
    forall j l, nth_error qls j = Some l -> exists c i, nth_error (nth t cs []) j = Some c /\ nth_error (nth t is []) j = Some i /\
      q_name c = qv_name (length l) t /\ q_name i = qv_name (length l) t /\ q_width i = length l /\
      q_body i = map CGate (drawn lib rng seed (t * length qls + j) (length l)).
Proof.
  intros H. destruct (qv_circuits_lemma lib rng qls ntrials seed cs is H) as (H1 & H2 & H3). split; [exact H1|]. split; [exact H2|]. intros t Ht.
  destruct (H3 t Ht) as (A & B & C). split; [exact A|]. split; [exact B|]. intros j l Hj. destruct (C j l Hj) as (c & i & D & E & G). exists c, i.
  split; [exact D|]. split; [exact E|]. exact (qv_circuit_named lib rng _ _ _ _ _ _ G).
Qed.
