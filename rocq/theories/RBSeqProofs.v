From Coq Require Import QArith.
From Verif Require Import Base LinAlg QSem PyStr DihedralModel ResultFacts RBSeqModel RBSeqSpec.
Open Scope nat_scope.

(** ** Lists *)
Lemma nth_error_set_nth {A} (l : list A) i v j : i < length l ->
  nth_error (set_nth l i v) j = if j =? i then Some v else nth_error l j.
Proof.
  unfold set_nth. revert i j; induction l as [|a l IH]; intros i j H; cbn [length] in H; [lia|].
  destruct i as [|i]; destruct j as [|j]; cbn; auto.
  apply IH. lia.
Qed.
Lemma length_set_nth {A} (l : list A) i v : i < length l -> length (set_nth l i v) = length l.
Proof. intros H. unfold set_nth. rewrite app_length, firstn_length. cbn [length]. rewrite skipn_length. lia. Qed.

Lemma flat_map_app' {A B} (f : A -> list B) l m : flat_map f (l ++ m) = flat_map f l ++ flat_map f m.
Proof. induction l; cbn; auto. rewrite IHl, app_assoc. reflexivity. Qed.
Lemma flat_map_concat' {A B} (f : A -> list B) l : flat_map f (concat l) = flat_map (flat_map f) l.
Proof. induction l; cbn; auto. rewrite flat_map_app', IHl. reflexivity. Qed.
Lemma filter_flat_map {A B} (P : B -> bool) (f : A -> list B) l : filter P (flat_map f l) = flat_map (fun a => filter P (f a)) l.
Proof. induction l; cbn; auto. rewrite filter_app, IHl. reflexivity. Qed.

(** ** Gates *)
Lemma gates_app a b : gates (a ++ b) = gates a ++ gates b.
Proof. apply flat_map_app'. Qed.

Lemma replace_inv c pat r : replace_q_indices c pat = Ok r ->
  r = map (fun g => CGate (on pat g)) c.
Proof.
  unfold replace_q_indices. revert r; induction c as [|g c IH]; cbn [mapM map]; intros r H; [injection H as <-; reflexivity|].
  inv_bind H. inv_bind E. inv_bind H. injection H as <-. injection E as <-. f_equal; [|apply IH; assumption].
  unfold on. do 2 f_equal. unfold place.
  clear - E0. revert v0 E0; induction (gqubits g) as [|q qs IH]; cbn [mapM map]; intros v0 H; [injection H as <-; reflexivity|].
  inv_bind H. inv_bind H. injection H as <-. f_equal; [|apply IH; assumption].
  apply index_inv in E. apply (nth_error_nth pat q 0) in E. congruence.
Qed.

Lemma replace_ok c pat : fits (length pat) c -> replace_q_indices c pat = Ok (map (fun g => CGate (on pat g)) c).
Proof.
  intros H. unfold replace_q_indices. apply mapM_ok. intros g Hg. unfold fits in H. rewrite Forall_forall in H.
  destruct (H g Hg) as (_ & _ & Hq).
  rewrite (mapM_ok _ (fun q => nth q pat 0)).
  - reflexivity.
  - intros q Hi. apply index_ok. apply nth_error_nth'. apply Hq, Hi.
Qed.

Section Log.
Variable grp : group_type -> group.
Variable t : group_type.
Variable pattern : list (list nat).
Variable qlist : list nat.
Hypothesis Hflat : qlist = concat pattern.
Variable max_dim : nat.
Variable mult : list num.
Variable align : bool.
Variable inter : option (list (elem (grp t))).
Variable lv : list nat.
Variable is_purity : bool.
Variable offset : Z.
Notation G := (grp t).
Notation circ_of := (circ_of G).
Notation inv_of := (inv_of G).
Notation st := (st grp t).

(** The elements composed on pattern [p]. *)
Definition els (it : option (list (elem G))) (p : nat) (evs : list (event G)) : list (elem G) :=
  flat_map (fun ev => ev_e ev ::
              match it with
              | None => []
              | Some ies => match nth_error ies (ev_p ev) with Some ie => [ie] | None => [] end
              end) (filter (fun ev => ev_p ev =? p) evs).
Lemma els_app it p a b : els it p (a ++ b) = els it p a ++ els it p b.
Proof. unfold els. rewrite filter_app. apply flat_map_app'. Qed.

Fixpoint seeds_chain (seed : nat) (rs : option Z) (l : list (option Z)) (rs' : option Z) : Prop :=
  match l with
  | [] => rs' = rs
  | r :: l' => r = next_seed seed rs /\ seeds_chain seed r l' rs'
  end.
Lemma seeds_chain_app seed l : forall rs rs1 l2 rs2, seeds_chain seed rs l rs1 -> seeds_chain seed rs1 l2 rs2 -> seeds_chain seed rs (l ++ l2) rs2.
Proof. induction l as [|r l IH]; cbn; intros rs rs1 l2 rs2 H H2; [subst; exact H2|]. destruct H as [H H']. split; eauto. Qed.

Definition upd_els (it : option (list (elem G))) (evs : list (event G)) (l l' : list (elem G)) : Prop :=
  length l' = length l /\
  forall p e0, nth_error l p = Some e0 -> exists e1, nth_error l' p = Some e1 /\ foldM (g_compose G) (els it p evs) e0 = Ok e1.
Lemma upd_els_app it a b l l1 l2 : upd_els it a l l1 -> upd_els it b l1 l2 -> upd_els it (a ++ b) l l2.
Proof.
  intros [L H] [L' H']. split; [congruence|]. intros p e0 E. destruct (H p e0 E) as [e1 [E1 F1]].
  destruct (H' p e1 E1) as [e2 [E2 F2]]. exists e2. split; [exact E2|]. rewrite els_app, foldM_app', F1. exact F2.
Qed.
Lemma upd_els_nil it l : upd_els it [] l l.
Proof. split; [reflexivity|]. intros p e0 E. exists e0. auto. Qed.

Definition ibody (ev : event G) : list cinstr := match inter with None => [] | Some _ => ev_body G pattern inter ev end.

Record trace (seed : nat) (s : st) (evs : list (event G)) (B Bi : list cinstr) (s' : st) : Prop := {
  t_drawn : Forall (drawn G pattern) evs;
  t_k : map ev_k evs = seq (s_cnt _ _ s) (length evs);
  t_cnt : s_cnt _ _ s' = s_cnt _ _ s + length evs;
  t_rs : seeds_chain seed (s_rs _ _ s) (map ev_rs evs) (s_rs _ _ s');
  t_el : upd_els None evs (s_el _ _ s) (s_el _ _ s');
  t_eli : inter <> None -> upd_els inter evs (s_eli _ _ s) (s_eli _ _ s');
  t_gc : s_gc _ _ s' = s_gc _ _ s ++ B;
  t_ic : s_ic _ _ s' = s_ic _ _ s ++ Bi
}.

Lemma trace_nil seed s : trace seed s [] [] [] s.
Proof.
  constructor; cbn; auto using upd_els_nil; try lia; rewrite app_nil_r; reflexivity.
Qed.
Lemma trace_app seed s e1 B1 Bi1 s1 e2 B2 Bi2 s2 : trace seed s e1 B1 Bi1 s1 -> trace seed s1 e2 B2 Bi2 s2 ->
  trace seed s (e1 ++ e2) (B1 ++ B2) (Bi1 ++ Bi2) s2.
Proof.
  intros [a b c d e f g h] [a' b' c' d' e' f' g' h']. constructor.
  - apply Forall_app; auto.
  - rewrite map_app, b, b', app_length, seq_app, c. reflexivity.
  - rewrite app_length. lia.
  - rewrite map_app. eapply seeds_chain_app; eauto.
  - eapply upd_els_app; eauto.
  - intros Hn. eapply upd_els_app; eauto.
  - rewrite g', g, app_assoc. reflexivity.
  - rewrite h', h, app_assoc. reflexivity.
Qed.

Lemma nth_error_lt {A} (l : list A) i a : nth_error l i = Some a -> i < length l.
Proof. intros H. apply nth_error_Some. congruence. Qed.

Lemma one_elem_trace seed p s s' : one_elem grp t pattern inter seed p s = Ok s' ->
  exists e, let ev := Event p (next_seed seed (s_rs _ _ s)) (s_cnt _ _ s) e in
    trace seed s [ev] (ev_body G pattern None ev) (ibody ev) s'.
Proof.
  unfold one_elem. intros H. inv_bind H. inv_bind H. inv_bind H. inv_bind H. inv_bind H.
  rename v into new. exists new. cbn zeta.
  apply index_inv in E0. apply replace_inv in E3.
  assert (Hc : circ_of new = v2) by (unfold RBSeqSpec.circ_of; rewrite E2; reflexivity).
  assert (Hpl : v3 = placed pattern p (circ_of new)) by (rewrite E3, Hc; reflexivity).
  assert (Hel : upd_els None [Event p (next_seed seed (s_rs grp t s)) (s_cnt grp t s) new] (s_el _ _ s) (set_nth (s_el _ _ s) p v1)).
  { split; [apply length_set_nth; eapply nth_error_lt; eauto|]. intros p' e0 E'.
    rewrite nth_error_set_nth by (eapply nth_error_lt; eauto). unfold els. cbn [filter ev_p].
    rewrite (Nat.eqb_sym p p'). destruct (Nat.eqb_spec p' p) as [->|Hn]; cbn.
    - exists v1. split; [reflexivity|]. rewrite E0 in E'. injection E' as <-. rewrite E1. reflexivity.
    - exists e0. auto. }
  assert (Hbody : s_gc grp t s ++ v3 ++ [CBarrier (nth p pattern [])] =
     s_gc grp t s ++ ev_body G pattern None (Event p (next_seed seed (s_rs grp t s)) (s_cnt grp t s) new)).
  { f_equal. rewrite Hpl. unfold ev_body. cbn [ev_p ev_e]. reflexivity. }
  unfold ibody. destruct inter as [ies|] eqn:Hint.
  - inv_bind H. inv_bind H. inv_bind H. inv_bind H. inv_bind H. inv_bind H. injection H as <-.
    apply index_inv in E4, E6. apply replace_inv in E9.
    constructor; cbn [s_rs s_cnt s_el s_eli s_gc s_ic]; auto.
    + cbn; lia.
    + cbn. auto.
    + intros _. split; [apply length_set_nth; eapply nth_error_lt; eauto|]. intros p' e0 E'.
      rewrite nth_error_set_nth by (eapply nth_error_lt; eauto). unfold els. cbn [filter ev_p].
      rewrite (Nat.eqb_sym p p'). destruct (Nat.eqb_spec p' p) as [->|Hn]; cbn.
      * exists v6. split; [reflexivity|]. rewrite E4 in E'. injection E' as <-. rewrite Hint, E6. cbn. rewrite E5. cbn. rewrite E7. reflexivity.
      * exists e0. auto.
    + f_equal. unfold ev_body. cbn [ev_p ev_e]. rewrite E6. rewrite Hpl, E9.
      assert (Hci : circ_of v5 = v7) by (unfold RBSeqSpec.circ_of; rewrite E8; reflexivity).
      rewrite Hci. reflexivity.
  - injection H as <-. constructor; cbn [s_rs s_cnt s_el s_eli s_gc s_ic]; auto.
    + cbn; lia.
    + cbn. auto.
    + congruence.
    + rewrite app_nil_r. reflexivity.
Qed.

Definition reps (p : nat) : nat := match nth_error mult p with Some (NInt z) => Z.to_nat z | _ => 0 end.

Lemma one_pattern_trace seed p s s' : one_pattern grp t pattern mult inter seed p s = Ok s' ->
  exists evs, trace seed s evs (flat_map (ev_body G pattern None) evs) (flat_map ibody evs) s' /\ map ev_p evs = repeat p (reps p).
Proof.
  unfold one_pattern. intros H. inv_bind H. inv_bind H. apply index_inv in E. unfold reps. rewrite E.
  destruct v as [z|q]; cbn in E0; [|discriminate]. injection E0 as <-.
  revert s H. generalize 0. generalize (Z.to_nat z) as n. clear E z. induction n as [|n IH]; intros b s H; cbn [seq foldM] in H.
  - injection H as <-. exists []. split; [apply trace_nil | reflexivity].
  - inv_bind H. apply one_elem_trace in E. destruct E as [e E]. destruct (IH _ _ H) as [evs [T P]].
    cbn zeta in E. eexists. split; [exact (trace_app _ _ _ _ _ _ _ _ _ _ E T)|].
    cbn [map repeat ev_p app]. f_equal. exact P.
Qed.

(** The patterns of the elements of one step, in order. *)
Definition schedule : list nat := flat_map (fun p => repeat p (reps p)) (seq 0 (length pattern)).

Definition istep (evs : list (event G)) : list cinstr :=
  match inter with None => [] | Some _ => step_body G pattern inter align evs end.

Lemma one_step_trace seed s s' : one_step grp t pattern qlist mult align inter seed s = Ok s' ->
  exists evs, trace seed s evs (step_body G pattern None align evs) (istep evs) s' /\ map ev_p evs = schedule.
Proof.
  unfold one_step. intros H. inv_bind H. rename v into s1.
  assert (exists evs, trace seed s evs (flat_map (ev_body G pattern None) evs) (flat_map ibody evs) s1 /\ map ev_p evs = schedule) as [evs [T P]].
  { clear H. unfold schedule. revert s E. generalize (seq 0 (length pattern)) as l.
    induction l as [|p l IH]; intros s H; cbn [foldM] in H.
    - injection H as <-. exists []. split; [apply trace_nil | reflexivity].
    - inv_bind H. apply one_pattern_trace in E. destruct E as [e1 [T1 P1]]. destruct (IH _ H) as [e2 [T2 P2]].
      exists (e1 ++ e2). split; [|rewrite map_app, P1, P2; reflexivity].
      rewrite !flat_map_app'. eapply trace_app; eauto. }
  exists evs. split; [|exact P]. unfold step_body, istep, step_body.
  assert (Hib : flat_map ibody evs = match inter with None => [] | Some _ => flat_map (ev_body G pattern inter) evs end).
  { unfold ibody. destruct inter; [reflexivity|]. clear. induction evs; cbn; auto. }
  rewrite Hib in T. clear Hib. destruct T as [a b c d e f g h].
  destruct align; injection H as <-.
  - constructor; cbn [s_rs s_cnt s_el s_eli s_gc s_ic]; auto.
    + rewrite g, Hflat, app_assoc. reflexivity.
    + destruct inter; rewrite h; [rewrite Hflat, app_assoc | rewrite app_nil_r]; reflexivity.
  - constructor; auto.
    + rewrite g, app_nil_r. reflexivity.
    + rewrite h. destruct inter; [rewrite app_nil_r|]; reflexivity.
Qed.

Definition iseq (steps : list (list (event G))) : list cinstr :=
  match inter with None => [] | Some _ => seq_body G pattern inter align steps end.

(** [r] steps from the start of a seed. *)
Definition reached (seed r : nat) (s0 s : st) (steps : list (list (event G))) : Prop :=
  length steps = r /\ Forall (fun evs => map ev_p evs = schedule) steps /\
  trace seed s0 (concat steps) (seq_body G pattern None align steps) (iseq steps) s.

Lemma reached_0 seed s : reached seed 0 s s [].
Proof. split; [reflexivity|]. split; [constructor|]. unfold iseq. destruct inter; apply trace_nil. Qed.

Lemma reached_S seed r s0 s s' steps : reached seed r s0 s steps -> one_step grp t pattern qlist mult align inter seed s = Ok s' ->
  exists evs, reached seed (S r) s0 s' (steps ++ [evs]).
Proof.
  intros (L & P & T) H. apply one_step_trace in H. destruct H as [evs [T' P']]. exists evs.
  split; [rewrite app_length; cbn; lia|]. split; [apply Forall_app; auto|].
  rewrite concat_app. cbn [concat]. rewrite app_nil_r.
  unfold seq_body in *. rewrite flat_map_app'. cbn [flat_map]. rewrite app_nil_r.
  replace (iseq (steps ++ [evs])) with (iseq steps ++ istep evs).
  - eapply trace_app; eauto.
  - unfold iseq, istep, seq_body. destruct inter; [|reflexivity]. rewrite flat_map_app'. cbn [flat_map]. rewrite app_nil_r. reflexivity.
Qed.

(** ** One seed *)
Lemma seed_loop_inv seed s0 n : forall acc, foldM (seed_step grp t pattern qlist max_dim mult align inter lv is_purity offset seed) (seq 0 n) (s0, 0, []) = Ok acc ->
  exists steps, reached seed n s0 (fst (fst acc)) steps /\ length (snd acc) = snd (fst acc) /\
    (forall i o, nth_error (snd acc) i = Some o -> exists r s, nth_error lv i = Some r /\ r <= n /\ reached seed r s0 s (firstn r steps) /\
        emit grp t pattern qlist max_dim inter is_purity offset seed i s = Ok o).
Proof.
  induction n as [|n IH]; intros acc H.
  - cbn in H. injection H as <-. exists []. split; [apply reached_0|]. split; [reflexivity|]. intros [|i] o; discriminate.
  - rewrite seq_S, foldM_app' in H. inv_bind H. destruct (IH _ E) as [steps (R & L & I)]. clear IH.
    destruct v as [[s li] os]. cbn [fst snd] in *. cbn [foldM Nat.add] in H. inv_bind H. injection H as <-.
    unfold seed_step in E0. inv_bind E0. destruct (reached_S _ _ _ _ _ _ R E1) as [evs R'].
    assert (Hfirst : forall r, r <= n -> firstn r (steps ++ [evs]) = firstn r steps).
    { intros r Hr. destruct R as [<- _]. rewrite firstn_app. replace (r - length steps) with 0 by lia. cbn. apply app_nil_r. }
    inv_bind E0. destruct (Nat.eqb_spec (n + 1) v1) as [Et|_].
    + inv_bind E0. injection E0 as <-. exists (steps ++ [evs]). cbn [fst snd]. split; [exact R'|].
      split; [rewrite app_length; cbn; lia|]. intros i o Ho.
      destruct (Nat.lt_ge_cases i (length os)) as [Hi|Hi].
      * rewrite nth_error_app1 in Ho by exact Hi. destruct (I i o Ho) as (r & s' & A & B & C & D). exists r, s'.
        rewrite Hfirst by exact B. split; [exact A|]. split; [lia|]. split; [exact C | exact D].
      * rewrite nth_error_app2 in Ho by exact Hi. destruct (i - length os) as [|k] eqn:Ek; [|destruct k; discriminate].
        cbn in Ho. injection Ho as <-. assert (i = li) by lia. subst i. exists (S n), v0. apply index_inv in E2.
        split; [rewrite E2; f_equal; lia|]. split; [lia|]. split; [|exact E3].
        replace (firstn (S n) (steps ++ [evs])) with (steps ++ [evs]); [exact R'|].
        symmetry. apply firstn_all2. destruct R' as [<- _]. lia.
    + injection E0 as <-. exists (steps ++ [evs]). cbn [fst snd]. split; [exact R'|]. split; [exact L|].
      intros i o Ho. destruct (I i o Ho) as (r & s' & A & B & C & D). exists r, s'. rewrite Hfirst by exact B. split; [exact A|]. split; [lia|]. split; [exact C | exact D].
Qed.

(** With an ascending length vector every length is reached. *)
Lemma ascending_from_le m l i x : ascending_from m l -> nth_error l i = Some x -> m < x.
Proof. revert m i; induction l as [|a l IH]; intros m [|i] H E; cbn in *; try discriminate; destruct H as [H H']; [congruence|]. specialize (IH _ _ H' E). lia. Qed.
Lemma ascending_from_lt m l i j x y : ascending_from m l -> i < j -> nth_error l i = Some x -> nth_error l j = Some y -> x < y.
Proof.
  revert m i j; induction l as [|a l IH]; intros m [|i] [|j] H Hij Ei Ej; cbn in *; try discriminate; try lia; destruct H as [H H'].
  - injection Ei as <-. apply (ascending_from_le _ _ _ _ H' Ej).
  - apply (IH a i j); auto; lia.
Qed.

Lemma seed_loop_count seed s0 n : ascending lv -> forall acc, foldM (seed_step grp t pattern qlist max_dim mult align inter lv is_purity offset seed) (seq 0 n) (s0, 0, []) = Ok acc ->
  forall i r, nth_error lv i = Some r -> (i < snd (fst acc) <-> r <= n).
Proof.
  intros Ha. induction n as [|n IH]; intros acc H i r Hi.
  - cbn in H. injection H as <-. cbn [fst snd]. pose proof (ascending_from_le _ _ _ _ Ha Hi). lia.
  - rewrite seq_S, foldM_app' in H. inv_bind H. specialize (IH _ E). destruct v as [[s li] os]. cbn [fst snd] in *.
    cbn [foldM Nat.add] in H. inv_bind H. injection H as <-. unfold seed_step in E0. inv_bind E0. inv_bind E0. apply index_inv in E2.
    pose proof (IH _ _ Hi) as I1. pose proof (IH _ _ E2) as I2.
    destruct (Nat.eqb_spec (n + 1) v1) as [Et|Ht].
    + inv_bind E0. injection E0 as <-. cbn [fst snd].
      destruct (Nat.eq_dec i li) as [->|Hne]; [rewrite Hi in E2; injection E2 as <-; lia|].
      destruct (Nat.lt_ge_cases i li) as [Hlt|Hge]; [lia|].
      pose proof (ascending_from_lt _ _ _ _ _ _ Ha (ltac:(lia) : li < i) E2 Hi). lia.
    + injection E0 as <-. cbn [fst snd].
      destruct (Nat.eq_dec i li) as [->|Hne]; [rewrite Hi in E2; injection E2 as <-; lia|].
      destruct (Nat.lt_ge_cases i li) as [Hlt|Hge]; [lia|].
      pose proof (ascending_from_lt _ _ _ _ _ _ Ha (ltac:(lia) : li < i) E2 Hi). lia.
Qed.
End Log.
