(** The instruction map and the schedules (C70). *)
From Coq Require Import QArith Reals Lra Permutation Sorted.
From Coquelicot Require Import Coquelicot.
From Verif Require Import Base LinAlg PyStr ResultFacts EntSpec PulseModel PulseSpec PulseGateProofs.
Local Open Scope list_scope.
Local Open Scope nat_scope.

(** ** Groups *)
Lemma insert_perm a l : Permutation (insert_at a l) (a :: l).
Proof. induction l as [|b l IH]; cbn [insert_at]; [apply Permutation_refl|]. destruct (earlier a b); [apply Permutation_refl|]. eapply perm_trans; [apply perm_skip, IH|]. apply perm_swap. Qed.
Lemma instructions_perm l : Permutation (instructions l) l.
Proof. unfold instructions. induction l as [|a l IH]; cbn [fold_right]; [apply Permutation_refl|]. eapply perm_trans; [apply insert_perm|]. apply perm_skip, IH. Qed.
Definition chs_at (t : nat) (ph : R) (l : timed) : list chan :=
  flat_map (fun ti => match snd ti with ShiftPhase x c => if (fst ti =? t) && (if Req_EM_T x ph then true else false) then [c] else [] | _ => [] end) l.
Lemma chs_at_app t ph l l' : chs_at t ph (l ++ l') = chs_at t ph l ++ chs_at t ph l'.
Proof. apply flat_map_app. Qed.
Lemma in_chs_at t ph l ch : In ch (chs_at t ph l) <-> shifted l t ph ch.
Proof.
  unfold chs_at, shifted. rewrite in_flat_map. split.
  - intros ([t' i] & Hi & Hc). destruct i as [p c|x c|d cs]; cbn [snd fst] in Hc; [destruct Hc| |destruct Hc]. destruct (Nat.eqb_spec t' t) as [->|]; [|destruct Hc]. destruct (Req_EM_T x ph) as [->|]; [|destruct Hc]. destruct Hc as [->|[]]. exact Hi.
  - intros H. eexists. split; [exact H|]. cbn [snd fst]. rewrite Nat.eqb_refl. destruct (Req_EM_T ph ph); [left; reflexivity|congruence].
Qed.
Definition groups_ok (l : timed) (fcs : list ((nat * R) * list chan)) : Prop :=
  NoDup (map fst fcs) /\ (forall t ph g, In ((t, ph), g) fcs -> g = chs_at t ph l /\ g <> []) /\ (forall t ph, chs_at t ph l <> [] -> In (t, ph) (map fst fcs)).
Lemma sync_keys fcs t ph ch k : In k (map fst (sync fcs t ph ch)) <-> k = (t, ph) \/ In k (map fst fcs).
Proof.
  induction fcs as [|[[t' ph'] l] fcs IH]; cbn [sync map fst In]; [intuition|]. destruct (Nat.eqb_spec t t') as [->|Ht]; cbn [andb].
  - destruct (Req_EM_T ph ph') as [->|Hp]; cbn [map fst In]; [intuition|]. rewrite IH. intuition.
  - cbn [map fst In]. rewrite IH. intuition.
Qed.
Lemma sync_ok l fcs t ph ch : groups_ok l fcs -> groups_ok (l ++ [(t, ShiftPhase ph ch)]) (sync fcs t ph ch).
Proof.
  assert (CH : forall t' ph', chs_at t' ph' (l ++ [(t, ShiftPhase ph ch)]) = chs_at t' ph' l ++ (if (t =? t') && (if Req_EM_T ph ph' then true else false) then [ch] else [])).
  { intros t' ph'. rewrite chs_at_app. f_equal. unfold chs_at. cbn [flat_map snd fst]. apply app_nil_r. }
  intros (N & G1 & G2). split; [|split].
  - clear G1 G2 CH. induction fcs as [|[[t' ph'] g] fcs IH]; cbn [sync]; [repeat constructor; intros []|]. cbn [map fst] in N. inversion N as [|? ? Hn N']; subst.
    destruct ((t =? t') && (if Req_EM_T ph ph' then true else false)) eqn:E; cbn [map fst]; [constructor; assumption|]. constructor; [|apply IH, N'].
    intros Hi. apply sync_keys in Hi. destruct Hi as [Hi|Hi]; [|contradiction]. injection Hi as -> ->. rewrite Nat.eqb_refl in E. destruct (Req_EM_T ph ph); [discriminate|congruence].
  - intros t' ph' g. rewrite CH. assert (AUX : forall fcs', NoDup (map fst fcs') -> (forall t ph g, In ((t, ph), g) fcs' -> g = chs_at t ph l /\ g <> []) -> (~ In (t, ph) (map fst fcs') -> ~ In (t, ph) (map fst fcs') -> In (t, ph) (map fst fcs') \/ chs_at t ph l = [] \/ True) ->
      (In (t, ph) (map fst fcs') \/ chs_at t ph l = []) -> In ((t', ph'), g) (sync fcs' t ph ch) -> g = chs_at t' ph' l ++ (if (t =? t') && (if Req_EM_T ph ph' then true else false) then [ch] else []) /\ g <> []).
    { clear. induction fcs' as [|[[t1 ph1] g1] fcs' IH]; intros N G1 _ D Hi; cbn [sync] in Hi.
      - destruct Hi as [E|[]]. injection E as <- <- <-. destruct D as [[]|D]. rewrite D, Nat.eqb_refl. destruct (Req_EM_T ph ph); [|congruence]. split; [reflexivity|discriminate].
      - cbn [map fst] in N. inversion N as [|? ? Hn N']; subst. destruct (Nat.eqb_spec t t1) as [->|Ht].
        + destruct (Req_EM_T ph ph1) as [->|Hp]; cbn [andb] in Hi.
          * destruct Hi as [E|Hi].
            -- injection E as <- <- <-. rewrite Nat.eqb_refl. destruct (Req_EM_T ph1 ph1); [|congruence]. cbn [andb]. destruct (G1 t1 ph1 g1 (or_introl eq_refl)) as [-> _]. split; [reflexivity|destruct (chs_at t1 ph1 l); discriminate].
            -- destruct (G1 t' ph' g (or_intror Hi)) as [Eg Hg]. assert (X : ~ (t1 = t' /\ ph1 = ph')) by (intros [-> ->]; apply Hn; apply (in_map fst) in Hi; exact Hi).
               destruct (Nat.eqb_spec t1 t') as [->|]; cbn [andb]; [destruct (Req_EM_T ph1 ph') as [->|]; [exfalso; apply X; auto|]|]; rewrite app_nil_r; auto.
          * destruct Hi as [E|Hi].
            -- injection E as <- <- <-. rewrite Nat.eqb_refl. destruct (Req_EM_T ph ph1); [congruence|]. cbn [andb]. rewrite app_nil_r. apply (G1 t1 ph1 g1 (or_introl eq_refl)).
            -- apply IH; auto; [intros a b c Hc; apply (G1 a b c (or_intror Hc))|]. destruct D as [[E|D]|D]; [injection E as E; congruence|left; exact D|right; exact D].
        + cbn [andb] in Hi. destruct Hi as [E|Hi].
          * injection E as <- <- <-. destruct (Nat.eqb_spec t t1); [contradiction|]. cbn [andb]. rewrite app_nil_r. apply (G1 t1 ph1 g1 (or_introl eq_refl)).
          * apply IH; auto; [intros a b c Hc; apply (G1 a b c (or_intror Hc))|]. destruct D as [[E|D]|D]; [injection E as E; congruence|left; exact D|right; exact D]. }
    intros Hi. apply (AUX fcs N G1); auto. destruct (chs_at t ph l) as [|c0 cs] eqn:E; [right; reflexivity|left]. apply G2. rewrite E. discriminate.
  - intros t' ph'. rewrite CH. intros Hne. apply sync_keys. destruct (Nat.eqb_spec t t') as [->|]; cbn [andb] in Hne; [destruct (Req_EM_T ph ph') as [->|]; [left; reflexivity|]|]; rewrite app_nil_r in Hne; right; apply G2; exact Hne.
Qed.
Lemma synced_ok l : groups_ok (instructions l) (synced l).
Proof.
  unfold synced. assert (G : forall l' fcs l0, groups_ok l0 fcs -> groups_ok (l0 ++ l') (fold_left (fun fcs ti => match snd ti with ShiftPhase phase ch => sync fcs (fst ti) phase ch | _ => fcs end) l' fcs)).
  { induction l' as [|[t i] l' IH]; intros fcs l0 H; cbn [fold_left]; [rewrite app_nil_r; exact H|]. change ((t, i) :: l') with ([(t, i)] ++ l'). rewrite app_assoc. apply IH. destruct i as [p c|x c|d cs]; cbn [snd fst].
    - destruct H as (A & B & D). unfold groups_ok. setoid_rewrite chs_at_app. assert (Z : forall t' ph', chs_at t' ph' [(t, Play p c)] = []) by reflexivity. split; [exact A|]. split; intros t' ph'; rewrite Z, app_nil_r; auto.
    - apply sync_ok. exact H.
    - destruct H as (A & B & D). unfold groups_ok. setoid_rewrite chs_at_app. assert (Z : forall t' ph', chs_at t' ph' [(t, Acquire d cs)] = []) by reflexivity. split; [exact A|]. split; intros t' ph'; rewrite Z, app_nil_r; auto. }
  apply (G (instructions l) [] []). split; [constructor|]. split; [intros t ph g []|intros t ph H; cbn in H; congruence].
Qed.
Lemma in_distinct g l : In g (distinct_groups l) <-> In g l.
Proof. induction l as [|a l IH]; cbn [distinct_groups In]; [reflexivity|]. destruct (mem a l) eqn:E; [rewrite IH; apply mem_In in E; intuition; subst; assumption|cbn [In]; rewrite IH; reflexivity]. Qed.
Lemma shifted_perm l l' t ph ch : Permutation l l' -> shifted l t ph ch -> shifted l' t ph ch.
Proof. intros H. apply (Permutation_in _ H). Qed.
(** What the search finds. *)
Lemma group_in_frame so l drive : (forall gs g, In g (so gs) <-> In g gs) -> in_frame l drive (group_of (so (distinct_groups (map snd (synced l)))) drive) /\ In drive (group_of (so (distinct_groups (map snd (synced l)))) drive).
Proof.
  intros Hso. destruct (synced_ok l) as (_ & G1 & G2). pose proof (instructions_perm l) as HP.
  assert (SH : forall t ph ch, shifted l t ph ch <-> In ch (chs_at t ph (instructions l))).
  { intros t ph ch. rewrite in_chs_at. split; apply shifted_perm; [apply Permutation_sym|]; exact HP. }
  unfold group_of. destruct (find (fun g => mem drive g) (so (distinct_groups (map snd (synced l))))) as [g|] eqn:E.
  - apply find_some in E. destruct E as [Hg Hm]. apply mem_In in Hm. split; [|exact Hm]. apply Hso, in_distinct, in_map_iff in Hg. destruct Hg as ([[t ph] g'] & Eg & Hg). cbn [snd] in Eg. subst g'. destruct (G1 t ph g Hg) as [-> _]. left. exists t, ph. split; [apply SH, Hm|]. intros ch. symmetry. apply SH.
  - split; [|left; reflexivity]. right. split; [|reflexivity]. intros t ph Hs. apply SH in Hs. assert (Hk : In (t, ph) (map fst (synced l))) by (apply G2; intros Z; rewrite Z in Hs; destruct Hs).
    apply in_map_iff in Hk. destruct Hk as ([k g] & Ek & Hk). cbn [fst] in Ek. subst k. destruct (G1 t ph g Hk) as [Eg _]. pose proof (find_none _ _ E g) as F. cbn beta in F.
    assert (M : mem drive g = true) by (apply mem_In; rewrite Eg; exact Hs). rewrite F in M; [discriminate|]. apply Hso, in_distinct, in_map_iff. exists ((t, ph), g). split; [reflexivity|exact Hk].
Qed.
Lemma chs_at_nodup l t ph : shifts_once l -> NoDup (chs_at t ph l).
Proof.
  intros H. induction l as [|[t' i] l IH]; [constructor|].
  assert (H' : shifts_once l). { intros ch. specialize (H ch). unfold shifts_of in H. cbn [flat_map snd fst] in H. destruct i as [p c|x c|d cs]; try exact H. destruct (eqb c ch); [|exact H]. cbn [app] in H. inversion H; assumption. }
  specialize (IH H'). unfold chs_at. cbn [flat_map snd fst]. fold (chs_at t ph l). destruct i as [p c|x c|d cs]; try exact IH.
  destruct (Nat.eqb_spec t' t) as [->|]; cbn [andb]; [|exact IH]. destruct (Req_EM_T x ph) as [->|]; [|exact IH]. cbn [app]. constructor; [|exact IH].
  intros Hc. apply in_chs_at in Hc. specialize (H c). unfold shifts_of in H. cbn [flat_map snd fst] in H. rewrite eqb_refl in H. cbn [app] in H. inversion H as [|? ? Hn _]; subst. apply Hn. apply in_flat_map. exists (t, ShiftPhase ph c). split; [exact Hc|]. cbn [snd fst]. rewrite eqb_refl. left. reflexivity.
Qed.
Lemma shifts_once_perm l l' : Permutation l l' -> shifts_once l -> shifts_once l'.
Proof. intros HP H ch. apply (Permutation_NoDup (l := shifts_of l ch)); [|apply H]. unfold shifts_of. apply Permutation_flat_map. exact HP. Qed.
Lemma group_nodup so l drive : (forall gs g, In g (so gs) <-> In g gs) -> shifts_once l -> NoDup (group_of (so (distinct_groups (map snd (synced l)))) drive).
Proof.
  intros Hso H. destruct (synced_ok l) as (_ & G1 & _). unfold group_of. destruct (find _ _) as [g|] eqn:E; [|repeat constructor; intros []].
  apply find_some in E. destruct E as [Hg _]. apply Hso, in_distinct, in_map_iff in Hg. destruct Hg as ([[t ph] g'] & Eg & Hg). cbn [snd] in Eg. subst g'. destruct (G1 t ph g Hg) as [-> _]. apply chs_at_nodup. apply (shifts_once_perm l); [apply Permutation_sym, instructions_perm|exact H].
Qed.
(** ** Updates *)
Lemma update_qubit_inv so dp drives m q m' : update_qubit so dp None drives m q = Ok m' ->
  exists drive p e2 e3, nth_error drives q = Some drive /\ nth_error dp q = Some p /\ dget m (str "u2", q) = Some e2 /\ dget m (str "u3", q) = Some e3 /\
  m' = dset (dset m (str "u2", q) (u2_entry [(0, Play p drive)] (group_of (so (distinct_groups (map snd (synced (e_sched e2 (fun _ => 0%R)))))) drive))) (str "u3", q) (u3_entry [(0, Play p drive)] (group_of (so (distinct_groups (map snd (synced (e_sched e3 (fun _ => 0%R)))))) drive)).
Proof.
  unfold update_qubit. intros E. apply bind_inv in E. destruct E as (drive & E1 & E). apply bind_inv in E. destruct E as (x & E2 & E). apply bind_inv in E2. destruct E2 as (p & E2 & E2'). injection E2' as <-.
  apply bind_inv in E. destruct E as (g2 & E3 & E). apply bind_inv in E. destruct E as (g3 & E4 & E). injection E as <-. apply index_inv in E1. apply index_inv in E2.
  unfold find_groups in E3, E4. destruct (dget m (str "u2", q)) as [e2|] eqn:D2; [|discriminate]. destruct (dget m (str "u3", q)) as [e3|] eqn:D3; [|discriminate]. injection E3 as <-. injection E4 as <-. exists drive, p, e2, e3. auto.
Qed.
Lemma update_inv so dp drives qs m m' : NoDup qs -> update_u_gates so dp None qs drives m = Ok m' ->
  (forall k, (forall q, In q qs -> k <> (str "u2", q) /\ k <> (str "u3", q)) -> dget m' k = dget m k) /\
  forall q, In q qs -> exists drive p e2 e3, nth_error drives q = Some drive /\ nth_error dp q = Some p /\ dget m (str "u2", q) = Some e2 /\ dget m (str "u3", q) = Some e3 /\
  dget m' (str "u2", q) = Some (u2_entry [(0, Play p drive)] (group_of (so (distinct_groups (map snd (synced (e_sched e2 (fun _ => 0%R)))))) drive)) /\
  dget m' (str "u3", q) = Some (u3_entry [(0, Play p drive)] (group_of (so (distinct_groups (map snd (synced (e_sched e3 (fun _ => 0%R)))))) drive)).
Proof.
  unfold update_u_gates. revert m. induction qs as [|q0 qs IH]; intros m Hn E; cbn [foldM] in E; [injection E as <-; split; [reflexivity|intros q []]|].
  inversion Hn as [|? ? Hq0 Hn']; subst. apply bind_inv in E. destruct E as (m1 & E1 & E). destruct (update_qubit_inv so dp drives m q0 m1 E1) as (drive & p & e2 & e3 & A & B & D2 & D3 & Em).
  destruct (IH m1 Hn' E) as [K1 K2]. assert (U : str "u2" <> str "u3") by discriminate.
  assert (G : forall k, k <> (str "u2", q0) -> k <> (str "u3", q0) -> dget m1 k = dget m k).
  { intros k H2 H3. rewrite Em, !dget_dset. destruct (eqb_spec k (str "u3", q0)); [contradiction|]. destruct (eqb_spec k (str "u2", q0)); [contradiction|reflexivity]. }
  split.
  - intros k Hk. rewrite K1 by (intros q Hq; apply Hk; right; exact Hq). destruct (Hk q0 (or_introl eq_refl)). apply G; assumption.
  - intros q [<-|Hq].
    + exists drive, p, e2, e3. do 4 (split; [assumption|]). assert (F : forall q, In q qs -> forall s s' : pystr, (s, q0) <> (s', q)) by (intros q Hq s s' Ee; injection Ee as _ ->; contradiction).
      split; (rewrite K1 by (intros q Hq; split; apply F; exact Hq)); rewrite Em, !dget_dset, ?eqb_refl; [|reflexivity]. destruct (eqb_spec (str "u2", q0) (str "u3", q0)) as [Ee|_]; [discriminate|reflexivity].
    + assert (Hne : q <> q0) by (intros ->; contradiction). destruct (K2 q Hq) as (drive' & p' & e2' & e3' & A' & B' & D2' & D3' & F2 & F3). exists drive', p', e2', e3'.
      rewrite G in D2', D3' by (intros Ee; injection Ee; congruence). auto 8.
Qed.
Lemma update_total so dp drives qs m : (forall q, In q qs -> q < length drives /\ q < length dp /\ (exists e, dget m (str "u2", q) = Some e) /\ exists e, dget m (str "u3", q) = Some e) -> exists m', update_u_gates so dp None qs drives m = Ok m'.
Proof.
  unfold update_u_gates. revert m. induction qs as [|q qs IH]; intros m H; cbn [foldM]; [eauto|]. destruct (H q (or_introl eq_refl)) as (H1 & H2 & (e2 & H3) & e3 & H4). unfold update_qubit at 1, find_groups, index_e.
  rewrite (proj2 (nth_error_Some drives q)) || idtac. destruct (nth_error drives q) as [d|] eqn:Ed; [|apply nth_error_None in Ed; lia]. cbn [bind]. destruct (nth_error dp q) as [p|] eqn:Ep; [|apply nth_error_None in Ep; lia]. cbn [bind]. rewrite H3, H4. cbn [bind].
  apply IH. intros q' Hq'. destruct (H q' (or_intror Hq')) as (K1 & K2 & (f2 & K3) & f3 & K4). split; [exact K1|]. split; [exact K2|]. rewrite !dget_dset. split; destruct (eqb _ _); eauto; destruct (eqb _ _); eauto.
Qed.
(** The frames of the new entries. *)
Lemma new_frame2 p drive g g' : NoDup g -> In drive g -> in_frame (e_sched (u2_entry [(0, Play p drive)] g) (fun _ => 0%R)) drive g' -> forall ch, In ch g' <-> In ch g.
Proof.
  intros Hn Hg H ch. assert (S : forall t ph c, shifted (e_sched (u2_entry [(0, Play p drive)] g) (fun _ => 0%R)) t ph c <-> In c g /\ ((t = 0 /\ ph = (- 0 + PI / 2)%R) \/ (t = duration [(0, Play p drive)] /\ ph = (- 0 + - PI / 2)%R))).
  { intros t ph c. unfold shifted. cbn [u2_entry e_sched]. rewrite !in_app_iff. unfold fc. rewrite !in_map_iff. split.
    - intros [[E|[]]|[(c' & E & Hc)|(c' & E & Hc)]]; [discriminate|injection E as <- <- <-; auto|injection E as <- <- <-; auto].
    - intros (Hc & [[-> ->]|[-> ->]]); right; [left|right]; eauto. }
  destruct H as [(t & ph & H1 & H2)|[H _]].
  - rewrite H2, S. apply S in H1. destruct H1 as [_ H1]. intuition.
  - exfalso. apply (H 0 (- 0 + PI / 2)%R). apply S. auto.
Qed.
Lemma new_frame3 p drive g g' : NoDup g -> In drive g -> in_frame (e_sched (u3_entry [(0, Play p drive)] g) (fun _ => 0%R)) drive g' -> forall ch, In ch g' <-> In ch g.
Proof.
  intros Hn Hg H ch. assert (S : forall t ph c, shifted (e_sched (u3_entry [(0, Play p drive)] g) (fun _ => 0%R)) t ph c <-> In c g /\ ((t = 0 /\ ph = (- 0 + 0)%R) \/ (t = duration [(0, Play p drive)] /\ ph = (- 0 + - PI)%R) \/ (t = 2 * duration [(0, Play p drive)] /\ ph = (- 0 + PI)%R))).
  { intros t ph c. unfold shifted. cbn [u3_entry e_sched]. rewrite !in_app_iff. unfold fc. rewrite !in_map_iff. split.
    - intros [[E|[]]|[[E|[]]|[(c' & E & Hc)|[(c' & E & Hc)|(c' & E & Hc)]]]]; try discriminate E; injection E as <- <- <-; auto.
    - intros (Hc & [[-> ->]|[[-> ->]|[-> ->]]]); right; right; [left|right; left|right; right]; eauto. }
  destruct H as [(t & ph & H1 & H2)|[H _]].
  - rewrite H2, S. apply S in H1. destruct H1 as [_ H1]. intuition.
  - exfalso. apply (H 0 (- 0 + 0)%R). apply S. auto.
Qed.
Lemma shifts_of_app l l' ch : shifts_of (l ++ l') ch = shifts_of l ch ++ shifts_of l' ch.
Proof. apply flat_map_app. Qed.
Lemma shifts_u2 p drive g v ch : NoDup g -> shifts_of (e_sched (u2_entry [(0, Play p drive)] g) v) ch = if mem ch g then [(0, (- v (str "P1") + PI / 2)%R); (p_duration p, (- v (str "P0") + - PI / 2)%R)] else [].
Proof. intros Hn. cbn [u2_entry e_sched]. rewrite !shifts_of_app, !shifts_fc by exact Hn. cbn [shifts_of flat_map snd app]. rewrite duration_one. destruct (mem ch g); reflexivity. Qed.
Lemma shifts_u3 p drive g v ch : NoDup g -> shifts_of (e_sched (u3_entry [(0, Play p drive)] g) v) ch = if mem ch g then [(0, (- v (str "P2") + 0)%R); (p_duration p, (- v (str "P0") + - PI)%R); (2 * p_duration p, (- v (str "P1") + PI)%R)] else [].
Proof. intros Hn. cbn [u3_entry e_sched]. rewrite !shifts_of_app, !shifts_fc by exact Hn. cbn [shifts_of flat_map snd app shift map fst]. rewrite duration_one. destruct (mem ch g); reflexivity. Qed.
