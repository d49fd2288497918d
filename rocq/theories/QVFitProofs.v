(** Proofs about the states of the quantum-volume fitter. *)
From Coq Require Import QArith Lqa.
From Verif Require Import Base ResultFacts PyStr CountsModel CountsSpec CountsProofs MeasCalModel RBSeqModel RBFitModel RBFitSpec RBFitProofs QVModel QVSpec QVHeavyProofs.
Open Scope nat_scope.

Lemma loop_inv {S A} (P : S -> Prop) (step : S -> A -> S * option pyerr) l :
  (forall f a, In a l -> P f -> P (fst (step f a))) -> forall f, P f -> P (fst (loop step f l)).
Proof.
  induction l as [|a l IH]; intros H f Hf; cbn [loop]; auto.
  specialize (H f a (or_introl eq_refl) Hf) as Ha. destruct (step f a) as [f' [x|]]; cbn [fst] in *; auto.
  apply IH; auto. intros g b Hb. apply H. right; exact Hb.
Qed.

(** ** What each step leaves alone *)
Definition same_ideal (f f' : qv) : Prop :=
  v_depths f' = v_depths f /\ v_prob_ideal f' = v_prob_ideal f /\ v_heavy f' = v_heavy f /\ v_heavy_ideal f' = v_heavy_ideal f.
Lemma same_ideal_refl f : same_ideal f f. Proof. repeat split. Qed.
Lemma same_ideal_trans f g h : same_ideal f g -> same_ideal g h -> same_ideal f h.
Proof. intros (A1 & A2 & A3 & A4) (B1 & B2 & B3 & B4). repeat split; congruence. Qed.
Lemma loop_same {A} (step : qv -> A -> qv * option pyerr) l : (forall f a, same_ideal f (fst (step f a))) -> forall f, same_ideal f (fst (loop step f l)).
Proof.
  intros H f. apply (loop_inv (same_ideal f)); [|apply same_ideal_refl]. intros g a _ Hg. eapply same_ideal_trans; [exact Hg | apply H].
Qed.
Lemma note_circuit_same f e : same_ideal f (fst (note_circuit f e)).
Proof. unfold note_circuit. destruct (undec _); [|apply same_ideal_refl]. cbn [fst]. destruct (_ <? _)%Z; repeat split. Qed.
Lemma note_result_same f r : same_ideal f (fst (note_result f r)).
Proof.
  unfold note_result. eapply same_ideal_trans; [|apply loop_same; intros; apply note_circuit_same]. repeat split.
Qed.
Lemma calc_circuit_same f name : same_ideal f (fst (calc_circuit f name)).
Proof. unfold calc_circuit. destruct (dget _ _); [|repeat split]. destruct (ratio _ _); repeat split. Qed.
Lemma calc_data_same f : same_ideal f (fst (calc_data f)).
Proof. apply loop_same. apply calc_circuit_same. Qed.
Lemma calc_statistics_same f : same_ideal f (fst (calc_statistics f)).
Proof. unfold calc_statistics. destruct (fill_ydata _ _). repeat split. Qed.
Lemma add_data_same f rs b : same_ideal f (fst (add_data f rs b)).
Proof.
  unfold add_data. destruct rs as [rs|]; [|apply same_ideal_refl].
  pose proof (loop_same note_result rs note_result_same f) as H1. destruct (loop note_result f rs) as [f1 [x|]]; cbn [fst] in *; auto.
  destruct b; auto. pose proof (calc_data_same f1) as H2. destruct (calc_data f1) as [f2 [x|]]; cbn [fst] in *; [eapply same_ideal_trans; eauto|].
  eapply same_ideal_trans; [exact H1|]. eapply same_ideal_trans; [exact H2|]. apply calc_statistics_same.
Qed.

(** ** The ideal circuits *)
Definition depth_in (name : pystr) : result Z := do w <- index_e (split "_"%char name) 2; undec w.
Definition inv_ideal (given : svexp -> Prop) (f : qv) : Prop :=
  (forall name, In name (dkeys (v_heavy_ideal f)) <-> In name (dkeys (v_heavy f))) /\
  forall name heavy, dget (v_heavy f) name = Some heavy -> exists e d dist,
    given e /\ s_name e = name /\ depth_in name = Ok (Z.of_nat d) /\ ideal_probs (s_vec e) d = Ok dist /\
    heavy = heavy_strings dist (np_median (map snd dist)) /\
    dget (v_prob_ideal f) name = Some dist /\ dget (v_heavy_ideal f) name = Some (subset_probability heavy dist).

Lemma inv_ideal_same given f f' : same_ideal f f' -> inv_ideal given f -> inv_ideal given f'.
Proof. intros (_ & E2 & E3 & E4) [H1 H2]. unfold inv_ideal. rewrite E2, E3, E4. split; auto. Qed.

Lemma add_statevector_inv r f e f' : add_statevector r f e = (f', None) -> exists e' d dist,
  In e' r /\ s_name e' = s_name e /\ depth_in (s_name e) = Ok (Z.of_nat d) /\ dget (v_heavy f) (s_name e) = None /\ ideal_probs (s_vec e') d = Ok dist /\
  f' = set_ideal f (dset (v_prob_ideal f) (s_name e) dist) (dset (v_heavy f) (s_name e) (heavy_strings dist (np_median (map snd dist))))
              (dset (v_heavy_ideal f) (s_name e) (subset_probability (heavy_strings dist (np_median (map snd dist))) dist)).
Proof.
  unfold add_statevector, depth_in. intros H.
  destruct (index_e (split "_"%char (s_name e)) 2) as [w|]; [|discriminate]. cbn [bind] in H |- *.
  destruct (undec w) as [z|]; [|discriminate]. cbn [bind] in H |- *.
  destruct (dmem (v_heavy f) (s_name e)) eqn:Hm; [discriminate|].
  unfold get_statevector in H. destruct (find _ r) as [e'|] eqn:Ef; [|discriminate]. cbn [bind] in H.
  destruct (Z.ltb_spec z 0) as [Hz|Hz]; [discriminate|].
  destruct (ideal_probs (s_vec e') (Z.to_nat z)) as [dist|] eqn:Ed; [|discriminate]. cbn [bind] in H. injection H as <-.
  apply find_some in Ef. destruct Ef as [Hi En]. apply eqb_true in En.
  exists e', (Z.to_nat z), dist. rewrite Z2Nat.id by exact Hz. repeat split; auto.
  rewrite dmem_dget in Hm. destruct (dget (v_heavy f) (s_name e)); [discriminate | reflexivity].
Qed.
Lemma add_statevector_fail r f e f' x : add_statevector r f e = (f', Some x) -> f' = f.
Proof. unfold add_statevector. destruct (bind _ _); congruence. Qed.

Lemma add_statevector_keeps (given : svexp -> Prop) r f e : (forall e', In e' r -> given e') -> inv_ideal given f -> inv_ideal given (fst (add_statevector r f e)).
Proof.
  intros Hg [H1 H2]. destruct (add_statevector r f e) as [f' [x|]] eqn:E; cbn [fst].
  - apply add_statevector_fail in E. subst. split; auto.
  - apply add_statevector_inv in E. destruct E as (e' & d & dist & Hi & En & Ed & Hn & Ep & ->). cbn [set_ideal v_heavy v_heavy_ideal v_prob_ideal].
    split.
    + intros name. cbn [set_ideal v_heavy v_heavy_ideal]. rewrite !In_dkeys_dset, H1. reflexivity.
    + intros name heavy. cbn [set_ideal v_heavy v_heavy_ideal v_prob_ideal]. rewrite !dget_dset. destruct (eqb_spec name (s_name e)) as [->|Hne].
      * intros Eh. injection Eh as <-. exists e', d, dist. repeat split; auto.
      * apply H2.
Qed.

Lemma add_statevectors_keeps (given : svexp -> Prop) f rs : (forall l r e, rs = Some l -> In r l -> In e r -> given e) -> inv_ideal given f -> inv_ideal given (fst (add_statevectors f rs)).
Proof.
  intros Hg Hf. destruct rs as [rs|]; cbn [add_statevectors fst]; auto.
  apply (loop_inv (inv_ideal given)); auto. intros g r Hr Hgi. apply (loop_inv (inv_ideal given)); auto.
  intros g' e He Hg'. apply add_statevector_keeps; auto. intros e' He'. apply (Hg rs r e'); auto.
Qed.

Lemma history_app qls l l' : history qls (l ++ l') = fold_left act l' (history qls l).
Proof. apply fold_left_app. Qed.
Lemma history_ideal qls l : inv_ideal (ideal_given l) (history qls l).
Proof.
  unfold history.
  assert (X : forall l' f, (forall a, In a l' -> In a l) -> inv_ideal (ideal_given l) f -> inv_ideal (ideal_given l) (fold_left act l' f)).
  { induction l' as [|a l' IH]; intros f Hl Hf; cbn [fold_left]; auto. apply IH; [intros b Hb; apply Hl; right; exact Hb|].
    destruct a as [s|r b]; cbn [act].
    - apply add_statevectors_keeps; auto. intros rs r e -> Hr He. exists rs, r. split; [apply Hl; left; reflexivity | auto].
    - apply (inv_ideal_same _ f); auto. apply add_data_same. }
  apply X; auto. split; cbn; [tauto|]. intros; discriminate.
Qed.

(** ** Circuit names *)
Lemma split_sep c a s : ~ In c a -> split c (a ++ c :: s) = a :: split c s.
Proof.
  intros H. unfold split. assert (X : forall cur, split_go c cur (a ++ c :: s) = (rev cur ++ a) :: split_go c [] s).
  { induction a as [|b a IH]; intros cur; cbn [app split_go].
    - rewrite eqb_refl. rewrite app_nil_r. reflexivity.
    - destruct (eqb_spec b c) as [E|_]; [exfalso; apply H; left; exact E|]. rewrite IH by (intros Hi; apply H; right; exact Hi). cbn [rev]. rewrite <- app_assoc. reflexivity. }
  rewrite X. reflexivity.
Qed.
Lemma split_name d t : split "_"%char (qv_name d t) = [str "qv"; str "depth"; dec d; str "trial"; dec t].
Proof.
  unfold qv_name. change (str "qv_depth_") with (str "qv" ++ "_"%char :: str "depth" ++ ["_"%char]). rewrite <- !app_assoc. cbn [app].
  rewrite split_sep by (cbn; intuition discriminate). f_equal. rewrite <- !app_assoc. cbn [app]. rewrite split_sep by (cbn; intuition discriminate). f_equal.
  change (str "_trial_") with ("_"%char :: str "trial" ++ ["_"%char]). cbn [app]. rewrite split_sep by (apply dec_not_digit; reflexivity). f_equal.
  rewrite <- app_assoc. cbn [app]. rewrite split_sep by (cbn; intuition discriminate). f_equal.
  unfold split. rewrite split_go_plain by (apply dec_not_digit; reflexivity). reflexivity.
Qed.
Lemma depth_in_name d t : depth_in (qv_name d t) = Ok (Z.of_nat d).
Proof. unfold depth_in. rewrite split_name. cbn [index_e nth_error bind]. apply undec_dec. Qed.
Lemma qv_name_inj d t d' t' : qv_name d t = qv_name d' t' -> d = d' /\ t = t'.
Proof. intros E. apply (f_equal (split "_"%char)) in E. rewrite !split_name in E. injection E as E1 E2. split; apply dec_inj; assumption. Qed.

(** ** Counts *)
Lemma subset_wsum heavy c : NoDup heavy -> NoDup (map fst c) -> subset_counts heavy c = wsum (fun k => mem k heavy) c.
Proof.
  intros Hh Hc. unfold subset_counts, wsum.
  transitivity (zsum (map (fun k => zsum (map (fun kv => if eqb (fst kv) k then snd kv else 0%Z) c)) heavy)).
  { apply zsum_map_ext. intros k _. unfold dget0. clear Hh. induction c as [|[k0 v0] c IH]; cbn [dget map zsum fst snd]; auto.
    cbn [map fst] in Hc. apply NoDup_cons_iff in Hc. destruct Hc as [Hn Hc]. rewrite (eqb_sym k k0). destruct (eqb_spec k0 k) as [->|Hne].
    - rewrite (zsum_map_ext _ (fun _ => 0%Z)); [rewrite zsum_map_zero; lia|]. intros [k' v'] Hi. cbn [fst snd]. destruct (eqb_spec k' k) as [->|]; auto. exfalso. apply Hn. apply in_map_iff. exists (k, v'); auto.
    - rewrite IH by exact Hc. lia. }
  rewrite zsum_swap. apply zsum_map_ext. intros [k v] _. cbn [fst snd]. clear Hc.
  induction heavy as [|h heavy IH]; cbn [map zsum]; auto. apply NoDup_cons_iff in Hh. destruct Hh as [Hn Hh].
  rewrite IH by exact Hh. unfold mem. cbn [existsb]. fold (mem k heavy). destruct (eqb_spec k h) as [->|Hne]; cbn [orb].
  - apply mem_not_In in Hn. rewrite Hn. lia.
  - lia.
Qed.
Lemma wsum_le P c : (forall kv, In kv c -> (0 <= snd kv)%Z) -> (0 <= wsum P c <= zsum (dvals c))%Z.
Proof.
  intros H. unfold wsum, dvals. induction c as [|[k v] c IH]; cbn [map zsum fst snd]; [lia|].
  pose proof (H (k, v) (or_introl eq_refl)) as Hv. cbn [snd] in Hv. pose proof (IH (fun kv Hi => H kv (or_intror Hi))). destruct (P k); lia.
Qed.
Lemma count_list_in rs name c : In c (count_list rs name) -> exists r e, In r rs /\ In e r /\ e_counts e = c.
Proof.
  unfold count_list. intros H. apply in_flat_map in H. destruct H as (r & Hr & H). unfold get_counts in H.
  destruct (find _ r) as [e|] eqn:E; [|destruct H]. destruct H as [<-|[]]. apply find_some in E. exists r, e. tauto.
Qed.
Lemma dset_nonneg (d : counts) k v : (forall kv, In kv d -> (0 <= snd kv)%Z) -> (0 <= v)%Z -> forall kv, In kv (dset d k v) -> (0 <= snd kv)%Z.
Proof.
  intros H Hv. induction d as [|[k0 v0] d IH]; cbn [dset]; intros kv.
  - intros [<-|[]]. exact Hv.
  - destruct (eqb k k0).
    + intros [<-|Hi]; [exact Hv | apply H; right; exact Hi].
    + intros [<-|Hi]; [apply (H (k0, v0)); left; reflexivity|]. apply IH; auto. intros kv' Hi'. apply H. right; exact Hi'.
Qed.
Lemma dget0_nonneg (d : counts) k : (forall kv, In kv d -> (0 <= snd kv)%Z) -> (0 <= dget0 d k)%Z.
Proof.
  intros H. unfold dget0. destruct (dget d k) as [v|] eqn:E; [|lia]. apply dget_Some_In in E. apply (H _ E).
Qed.
Lemma build_nonneg l : (forall c, In c l -> forall kv, In kv c -> (0 <= snd kv)%Z) -> forall kv, In kv (build_counts l) -> (0 <= snd kv)%Z.
Proof.
  intros H. assert (X : forall l (acc : counts), (forall c, In c l -> forall kv, In kv c -> (0 <= snd kv)%Z) -> (forall kv, In kv acc -> (0 <= snd kv)%Z) ->
    forall kv, In kv (fold_left (fun acc c => fold_left (fun r kv => dset r (fst kv) (dget0 r (fst kv) + snd kv)%Z) c acc) l acc) -> (0 <= snd kv)%Z).
  { clear. induction l as [|c l IH]; intros acc Hl Ha; cbn [fold_left]; auto. apply IH; [intros c' Hc'; apply Hl; right; exact Hc'|].
    assert (Hc := Hl c (or_introl eq_refl)). clear - Hc Ha. revert acc Ha. induction c as [|[k v] c IHc]; intros acc Ha; cbn [fold_left fst snd]; auto.
    apply IHc; [intros kv Hi; apply Hc; right; exact Hi|]. apply dset_nonneg; auto. pose proof (dget0_nonneg acc k Ha). pose proof (Hc (k, v) (or_introl eq_refl)). cbn [snd] in *. lia. }
  unfold build_counts. destruct l as [|c [|c' l]]; [intros kv [] | apply (H c); left; reflexivity|]. apply X; auto. intros kv [].
Qed.
Lemma pooled_fine rs name : (forall r, In r rs -> proper r) ->
  NoDup (map fst (build_counts (count_list rs name))) /\ forall kv, In kv (build_counts (count_list rs name)) -> (0 <= snd kv)%Z.
Proof.
  intros H. split.
  - apply build_keys. intros c Hc. apply count_list_in in Hc. destruct Hc as (r & e & Hr & He & <-). apply (H r Hr). exact He.
  - apply build_nonneg. intros c Hc. apply count_list_in in Hc. destruct Hc as (r & e & Hr & He & <-). apply (H r Hr). exact He.
Qed.

(** ** Results *)
Definition inv_data (given : qresult -> Prop) (f : qv) : Prop :=
  (forall r, In r (v_results f) -> given r) /\
  (forall name hc, dget (v_heavy_counts f) name = Some hc -> In name (dkeys (v_heavy f)) /\ exists s, dget (v_shots f) name = Some s /\ (0 <= hc <= s)%Z).

Lemma heavy_nodup given f name heavy : inv_ideal given f -> dget (v_heavy f) name = Some heavy -> NoDup heavy.
Proof.
  intros [_ H] Hn. destruct (H name heavy Hn) as (e & d & dist & _ & _ & _ & Hp & -> & _). apply (heavy_facts d _ dist _ Hp eq_refl).
Qed.

Lemma calc_circuit_keeps gi (given : qresult -> Prop) f name : (forall r, given r -> proper r) -> inv_ideal gi f -> inv_data given f -> inv_data given (fst (calc_circuit f name)).
Proof.
  intros Hp Hi [H1 H2]. unfold calc_circuit. cbn [set_exp v_heavy v_counts v_shots v_heavy_counts v_heavy_exp].
  pose proof (pooled_fine (v_results f) name (fun r Hr => Hp r (H1 r Hr))) as [Hk Hnn]. set (c := build_counts (count_list (v_results f) name)) in *.
  destruct (dget (v_heavy f) name) as [heavy|] eqn:Eh.
  - pose proof (heavy_nodup _ _ _ _ Hi Eh) as Hnd.
    assert (Hb : (0 <= subset_counts heavy c <= zsum (dvals c))%Z) by (rewrite subset_wsum by auto; apply wsum_le; exact Hnn).
    assert (G : forall he, inv_data given (set_exp f (dset (v_counts f) name c) (dset (v_shots f) name (zsum (dvals c))) (dset (v_heavy_counts f) name (subset_counts heavy c)) he)).
    { intros he. split; cbn [set_exp v_results v_heavy_counts v_heavy v_shots]; auto. intros n hc. rewrite !dget_dset. destruct (eqb_spec n name) as [->|Hne].
      - intros E. injection E as <-. split; [apply dget_Some_In, In_dkeys in Eh; exact Eh | eexists; split; [reflexivity | exact Hb]].
      - apply H2. }
    destruct (ratio _ _); apply G.
  - split; cbn [fst set_exp v_results v_heavy_counts v_heavy v_shots]; auto. intros n hc En. destruct (H2 n hc En) as [Hin Hs]. split; auto.
    rewrite dget_dset. destruct (eqb_spec n name) as [->|Hne]; auto. exfalso. apply dget_None in Eh. contradiction.
Qed.

Lemma note_circuit_data f e : v_results (fst (note_circuit f e)) = v_results f /\ v_heavy_counts (fst (note_circuit f e)) = v_heavy_counts f /\ v_shots (fst (note_circuit f e)) = v_shots f /\ v_ydata (fst (note_circuit f e)) = v_ydata f.
Proof. unfold note_circuit. destruct (undec _); [|repeat split]. cbn [fst]. destruct (_ <? _)%Z; repeat split. Qed.
Lemma note_result_data f r : v_results (fst (note_result f r)) = v_results f ++ [r] /\ v_heavy_counts (fst (note_result f r)) = v_heavy_counts f /\ v_shots (fst (note_result f r)) = v_shots f /\ v_ydata (fst (note_result f r)) = v_ydata f.
Proof.
  unfold note_result. set (f0 := set_run f (v_ntrials f) (v_results f ++ [r])).
  change (v_results f ++ [r]) with (v_results f0). change (v_heavy_counts f) with (v_heavy_counts f0). change (v_shots f) with (v_shots f0). change (v_ydata f) with (v_ydata f0).
  apply (loop_inv (fun g => v_results g = v_results f0 /\ v_heavy_counts g = v_heavy_counts f0 /\ v_shots g = v_shots f0 /\ v_ydata g = v_ydata f0)); [|repeat split].
  intros g a _ (A & B & C & D). destruct (note_circuit_data g a) as (A' & B' & C' & D'). repeat split; congruence.
Qed.

Lemma add_data_keeps gi (given : qresult -> Prop) f rs b : (forall r, given r -> proper r) -> (forall l r, rs = Some l -> In r l -> given r) ->
  inv_ideal gi f -> inv_data given f -> inv_data given (fst (add_data f rs b)).
Proof.
  intros Hp Hg Hi Hd. unfold add_data. destruct rs as [rs|]; auto.
  assert (H1 : inv_ideal gi (fst (loop note_result f rs)) /\ inv_data given (fst (loop note_result f rs))).
  { apply (loop_inv (fun g => inv_ideal gi g /\ inv_data given g)); [|auto]. intros g r Hr [Gi [G1 G2]].
    pose proof (note_result_same g r) as Hs. split; [apply (inv_ideal_same _ g); auto|].
    destruct (note_result_data g r) as (A & B & C & D). destruct Hs as (_ & _ & S3 & _). unfold inv_data. rewrite A, B, C, S3. split; auto.
    intros r' Hr'. apply in_app_iff in Hr'. destruct Hr' as [Hr'|[<-|[]]]; auto. apply (Hg rs); auto. }
  destruct (loop note_result f rs) as [f1 [x|]]; cbn [fst] in *; [tauto|]. destruct b; [|tauto]. destruct H1 as [Hi1 Hd1].
  assert (H2 : inv_ideal gi (fst (calc_data f1)) /\ inv_data given (fst (calc_data f1))).
  { unfold calc_data. apply (loop_inv (fun g => inv_ideal gi g /\ inv_data given g)); [|auto]. intros g name _ [Gi Gd].
    split; [apply (inv_ideal_same _ g); auto; apply calc_circuit_same | apply (calc_circuit_keeps gi); auto]. }
  destruct (calc_data f1) as [f2 [x|]]; cbn [fst] in *; [tauto|]. unfold calc_statistics. destruct (fill_ydata f2 (v_depths f2)). cbn [fst]. apply H2.
Qed.

Lemma add_statevectors_data f rs (given : qresult -> Prop) : inv_data given f -> inv_data given (fst (add_statevectors f rs)).
Proof.
  intros H. destruct rs as [rs|]; cbn [add_statevectors fst]; auto.
  apply (loop_inv (inv_data given)); auto. intros g r _ Hg. apply (loop_inv (inv_data given)); auto. intros g' e _ [H1 H2].
  destruct (add_statevector r g' e) as [f' [x|]] eqn:E; cbn [fst].
  - apply add_statevector_fail in E. subst. split; auto.
  - apply add_statevector_inv in E. destruct E as (e' & d & dist & _ & _ & _ & _ & _ & ->).
    split; cbn [set_ideal v_results v_heavy_counts v_heavy v_shots]; auto. intros n hc En. destruct (H2 n hc En) as [Hin Hs]. split; auto. apply In_dkeys_dset. right. exact Hin.
Qed.

Lemma history_data qls l : (forall r, result_given l r -> proper r) -> inv_data (result_given l) (history qls l).
Proof.
  intros Hp. unfold history.
  assert (X : forall l' f, (forall a, In a l' -> In a l) -> inv_ideal (ideal_given l) f -> inv_data (result_given l) f -> inv_data (result_given l) (fold_left act l' f)).
  { induction l' as [|a l' IH]; intros f Hl Hi Hd; cbn [fold_left]; auto. apply IH; [intros b Hb; apply Hl; right; exact Hb| |].
    - destruct a as [s|r b]; cbn [act].
      + apply add_statevectors_keeps; auto. intros rs r e -> Hr He. exists rs, r. split; [apply Hl; left; reflexivity | auto].
      + apply (inv_ideal_same _ f); auto. apply add_data_same.
    - destruct a as [s|rs b]; cbn [act].
      + apply add_statevectors_data; exact Hd.
      + apply (add_data_keeps (ideal_given l)); auto. intros l0 r -> Hr. exists l0, b. split; [apply Hl; left; reflexivity | exact Hr]. }
  apply X; auto.
  - split; cbn; [tauto|]. intros; discriminate.
  - split; cbn; [tauto|]. intros; discriminate.
Qed.

(** ** Rejections *)
Lemma loop_raises {S A} (P : S -> Prop) (step : S -> A -> S * option pyerr) l a :
  (forall f b, In b l -> P f -> P (fst (step f b))) -> (forall f, P f -> snd (step f a) <> None) -> In a l ->
  forall f, P f -> snd (loop step f l) <> None.
Proof.
  induction l as [|b l IH]; intros Hk Hr Hi f Hf; [destruct Hi|]. cbn [loop].
  pose proof (Hk f b (or_introl eq_refl) Hf) as Hb. destruct Hi as [->|Hi].
  - specialize (Hr f Hf). destruct (step f a) as [f' [x|]]; cbn [snd] in *; congruence.
  - destruct (step f b) as [f' [x|]]; cbn [fst snd] in *; [congruence|]. apply IH; auto. intros g c Hc. apply Hk. right; exact Hc.
Qed.

Lemma add_statevector_grows r f e n : In n (dkeys (v_heavy f)) -> In n (dkeys (v_heavy (fst (add_statevector r f e)))).
Proof.
  intros H. destruct (add_statevector r f e) as [f' [x|]] eqn:E; cbn [fst].
  - apply add_statevector_fail in E. subst. exact H.
  - apply add_statevector_inv in E. destruct E as (e' & d & dist & _ & _ & _ & _ & _ & ->). cbn [set_ideal v_heavy]. apply In_dkeys_dset. right. exact H.
Qed.
Lemma ideal_twice f rs r e : In (s_name e) (dkeys (v_heavy f)) -> In r rs -> In e r -> snd (add_statevectors f (Some rs)) <> None.
Proof.
  intros H Hr He. cbn [add_statevectors]. set (P := fun g => In (s_name e) (dkeys (v_heavy g))).
  assert (Hk : forall r' g e', P g -> P (fst (add_statevector r' g e'))) by (intros; apply add_statevector_grows; assumption).
  apply (loop_raises P _ _ r); auto.
  - intros g r' _ Hg. apply (loop_inv P); auto.
  - intros g Hg. apply (loop_raises P _ _ e); auto. intros g' Hg'. destruct (add_statevector r g' e) as [f' [x|]] eqn:E; cbn [snd]; [congruence|].
    apply add_statevector_inv in E. destruct E as (e' & d & dist & _ & _ & _ & Hn & _). apply dget_None in Hn. contradiction.
Qed.
Lemma ideal_twice_one f e d t : s_name e = qv_name d t -> In (s_name e) (dkeys (v_heavy f)) -> add_statevectors f (Some [[e]]) = (f, Some QiskitError).
Proof.
  intros En H. cbn [add_statevectors loop]. unfold add_statevector. rewrite En in *. 
  assert (Ed := depth_in_name d t). unfold depth_in in Ed. destruct (index_e (split "_"%char (qv_name d t)) 2) as [w|]; [|discriminate]. cbn [bind] in *. rewrite Ed. cbn [bind].
  apply dmem_spec in H. rewrite H. reflexivity.
Qed.
Lemma ideal_added f e d t : s_name e = qv_name d t -> ~ In (s_name e) (dkeys (v_heavy f)) -> 2 ^ d <= length (s_vec e) ->
  exists f', add_statevectors f (Some [[e]]) = (f', None) /\ In (s_name e) (dkeys (v_heavy f')).
Proof.
  intros En H Hl. cbn [add_statevectors loop]. unfold add_statevector at 1. rewrite En in *.
  assert (Ed := depth_in_name d t). unfold depth_in in Ed. destruct (index_e (split "_"%char (qv_name d t)) 2) as [w|]; [|discriminate]. cbn [bind] in *. rewrite Ed. cbn [bind].
  destruct (dmem (v_heavy f) (qv_name d t)) eqn:Em; [apply dmem_spec in Em; contradiction|].
  unfold get_statevector. cbn [find]. rewrite En, eqb_refl. cbn [bind]. destruct (Z.ltb_spec (Z.of_nat d) 0); [lia|]. rewrite Nat2Z.id.
  destruct (ideal_probs_total (s_vec e) d Hl) as [dist ->]. cbn [bind]. eexists. split; [reflexivity|]. cbn [set_ideal v_heavy]. apply In_dkeys_dset. left. reflexivity.
Qed.
Lemma data_early f rs b r e : ~ In (e_name e) (dkeys (v_heavy_ideal f)) -> In r rs -> In e r -> snd (add_data f (Some rs) b) <> None.
Proof.
  intros H Hr He. unfold add_data. set (P := fun g => v_heavy_ideal g = v_heavy_ideal f).
  assert (Hp : snd (loop note_result f rs) <> None).
  { apply (loop_raises P _ _ r); auto; [| |reflexivity].
    - intros g r' _ Hg. unfold P in *. destruct (note_result_same g r') as (_ & _ & _ & ->). exact Hg.
    - intros g Hg. unfold note_result. apply (loop_raises P _ _ e); auto.
      + intros g' e' _ Hg'. unfold P in *. destruct (note_circuit_same g' e') as (_ & _ & _ & ->). exact Hg'.
      + intros g' Hg'. unfold note_circuit. destruct (undec _); cbn [snd]; [|congruence].
        match goal with |- (if dmem (v_heavy_ideal ?h) _ then _ else _) <> _ => replace (v_heavy_ideal h) with (v_heavy_ideal f) end.
        * destruct (dmem (v_heavy_ideal f) (e_name e)) eqn:E; [apply dmem_spec in E; contradiction | congruence].
        * unfold P in Hg'. destruct (_ <? _)%Z; cbn; congruence. }
  destruct (loop note_result f rs) as [f1 [x|]]; cbn [snd] in *; congruence.
Qed.
Lemma data_early_one f e d t b : e_name e = qv_name d t -> ~ In (e_name e) (dkeys (v_heavy_ideal f)) -> exists f',
  add_data f (Some [[e]]) b = (f', Some QiskitError) /\ v_results f' = v_results f ++ [[e]].
Proof.
  intros En H. unfold add_data. cbn [loop]. unfold note_result. cbn [loop]. unfold note_circuit. rewrite En in *. rewrite split_name. cbn [last]. rewrite undec_dec.
  cbn [set_run v_ntrials v_results]. destruct (_ <? _)%Z; cbn [set_run v_heavy_ideal]; (destruct (dmem (v_heavy_ideal f) (qv_name d t)) eqn:E; [apply dmem_spec in E; contradiction | eexists; split; reflexivity]).
Qed.

(** ** Summary for an ideal circuit *)
Lemma heavy_summary qls acts name heavy : dget (v_heavy (history qls acts)) name = Some heavy ->
  exists e p, ideal_given acts e /\ s_name e = name /\ NoDup heavy /\ dget (v_heavy_ideal (history qls acts)) name = Some p /\
  forall d t, name = qv_name d t ->
    2 ^ d <= length (s_vec e) /\ 2 * length heavy <= 2 ^ d /\
    (1 <= d ->
      (exists m, is_median (all_probs (s_vec e) d) m /\ forall k, In k heavy <-> (length k = d /\ is_bits k) /\ (m < string_prob (s_vec e) k)%Q) /\
      (p == sumq (map (string_prob (s_vec e)) heavy))%Q /\
      (distinct (all_probs (s_vec e) d) -> (sumq (all_probs (s_vec e) d) < (2 # 1) * p)%Q)).
Proof.
  intros H. destruct (proj2 (history_ideal qls acts) name heavy H) as (e & d & dist & Hg & En & Ed & Ep & Eh & _ & Ei).
  exists e, (subset_probability heavy dist). destruct (heavy_facts d _ dist heavy Ep Eh) as (Hnd & Hhalf & Hd). repeat split; auto; intros.
  - subst name. rewrite H0, depth_in_name in Ed. injection Ed as Ed. apply Nat2Z.inj in Ed. subst d0. apply ideal_probs_inv in Ep. apply Ep.
  - subst name. rewrite H0, depth_in_name in Ed. injection Ed as Ed. apply Nat2Z.inj in Ed. subst d0. exact Hhalf.
  - subst name. rewrite H0, depth_in_name in Ed. injection Ed as Ed. apply Nat2Z.inj in Ed. subst d0. exists (np_median (all_probs (s_vec e) d)). split; [apply np_median_is|].
    intros k. destruct (Hd H1) as [Hk _]. rewrite Hk. split.
    + intros [A B]. split; auto. apply B, np_median_is.
    + intros [A B]. split; auto. intros m Hm. rewrite (median_unique _ _ _ Hm (np_median_is _)). exact B.
  - subst name. rewrite H0, depth_in_name in Ed. injection Ed as Ed. apply Nat2Z.inj in Ed. subst d0. apply (heavy_prob_sum d); auto.
  - subst name. rewrite H0, depth_in_name in Ed. injection Ed as Ed. apply Nat2Z.inj in Ed. subst d0. apply (Hd H1). assumption.
Qed.
Lemma given_proper qls acts rs b : (forall r, result_given (acts ++ [AddData (Some rs) b]) r -> proper r) ->
  forall r, In r (v_results (history qls acts) ++ rs) -> proper r.
Proof.
  intros Hp r Hr. apply in_app_or in Hr. destruct Hr as [Hr|Hr].
  - assert (Hp' : forall r0, result_given acts r0 -> proper r0) by (intros r0 (x & b0 & Hx & Hi); apply Hp; exists x, b0; split; [apply in_or_app; left; exact Hx | exact Hi]).
    apply Hp'. apply (proj1 (history_data qls acts Hp')). exact Hr.
  - apply Hp. exists rs, b. split; [apply in_or_app; right; left; reflexivity | exact Hr].
Qed.
