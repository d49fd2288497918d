(** The circuits of gate-set tomography. *)
From Coq Require Import QArith Reals.
From Verif Require Import Base LinAlg PyStr DihedralModel RBSeqModel ResultFacts TomoModel TomoSpec TomoNameProofs TomoCircProofs GstModel GstSpec.
Local Open Scope list_scope.
Local Open Scope nat_scope.

Lemma split_go_quote s cur rest : plain s -> split_go quote cur (s ++ quote :: rest) = (rev cur ++ s) :: split_go quote [] rest.
Proof.
  revert cur. induction s as [|a s IH]; intros cur H; cbn [app split_go].
  - destruct (eqb_spec quote quote); [|congruence]. now rewrite app_nil_r.
  - inversion H as [|? ? Ha Hs]; subst. destruct (eqb_spec a quote) as [E|]; [now destruct Ha|].
    rewrite IH by assumption. cbn [rev]. now rewrite <- app_assoc.
Qed.
Lemma split_quote s rest : plain s -> split quote (s ++ quote :: rest) = s :: split quote rest.
Proof. intros H. unfold split. now rewrite split_go_quote. Qed.

Lemma groups_name p m : plain p -> plain m -> two_groups (circuit_name (Some [p]) (Some [m])) = Ok (p, m).
Proof.
  intros Hp Hm.
  assert (E : circuit_name (Some [p]) (Some [m]) = str "((" ++ quote :: p ++ quote :: str ",), (" ++ quote :: m ++ quote :: str ",))").
  { unfold circuit_name. cbn. rewrite <- ?app_assoc. cbn. rewrite <- ?app_assoc. reflexivity. }
  rewrite E. unfold two_groups, pieces.
  rewrite split_quote by (repeat constructor; discriminate). rewrite split_quote by assumption.
  rewrite split_quote by (repeat constructor; discriminate). rewrite split_quote by assumption.
  reflexivity.
Qed.
Lemma group_name m : plain m -> one_group (circuit_name None (Some [m])) = Ok m.
Proof.
  intros Hm.
  assert (E : circuit_name None (Some [m]) = str "(" ++ quote :: m ++ quote :: str ",)").
  { unfold circuit_name. cbn. rewrite <- ?app_assoc. cbn. rewrite <- ?app_assoc. reflexivity. }
  rewrite E. unfold one_group, pieces.
  rewrite split_quote by (repeat constructor; discriminate). rewrite split_quote by assumption. reflexivity.
Qed.

Lemma spam_ok b q s : sound_gateset b -> In s (gs_spam_labels b) -> exists c, spam_circuit b q s = Ok c /\ spam_seq b q s c.
Proof.
  intros Hb Hs. pose proof (proj1 (Forall_forall _ _) (sg_spam b Hb) s Hs) as (ops & E & Hops).
  destruct (mapM_total (gate_circuit b q) (gate_seq b q) ops) as (cs & E' & F).
  { intros g Hg. rewrite Forall_forall in Hops. destruct (Hops g Hg) as [f Ef]. exists (f q). unfold gate_circuit. rewrite Ef. split; [reflexivity|]. exists f. auto. }
  exists (concat cs). unfold spam_circuit. rewrite E, E'. split; [reflexivity|]. exists ops, cs. auto.
Qed.
Lemma check_spam_ok b q : sound_gateset b -> check_spam b q = Ok tt.
Proof.
  intros Hb. unfold check_spam.
  destruct (mapM_total (spam_circuit b q) (fun _ _ => True) (gs_spam_labels b)) as (cs & E & _); [|now rewrite E].
  intros s Hs. destruct (spam_ok b q s Hb Hs) as (c & E & _). eauto.
Qed.
Lemma spam_body_seq b q s : sound_gateset b -> In s (gs_spam_labels b) -> spam_seq b q s (spam_body b s q).
Proof. intros Hb Hs. destruct (spam_ok b q s Hb Hs) as (c & E & H). unfold spam_body. now rewrite E. Qed.

Lemma tuples_one ls : operator_tuples ls 1 = map (fun a => [a]) ls.
Proof. cbn [operator_tuples]. induction ls; cbn; [reflexivity|]. now f_equal. Qed.

Lemma some_q (c : tcirc) q : t_width c = 1 + q -> some_qubits c [q].
Proof. intros H. split; [discriminate|]. split; [repeat constructor; auto|]. repeat constructor. lia. Qed.

Lemma no_barriers_app a b : no_barriers (a ++ b) = no_barriers a ++ no_barriers b.
Proof. apply filter_app. Qed.

Lemma map_mapM_ok {A B} (f : A -> result B) (g : A -> B) l : (forall a, In a l -> f a = Ok (g a)) -> mapM f l = Ok (map g l).
Proof. intros H. rewrite <- mapM_Ok. now apply mapM_ext_in. Qed.
Lemma mapM_map {A B D} (f : B -> result D) (g : A -> B) l : mapM f (map g l) = mapM (fun a => f (g a)) l.
Proof. induction l as [|a l IH]; cbn; [reflexivity|]. now rewrite IH. Qed.
Lemma concat_map_map {A B D} (f : A -> B -> D) la lb : concat (map (fun a => map (f a) lb) la) = map (fun ab => f (fst ab) (snd ab)) (list_prod la lb).
Proof. induction la as [|a la IH]; cbn; [reflexivity|]. rewrite IH, map_app, map_map. reflexivity. Qed.

Section Gst.
  Variables (b : gateset) (q : nat).
  Hypothesis Hb : sound_gateset b.
  Let tb := get_tomography_basis b.
  Let ls := gs_spam_labels b.
  Lemma fine1 : Forall (fine 1 ls) (generate_labels (LTuple ls) 1).
  Proof.
    cbn [generate_labels]. rewrite tuples_one, map_map. apply Forall_forall. intros o Ho. apply in_map_iff in Ho. destruct Ho as (a & <- & Ha).
    split; [reflexivity|]. repeat constructor. assumption.
  Qed.
  Definition md : meas_data := {| md_labels := gs_spam_labels b; md_circuit := fun op q c => spam_body b op q ++ [CMeasure q c]; md_matrix := fun _ _ => no_mat |}.
  Definition pd : prep_data := {| pd_labels := gs_spam_labels b; pd_circuit := spam_body b; pd_matrix := fun _ => no_mat |}.
  Definition base (body : list cinstr) : tcirc := {| t_name := []; t_width := 1 + q; t_cregs := []; t_body := body |}.
  Definition kk (body : list cinstr) (fj fi : pystr) : tcirc := circ_for (base body) (Some pd) [q] md [q] (Some [fj]) (Some [fi]).

  Lemma run2 body : tomography_circuits (base body) [q] (Some [q]) (LTuple ls) (BObj tb) (LTuple ls) (BObj tb) = Ok (map (fun ab => kk body (fst ab) (snd ab)) (list_prod ls ls)).
  Proof.
    erewrite process_ok with (md := md) (pd := pd) (bm := tb) (bp := tb);
      [|now apply some_q|now apply some_q|reflexivity|reflexivity|reflexivity|reflexivity|reflexivity|discriminate|discriminate|reflexivity|reflexivity|apply fine1|apply fine1].
    f_equal. cbn [generate_labels length]. rewrite tuples_one, !map_map. rewrite <- concat_map_map. f_equal. apply map_ext. intros fj. rewrite map_map. reflexivity.
  Qed.
  Lemma run1 : tomography_circuits (base []) [q] (Some [q]) (LTuple ls) (BObj tb) LNone BNone = Ok (map (fun fi => circ_for (base []) None [] md [q] None (Some [fi])) ls).
  Proof.
    pose proof (state_ok (base []) [q] md (BObj tb) (LTuple ls) tb (LTuple ls)) as H. unfold state_tomography_circuits in H.
    assert (E : tomography_circuits (base []) [q] (Some [q]) (LTuple ls) (BObj tb) LNone BNone = tomography_circuits (base []) [q] None (LTuple ls) (BObj tb) LNone BNone) by reflexivity.
    rewrite E, H; [|now apply some_q|reflexivity|reflexivity|discriminate|reflexivity|apply fine1].
    f_equal. cbn [generate_labels length]. rewrite tuples_one, !map_map. reflexivity.
  Qed.

  Definition named (k : tcirc) (l : gst_label) : tcirc := renamed k (py_str (gst_tuple l)).
  Definition gate_body (g : pystr) : list cinstr := match dget (gs_gates b) g with Some f => f q | None => [] end.
  Definition all : list (gst_label * tcirc) :=
    concat (map (fun g => map (fun ab => (L3 (fst ab) g (snd ab), named (kk (gate_body g) (fst ab) (snd ab)) (L3 (fst ab) g (snd ab)))) (list_prod ls ls)) (gs_gate_labels b))
    ++ map (fun ab => (L2 (fst ab) (snd ab), named (kk [] (fst ab) (snd ab)) (L2 (fst ab) (snd ab)))) (list_prod ls ls)
    ++ map (fun fi => (L1 fi, named (circ_for (base []) None [] md [q] None (Some [fi])) (L1 fi))) ls.

  Lemma gst_run : gateset_tomography_circuits (Some [q]) (Some b) = Ok (map snd all).
  Proof.
    unfold gateset_tomography_circuits. cbn [length Nat.ltb Nat.leb].
    assert (P : forall a, In a ls -> plain a). { intros a Ha. pose proof (sg_plain' b Hb) as H. rewrite Forall_forall in H. auto. }
    rewrite (map_mapM_ok _ (fun g => map (fun ab => named (kk (gate_body g) (fst ab) (snd ab)) (L3 (fst ab) g (snd ab))) (list_prod ls ls))).
    2:{ intros g Hg. pose proof (proj1 (Forall_forall _ _) (sg_gates b Hb) g Hg) as [f Ef]. unfold gate_circuit, gate_body. rewrite Ef. cbn [bind].
        rewrite (check_spam_ok b q Hb). cbn [bind]. pose proof (run2 (f q)) as R. unfold base in R. cbn [renamed t_width t_cregs t_body] in *. fold tb ls. unfold renamed at 1. cbn [t_width t_cregs t_body]. rewrite R. cbn [bind].
        rewrite mapM_map. apply map_mapM_ok. intros [fj fi] Hab. apply in_prod_iff in Hab. destruct Hab. cbn [fst snd].
        cbn [kk circ_for t_name]. rewrite groups_name by auto. reflexivity. }
    cbn [bind]. rewrite (check_spam_ok b q Hb). cbn [bind].
    pose proof (run2 []) as R. unfold base in R. fold tb ls. rewrite R. cbn [bind]. rewrite mapM_map.
    rewrite (map_mapM_ok _ (fun ab => named (kk [] (fst ab) (snd ab)) (L2 (fst ab) (snd ab)))).
    2:{ intros [fj fi] Hab. apply in_prod_iff in Hab. destruct Hab. cbn [fst snd]. cbn [kk circ_for t_name]. rewrite groups_name by auto. reflexivity. }
    cbn [bind]. pose proof run1 as R1. unfold base in R1. rewrite R1. cbn [bind]. rewrite mapM_map.
    rewrite (map_mapM_ok _ (fun fi => named (circ_for (base []) None [] md [q] None (Some [fi])) (L1 fi))).
    2:{ intros fi Hfi. cbn [circ_for t_name]. rewrite group_name by auto. reflexivity. }
    cbn [bind]. unfold all. rewrite !map_app, !map_map. rewrite concat_map, !map_map. cbn [snd].
    f_equal. f_equal. f_equal. apply map_ext. intros g. rewrite map_map. reflexivity.
  Qed.

  Lemma in_all l k : In (l, k) all -> gst_label_of b l /\ literal_eval (t_name k) = Ok (gst_tuple l) /\ gst_circuit_for b q l k.
  Proof.
    assert (P : forall a, In a ls -> plain a). { intros a Ha. pose proof (sg_plain' b Hb) as H. rewrite Forall_forall in H. auto. }
    assert (P' : forall a, In a (gs_gate_labels b) -> plain a). { intros a Ha. pose proof (sg_plain b Hb) as H. rewrite Forall_forall in H. auto. }
    unfold all. rewrite !in_app_iff. intros [H|[H|H]].
    - rewrite <- flat_map_concat_map' in H. apply in_flat_map in H. destruct H as (g & Hg & H). apply in_map_iff in H. destruct H as ([fj fi] & E & H). apply in_prod_iff in H. destruct H as [Hj Hi].
      cbn [fst snd] in E. injection E as <- <-. split; [repeat split; assumption|]. split.
      + cbn [named renamed t_name]. apply literal_eval_repr. apply plain_tup. repeat constructor; cbn; auto.
      + split; [reflexivity|]. split; [reflexivity|]. exists (spam_body b fj q), (gate_body g), (spam_body b fi q).
        split; [now apply spam_body_seq|]. split; [|split; [now apply spam_body_seq|]].
        * pose proof (proj1 (Forall_forall _ _) (sg_gates b Hb) g Hg) as [f Ef]. exists f. split; [assumption|]. unfold gate_body. now rewrite Ef.
        * cbn [named renamed t_body kk circ_for base length]. rewrite moved_shift. unfold prep_text, meas_text, prep_layer, meas_layer. cbn [combine flat_map seq length pd md pd_circuit md_circuit].
          rewrite !app_nil_r. rewrite !no_barriers_app. cbn. rewrite !no_barriers_app. cbn. rewrite <- !app_assoc. reflexivity.
    - apply in_map_iff in H. destruct H as ([fj fi] & E & H). apply in_prod_iff in H. destruct H as [Hj Hi].
      cbn [fst snd] in E. injection E as <- <-. split; [repeat split; assumption|]. split.
      + cbn [named renamed t_name]. apply literal_eval_repr. apply plain_tup. repeat constructor; cbn; auto.
      + split; [reflexivity|]. split; [reflexivity|]. exists (spam_body b fj q), (spam_body b fi q).
        split; [now apply spam_body_seq|]. split; [now apply spam_body_seq|].
        cbn [named renamed t_body kk circ_for base length map]. unfold prep_text, meas_text, prep_layer, meas_layer. cbn [combine flat_map seq length pd md pd_circuit md_circuit].
        rewrite !app_nil_r. rewrite !no_barriers_app. cbn. rewrite !no_barriers_app. cbn. rewrite <- !app_assoc. reflexivity.
    - apply in_map_iff in H. destruct H as (fi & E & Hi). injection E as <- <-. split; [assumption|]. split.
      + cbn [named renamed t_name]. apply literal_eval_repr. apply plain_tup. repeat constructor; cbn; auto.
      + split; [reflexivity|]. split; [reflexivity|]. exists (spam_body b fi q). split; [now apply spam_body_seq|].
        cbn [named renamed t_body circ_for base length map]. unfold prep_text, meas_text, prep_layer, meas_layer. cbn [combine flat_map seq length pd md pd_circuit md_circuit app].
        rewrite !app_nil_r. cbn [no_barriers filter is_barrier negb]. apply no_barriers_app.
  Qed.
  Lemma all_label l : gst_label_of b l -> exists k, In (l, k) all.
  Proof.
    unfold all. destruct l as [fj g fi|fj fi|fi]; cbn [gst_label_of].
    - intros (Hj & Hg & Hi). eexists. rewrite in_app_iff. left. rewrite <- flat_map_concat_map'. apply in_flat_map. exists g. split; [assumption|].
      apply in_map_iff. exists (fj, fi). split; [reflexivity|]. now apply in_prod.
    - intros (Hj & Hi). eexists. rewrite !in_app_iff. right. left. apply in_map_iff. exists (fj, fi). split; [reflexivity|]. now apply in_prod.
    - intros Hi. eexists. rewrite !in_app_iff. right. right. apply in_map_iff. exists fi. split; [reflexivity|assumption].
  Qed.
  Lemma NoDup_list_prod {A B} (la : list A) (lb : list B) : NoDup la -> NoDup lb -> NoDup (list_prod la lb).
  Proof.
    intros A0 B0. induction A0 as [|a la Ha Hla IH]; cbn; [constructor|]. apply NoDup_app_in; [| |].
    - apply FinFun.Injective_map_NoDup; [|assumption]. intros u v Huv. now injection Huv.
    - exact IH.
    - intros [u v] H1 H2. apply in_map_iff in H1. destruct H1 as (w & Ew & _). injection Ew as <- <-. apply in_prod_iff in H2. tauto.
  Qed.
  Lemma all_nodup : NoDup (map fst all).
  Proof.
    assert (N : NoDup (list_prod ls ls)) by (apply NoDup_list_prod; apply (sg_dup' b Hb)).
    unfold all. rewrite !map_app, !map_map. cbn [fst]. apply NoDup_app_in; [|apply NoDup_app_in|].
    - rewrite concat_map, map_map. rewrite <- flat_map_concat_map'.
      apply (NoDup_flat_map_tag _ (fun l => match l with L3 _ g _ => g | _ => [] end)); [apply (sg_dup b Hb)| |].
      + intros g _. rewrite map_map. cbn [fst]. apply NoDup_map_inj_in; [|assumption]. intros [a a'] [c c'] _ _ E. cbn in E. congruence.
      + intros g l _ Hl. rewrite map_map in Hl. apply in_map_iff in Hl. destruct Hl as (x & <- & _). reflexivity.
    - apply NoDup_map_inj_in; [|assumption]. intros [a a'] [c c'] _ _ E. cbn in E. congruence.
    - apply NoDup_map_inj_in; [|apply (sg_dup' b Hb)]. intros a c _ _ E. congruence.
    - intros l H1 H2. apply in_map_iff in H1, H2. destruct H1 as (x & <- & _), H2 as (y & E & _). discriminate.
    - intros l H1 H2. rewrite concat_map, map_map in H1. rewrite <- flat_map_concat_map' in H1. apply in_flat_map in H1. destruct H1 as (g & _ & H1). rewrite map_map in H1.
      apply in_map_iff in H1. destruct H1 as (x & <- & _). rewrite in_app_iff in H2. destruct H2 as [H2|H2]; apply in_map_iff in H2; destruct H2 as (y & E & _); discriminate.
  Qed.
  Lemma gst_tuple_inj l l' : gst_tuple l = gst_tuple l' -> l = l'.
  Proof. destruct l, l'; cbn; intros E; try discriminate; injection E; intros; subst; reflexivity. Qed.

  Lemma gst_circuits_lemma :
    exists cs, gateset_tomography_circuits (Some [q]) (Some b) = Ok cs /\
      length cs = length (gs_gate_labels b) * (length ls * length ls) + length ls * length ls + length ls /\
      NoDup (map t_name cs) /\
      (forall l, gst_label_of b l -> exists k, In k cs /\ literal_eval (t_name k) = Ok (gst_tuple l) /\ gst_circuit_for b q l k) /\
      (forall k, In k cs -> exists l, gst_label_of b l /\ literal_eval (t_name k) = Ok (gst_tuple l) /\ gst_circuit_for b q l k).
  Proof.
    exists (map snd all). split; [apply gst_run|]. split; [|split; [|split]].
    - rewrite map_length. unfold all. rewrite !app_length, !map_length, !prod_length. rewrite Nat.add_assoc. do 2 f_equal.
      rewrite <- (prod_length ls ls). generalize (list_prod ls ls) as P. intros P. generalize (gs_gate_labels b) as G. intros G. induction G as [|g G IH]; [reflexivity|].
      cbn. now rewrite app_length, map_length, IH.
    - rewrite map_map. pose proof all_nodup as N. apply NoDup_map_inv with (f := literal_eval). rewrite map_map.
      rewrite (map_ext_in _ (fun x => Ok (gst_tuple (fst x)))) by (intros [l k] Hx; apply in_all in Hx; apply Hx).
      rewrite <- (map_map fst (fun l => Ok (gst_tuple l))). apply NoDup_map_inj_in; [|assumption]. intros x y _ _ E. apply gst_tuple_inj. congruence.
    - intros l Hl. destruct (all_label l Hl) as [k Hk]. exists k. split; [apply (in_map snd _ _ Hk)|]. apply in_all in Hk. tauto.
    - intros k Hk. apply in_map_iff in Hk. destruct Hk as ([l k'] & <- & Hk). exists l. cbn [snd]. now apply in_all.
  Qed.
End Gst.
