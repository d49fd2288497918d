(** The circuits that tomography runs. *)
From Coq Require Import QArith Reals.
From Verif Require Import Base LinAlg PyStr DihedralModel RBSeqModel ResultFacts TomoModel TomoSpec TomoNameProofs.
Local Open Scope list_scope.
Local Open Scope nat_scope.

Lemma NoDup_app_in {A} (l l' : list A) : NoDup l -> NoDup l' -> (forall x, In x l -> ~ In x l') -> NoDup (l ++ l').
Proof.
  intros H H' Hd. induction H as [|a l Ha Hl IH]; [assumption|]. cbn. constructor.
  - rewrite in_app_iff. intros [?|?]; [contradiction|]. apply (Hd a); [now left|assumption].
  - apply IH. intros x Hx. apply Hd. now right.
Qed.

Lemma In_operator_tuples ls n t : In t (operator_tuples ls n) <-> choice n ls t.
Proof.
  unfold choice. revert t. induction n as [|n IH]; intros t; cbn [operator_tuples].
  - split.
    + intros [<-|[]]. auto.
    + intros [H _]. destruct t; [now left|discriminate].
  - rewrite in_flat_map. split.
    + intros (a & Ha & H). apply in_map_iff in H. destruct H as (u & <- & Hu). apply IH in Hu. destruct Hu. cbn. auto.
    + intros [H1 H2]. destruct t as [|a t]; [discriminate|]. inversion H2; subst. exists a. split; [assumption|].
      apply in_map. apply IH. split; [now injection H1|assumption].
Qed.

Lemma NoDup_flat_map_tag {A B} (f : A -> list B) (g : B -> A) (l : list A) :
  NoDup l -> (forall a, In a l -> NoDup (f a)) -> (forall a b, In a l -> In b (f a) -> g b = a) -> NoDup (flat_map f l).
Proof.
  induction l as [|a l IH]; intros Hn Hf Hg; cbn; [constructor|]. inversion Hn as [|? ? Ha Hl]; subst.
  apply NoDup_app_in.
  - apply Hf. now left.
  - apply IH; [assumption| |]; intros; [apply Hf|apply Hg]; try right; auto.
  - intros b Hb Hb'. apply in_flat_map in Hb'. destruct Hb' as (a' & Ha' & Hb').
    assert (g b = a) by (apply Hg; [now left|assumption]). assert (g b = a') by (apply Hg; [now right|assumption]). congruence.
Qed.

Lemma NoDup_operator_tuples ls n : NoDup ls -> NoDup (operator_tuples ls n).
Proof.
  intros H. induction n as [|n IH]; cbn [operator_tuples]; [repeat constructor; auto|].
  apply (NoDup_flat_map_tag _ (fun t => match t with a :: _ => a | [] => [] end)); [assumption| |].
  - intros a _. apply FinFun.Injective_map_NoDup; [|assumption]. intros x y E. now injection E.
  - intros a b _ Hb. apply in_map_iff in Hb. destruct Hb as (u & <- & _). reflexivity.
Qed.

Lemma length_operator_tuples ls n : length (operator_tuples ls n) = length ls ^ n.
Proof.
  induction n as [|n IH]; cbn [operator_tuples]; [reflexivity|].
  rewrite Nat.pow_succ_r'. rewrite <- IH. generalize (operator_tuples ls n) as u. intros u.
  induction ls as [|a ls IHl] in u |- *; cbn; [reflexivity|]. rewrite app_length, map_length, IHl. reflexivity.
Qed.

Lemma distinctb_NoDup l : NoDup l -> distinctb l = true.
Proof.
  induction 1 as [|a l Ha Hl IH]; cbn; [reflexivity|]. rewrite IH. destruct (mem a l) eqn:E; [|reflexivity].
  apply mem_In in E. contradiction.
Qed.
Lemma distinctb_not l : ~ NoDup l -> distinctb l = false.
Proof.
  induction l as [|a l IH]; intros H; cbn; [destruct H; constructor|].
  destruct (mem a l) eqn:E; [reflexivity|]. cbn. apply IH. intros Hl. apply H. constructor; [|assumption].
  intros Hi. apply mem_In in Hi. congruence.
Qed.

Lemma format_qubits_ok c qs : some_qubits c qs -> format_qubits (t_width c) qs = Ok qs.
Proof.
  intros (H1 & H2 & H3). unfold format_qubits. destruct qs as [|q qs]; [now destruct H1|]. cbn [index_e list_index nth_error bind].
  assert (E : mapM (fun q => if q <? t_width c then Ok q else Err IndexError) (q :: qs) = Ok (q :: qs)).
  { clear H1 H2. revert H3. generalize (q :: qs) as l. induction l as [|a l IH]; intros H; [reflexivity|]. inversion H; subst. cbn [mapM].
    destruct (Nat.ltb_spec a (t_width c)); [|lia]. cbn [bind]. rewrite IH by assumption. reflexivity. }
  unfold index_e. cbn [nth_error bind]. rewrite E. cbn [bind]. now rewrite (distinctb_NoDup _ H2).
Qed.

Lemma mapM_ext_in {A B} (f g : A -> result B) l : (forall a, In a l -> f a = g a) -> mapM f l = mapM g l.
Proof. induction l as [|a l IH]; intros H; cbn; [reflexivity|]. rewrite (H a) by now left. rewrite IH; [reflexivity|]. intros. apply H. now right. Qed.
Lemma mapM_Ok {A B} (f : A -> B) l : mapM (fun a => Ok (f a)) l = Ok (map f l).
Proof. induction l as [|a l IH]; cbn; [reflexivity|]. rewrite IH. reflexivity. Qed.

Lemma mapM_prep d qs p k0 :
  length p = length qs -> Forall (fun a => In a (pd_labels d)) p ->
  forall pre pre', length pre = k0 -> length pre' = k0 ->
  mapM (fun j => do op <- index_e (pre ++ p) j; do q <- index_e (pre' ++ qs) j; if mem op (pd_labels d) then Ok (pd_circuit d op q) else Err ValueError) (seq k0 (length qs))
    = Ok (map (fun '(a, q) => pd_circuit d a q) (combine p qs)).
Proof.
  revert p k0. induction qs as [|q qs IH]; intros p k0 Hl Hp pre pre' H1 H2; destruct p as [|a p]; try discriminate; [reflexivity|].
  inversion Hp as [|? ? Ha Hp']; subst. cbn [length seq mapM combine map].
  unfold index_e. rewrite !nth_error_app2 by lia. rewrite H2, !Nat.sub_diag. cbn [nth_error bind].
  destruct (mem a (pd_labels d)) eqn:E; [|apply mem_not_In in E; contradiction]. cbn [bind].
  specialize (IH p (S (length pre)) ltac:(now injection Hl) Hp' (pre ++ [a]) (pre' ++ [q])).
  rewrite !app_length in IH. cbn in IH. specialize (IH ltac:(lia) ltac:(lia)). rewrite <- !app_assoc in IH. cbn [app] in IH.
  unfold index_e in IH. rewrite IH. reflexivity.
Qed.
Lemma mapM_meas d qs p k0 :
  length p = length qs -> Forall (fun a => In a (md_labels d)) p ->
  forall pre pre', length pre = k0 -> length pre' = k0 ->
  mapM (fun j => do op <- index_e (pre ++ p) j; do q <- index_e (pre' ++ qs) j; if mem op (md_labels d) then Ok (md_circuit d op q j) else Err ValueError) (seq k0 (length qs))
    = Ok (map (fun '(j, (a, q)) => md_circuit d a q j) (combine (seq k0 (length qs)) (combine p qs))).
Proof.
  revert p k0. induction qs as [|q qs IH]; intros p k0 Hl Hp pre pre' H1 H2; destruct p as [|a p]; try discriminate; [reflexivity|].
  inversion Hp as [|? ? Ha Hp']; subst. cbn [length seq mapM combine map].
  unfold index_e. rewrite !nth_error_app2 by lia. rewrite H2, !Nat.sub_diag. cbn [nth_error bind].
  destruct (mem a (md_labels d)) eqn:E; [|apply mem_not_In in E; contradiction]. cbn [bind].
  specialize (IH p (S (length pre)) ltac:(now injection Hl) Hp' (pre ++ [a]) (pre' ++ [q])).
  rewrite !app_length in IH. cbn in IH. specialize (IH ltac:(lia) ltac:(lia)). rewrite <- !app_assoc in IH. cbn [app] in IH.
  unfold index_e in IH. rewrite IH. reflexivity.
Qed.

Definition fine (n : nat) (ls : list pystr) (l : option (list pystr)) : Prop :=
  match l with None => True | Some l => length l = n /\ Forall (fun a => In a ls) l end.
Definition prep_text (width : nat) (d : option prep_data) (qs : list nat) (p : option (list pystr)) : list cinstr :=
  match d, p with Some d, Some p => prep_layer d qs p ++ [CBarrier (seq 0 width)] | _, _ => [] end.
Definition meas_text (width : nat) (d : option meas_data) (qs : list nat) (p : option (list pystr)) : list cinstr :=
  match d, p with Some d, Some p => CBarrier (seq 0 width) :: meas_layer d qs p | _, _ => [] end.
Definition labels_for (ls : option (list pystr)) (n : nat) (l : list (option (list pystr))) : Prop :=
  match ls with Some ls => Forall (fine n ls) l | None => l = [None] end.

Lemma flat_map_concat_map' {A B} (f : A -> list B) l : flat_map f l = concat (map f l).
Proof. induction l; cbn; congruence. Qed.

Lemma prep_part_ok width b d qs p :
  tb_prep b = Some d -> fine (length qs) (pd_labels d) p ->
  prep_part width (length qs) (Some b) qs p = Ok (prep_text width (Some d) qs p).
Proof.
  intros Hb Hf. destruct p as [p|]; [|reflexivity]. cbn [prep_part]. unfold preparation_circuit. rewrite Hb.
  destruct Hf as [H1 H2]. pose proof (mapM_prep d qs p 0 H1 H2 [] [] eq_refl eq_refl) as E. cbn [app] in E. rewrite E. cbn [bind prep_text].
  unfold prep_layer. now rewrite flat_map_concat_map'.
Qed.
Lemma meas_part_ok width b d qs p :
  tb_meas b = Some d -> fine (length qs) (md_labels d) p ->
  meas_part width (length qs) (Some b) qs p = Ok (meas_text width (Some d) qs p).
Proof.
  intros Hb Hf. destruct p as [p|]; [|reflexivity]. cbn [meas_part]. unfold measurement_circuit. rewrite Hb.
  destruct Hf as [H1 H2]. pose proof (mapM_meas d qs p 0 H1 H2 [] [] eq_refl eq_refl) as E. cbn [app] in E. rewrite E. cbn [bind meas_text].
  unfold meas_layer. now rewrite flat_map_concat_map'.
Qed.

Definition circ_for (c : tcirc) (pd : option prep_data) (pqs : list nat) (md : meas_data) (mqs : list nat) (p m : option (list pystr)) : tcirc :=
  {| t_name := circuit_name p m; t_width := t_width c; t_cregs := length mqs :: t_cregs c;
     t_body := prep_text (t_width c) pd pqs p ++ map (shift_clbits (length mqs)) (t_body c) ++ meas_text (t_width c) (Some md) mqs m |}.

(** Labels that are not a name. *)
Definition given (l : labels_arg) : Prop := match l with LTuple _ | LList _ => True | _ => False end.
Definition basis_is (a : basis_arg) (b : tbasis) : Prop := default_basis a = Ok (Some b).

Lemma named_given f l l' : named_labels f l = Ok l' -> l <> LNone -> l' <> LNone.
Proof. destruct l; cbn; try congruence. intros H _. inv_bind H. injection H as <-. discriminate. Qed.

Lemma process_ok c mqs pqs md pd mb pb ml pl bm bp ml' pl' :
  some_qubits c mqs -> some_qubits c pqs -> length pqs = length mqs ->
  basis_is mb bm -> tb_meas bm = Some md -> basis_is pb bp -> tb_prep bp = Some pd ->
  ml <> LNone -> pl <> LNone ->
  named_labels default_measurement_labels ml = Ok ml' -> named_labels default_preparation_labels pl = Ok pl' ->
  Forall (fine (length mqs) (md_labels md)) (generate_labels ml' (length mqs)) ->
  Forall (fine (length mqs) (pd_labels pd)) (generate_labels pl' (length mqs)) ->
  tomography_circuits c mqs (Some pqs) ml mb pl pb =
    Ok (concat (map (fun p => map (circ_for c (Some pd) pqs md mqs p) (generate_labels ml' (length mqs))) (generate_labels pl' (length mqs)))).
Proof.
  intros Hm Hp Hl Hmb Hmd Hpb Hpd Nm Np Em Ep Fm Fp. unfold tomography_circuits.
  rewrite (format_qubits_ok c mqs Hm). cbn [bind]. rewrite (format_qubits_ok c pqs Hp). cbn [bind].
  rewrite Hl, Nat.eqb_refl. cbn [negb]. rewrite Hmb. cbn [bind]. rewrite Hmd. cbn [bind]. rewrite Hpb. cbn [bind]. rewrite Hpd. cbn [bind].
  rewrite Em, Ep. cbn [bind].
  erewrite mapM_ext_in.
  2:{ intros p Hin. pose proof (proj1 (Forall_forall _ _) Fp p Hin) as Hpf. rewrite <- Hl in Hpf |- *. rewrite (prep_part_ok _ _ _ _ _ Hpd Hpf). cbn [bind].
      erewrite mapM_ext_in.
      2:{ intros m Hin'. rewrite Hl in Hin' |- *. pose proof (proj1 (Forall_forall _ _) Fm m Hin') as Hmf. rewrite (meas_part_ok _ _ _ _ _ Hmd Hmf). cbn [bind].
          reflexivity. }
      rewrite mapM_Ok. reflexivity. }
  rewrite mapM_Ok. cbn [bind]. do 2 f_equal. rewrite Hl. apply map_ext. intros p. apply map_ext. intros m. unfold circ_for. cbn [fold_right app].
  rewrite Nat.add_0_r. reflexivity.
Qed.

Lemma state_ok c mqs md mb ml bm ml' :
  some_qubits c mqs ->
  basis_is mb bm -> tb_meas bm = Some md -> ml <> LNone ->
  named_labels default_measurement_labels ml = Ok ml' ->
  Forall (fine (length mqs) (md_labels md)) (generate_labels ml' (length mqs)) ->
  state_tomography_circuits c mqs ml mb = Ok (map (circ_for c None [] md mqs None) (generate_labels ml' (length mqs))).
Proof.
  intros Hm Hmb Hmd Nm Em Fm. unfold state_tomography_circuits, tomography_circuits.
  rewrite (format_qubits_ok c mqs Hm). cbn [bind]. rewrite Nat.eqb_refl. cbn [negb]. rewrite Hmb. cbn [bind]. rewrite Hmd. cbn [bind default_basis named_labels].
  rewrite Em. cbn [bind generate_labels mapM prep_part].
  erewrite mapM_ext_in.
  2:{ intros m Hin'. pose proof (proj1 (Forall_forall _ _) Fm m Hin') as Hmf. rewrite (meas_part_ok _ _ _ _ _ Hmd Hmf). cbn [bind]. reflexivity. }
  rewrite mapM_Ok. cbn [bind concat]. rewrite app_nil_r. f_equal. apply map_ext. intros m. unfold circ_for. cbn [fold_right app prep_text].
  rewrite Nat.add_0_r. reflexivity.
Qed.

(** * Names *)
Lemma label_val_plain t : Forall plain t -> plain_val (label_val t).
Proof. intros H. apply plain_tup. now apply Forall_map. Qed.
Lemma name_state t : Forall plain t -> literal_eval (circuit_name None (Some t)) = Ok (VTup (map VStr t)).
Proof. intros H. apply (literal_eval_repr (label_val t)). now apply label_val_plain. Qed.
Lemma name_process p t : Forall plain p -> Forall plain t -> literal_eval (circuit_name (Some p) (Some t)) = Ok (VTup [VTup (map VStr p); VTup (map VStr t)]).
Proof.
  intros Hp H. apply (literal_eval_repr (VTup [label_val p; label_val t])). apply plain_tup. repeat constructor; now apply label_val_plain.
Qed.
Lemma map_VStr_inj s t : map VStr s = map VStr t -> s = t.
Proof. revert t. induction s as [|a s IH]; intros [|b t] H; try discriminate; [reflexivity|]. injection H as -> H. f_equal. now apply IH. Qed.

Lemma choice_fine n ls t dl : incl ls dl -> choice n ls t -> fine n dl (Some t).
Proof. intros Hi [H1 H2]. split; [assumption|]. eapply Forall_impl; [|exact H2]. intros a. apply Hi. Qed.
Lemma choice_plain n ls t : Forall plain ls -> choice n ls t -> Forall plain t.
Proof. intros Hp [_ H]. eapply Forall_impl; [|exact H]. intros a Ha. rewrite Forall_forall in Hp. auto. Qed.

Lemma NoDup_map_inj_in {A B} (f : A -> B) l : (forall x y, In x l -> In y l -> f x = f y -> x = y) -> NoDup l -> NoDup (map f l).
Proof.
  intros Hi H. induction H as [|a l Ha Hl IH]; cbn; constructor.
  - intros H. apply in_map_iff in H. destruct H as (b & E & Hb). apply Hi in E; [|now right|now left]. congruence.
  - apply IH. intros x y Hx Hy. apply Hi; now right.
Qed.

Lemma moved_shift n c : map (shift_clbits n) c = moved n c.
Proof. apply map_ext. intros [| |q b]; cbn; [reflexivity..|]. f_equal. lia. Qed.

Lemma state_circuits_lemma c mqs md mb bm ls :
  some_qubits c mqs -> basis_is mb bm -> tb_meas bm = Some md -> NoDup ls -> incl ls (md_labels md) -> Forall plain ls ->
  exists cs, state_tomography_circuits c mqs (LTuple ls) mb = Ok cs /\ length cs = length ls ^ length mqs /\ NoDup (map t_name cs) /\
    (forall t, choice (length mqs) ls t -> exists k, In k cs /\ literal_eval (t_name k) = Ok (VTup (map VStr t)) /\ state_circuit_for c md mqs t k) /\
    (forall k, In k cs -> exists t, choice (length mqs) ls t /\ literal_eval (t_name k) = Ok (VTup (map VStr t)) /\ state_circuit_for c md mqs t k).
Proof.
  intros Hm Hb Hmd Hn Hi Hp.
  assert (Hst : forall t, choice (length mqs) ls t -> literal_eval (t_name (circ_for c None [] md mqs None (Some t))) = Ok (VTup (map VStr t)) /\ state_circuit_for c md mqs t (circ_for c None [] md mqs None (Some t))).
  { intros t Ht. split; [apply name_state; eapply choice_plain; eassumption|]. repeat split. cbn [t_body circ_for prep_text app meas_text]. now rewrite moved_shift. }
  eexists. split; [|split; [|split; [|split]]].
  - eapply state_ok; [eassumption..|discriminate|reflexivity|]. cbn [generate_labels]. apply Forall_forall. intros o Ho.
    apply in_map_iff in Ho. destruct Ho as (t & <- & Ht). apply In_operator_tuples in Ht. eapply choice_fine; eassumption.
  - cbn [generate_labels]. rewrite !map_length. apply length_operator_tuples.
  - cbn [generate_labels]. rewrite !map_map. apply NoDup_map_inj_in; [|now apply NoDup_operator_tuples].
    intros x y Hx Hy E. apply In_operator_tuples in Hx, Hy. apply Hst in Hx, Hy. destruct Hx as [Hx _], Hy as [Hy _]. rewrite E in Hx. rewrite Hx in Hy. injection Hy as Hy. now apply map_VStr_inj.
  - intros t Ht. exists (circ_for c None [] md mqs None (Some t)). split; [|now apply Hst].
    cbn [generate_labels]. rewrite map_map. apply (in_map (fun x => circ_for c None [] md mqs None (Some x))). now apply In_operator_tuples.
  - intros k Hk. cbn [generate_labels] in Hk. rewrite map_map in Hk. apply in_map_iff in Hk. destruct Hk as (t & <- & Ht). apply In_operator_tuples in Ht.
    exists t. split; [assumption|]. now apply Hst.
Qed.

Lemma in_concat_map2 {A B D} (f : A -> B -> D) (la : list A) (lb : list B) x :
  In x (concat (map (fun a => map (f a) lb) la)) <-> exists a b, In a la /\ In b lb /\ x = f a b.
Proof.
  rewrite <- flat_map_concat_map', in_flat_map. split.
  - intros (a & Ha & H). apply in_map_iff in H. destruct H as (b & <- & Hb). eauto.
  - intros (a & b & Ha & Hb & ->). exists a. split; [assumption|]. now apply in_map.
Qed.

Lemma process_circuits_lemma c mqs pqs md pd mb pb bm bp ls ps :
  some_qubits c mqs -> some_qubits c pqs -> length pqs = length mqs ->
  basis_is mb bm -> tb_meas bm = Some md -> basis_is pb bp -> tb_prep bp = Some pd ->
  NoDup ls -> incl ls (md_labels md) -> Forall plain ls -> NoDup ps -> incl ps (pd_labels pd) -> Forall plain ps ->
  let n := length mqs in
  exists cs, process_tomography_circuits c mqs (Some pqs) (LTuple ls) mb (LTuple ps) pb = Ok cs /\ length cs = length ps ^ n * length ls ^ n /\ NoDup (map t_name cs) /\
    (forall p t, choice n ps p -> choice n ls t -> exists k, In k cs /\ literal_eval (t_name k) = Ok (VTup [VTup (map VStr p); VTup (map VStr t)]) /\ process_circuit_for c pd pqs p md mqs t k) /\
    (forall k, In k cs -> exists p t, choice n ps p /\ choice n ls t /\ literal_eval (t_name k) = Ok (VTup [VTup (map VStr p); VTup (map VStr t)]) /\ process_circuit_for c pd pqs p md mqs t k).
Proof.
  intros Hm Hq Hl Hb Hmd Hb' Hpd Hn Hi Hp Hn' Hi' Hp' n.
  set (f := fun p t => circ_for c (Some pd) pqs md mqs (Some p) (Some t)).
  assert (Hst : forall p t, choice n ps p -> choice n ls t -> literal_eval (t_name (f p t)) = Ok (VTup [VTup (map VStr p); VTup (map VStr t)]) /\ process_circuit_for c pd pqs p md mqs t (f p t)).
  { intros p t Ht' Ht. split; [apply name_process; [exact (choice_plain _ _ _ Hp' Ht')|exact (choice_plain _ _ _ Hp Ht)]|]. repeat split. unfold f. cbn [t_body circ_for prep_text app meas_text]. rewrite moved_shift, <- !app_assoc. reflexivity. }
  assert (Hinj : forall p t p' t', choice n ps p -> choice n ls t -> choice n ps p' -> choice n ls t' -> t_name (f p t) = t_name (f p' t') -> p = p' /\ t = t').
  { intros p t p' t' H1 H2 H3 H4 E. destruct (Hst p t H1 H2) as [E1 _]. destruct (Hst p' t' H3 H4) as [E2 _]. rewrite E in E1. rewrite E1 in E2. injection E2 as E2 E3. split; now apply map_VStr_inj. }
  assert (Hrun : process_tomography_circuits c mqs (Some pqs) (LTuple ls) mb (LTuple ps) pb = Ok (concat (map (fun p => map (f p) (operator_tuples ls n)) (operator_tuples ps n)))).
  { unfold process_tomography_circuits. erewrite process_ok; [| eassumption..| discriminate | discriminate | reflexivity | reflexivity | |].
    - cbn [generate_labels]. rewrite map_map. do 2 f_equal. apply map_ext. intros p. rewrite map_map. reflexivity.
    - cbn [generate_labels]. apply Forall_forall. intros o Ho. apply in_map_iff in Ho. destruct Ho as (t & <- & Ht). apply In_operator_tuples in Ht. exact (choice_fine _ _ _ _ Hi Ht).
    - cbn [generate_labels]. apply Forall_forall. intros o Ho. apply in_map_iff in Ho. destruct Ho as (t & <- & Ht). apply In_operator_tuples in Ht. exact (choice_fine _ _ _ _ Hi' Ht). }
  eexists. split; [exact Hrun|split; [|split; [|split]]].
  - rewrite <- !length_operator_tuples. generalize (operator_tuples ps n) as A, (operator_tuples ls n) as B. intros A B. induction A as [|a A IH]; [reflexivity|].
    cbn. now rewrite app_length, map_length, IH.
  - rewrite <- flat_map_concat_map'.
    assert (E : map t_name (flat_map (fun p => map (f p) (operator_tuples ls n)) (operator_tuples ps n)) = map (fun pt => t_name (f (fst pt) (snd pt))) (list_prod (operator_tuples ps n) (operator_tuples ls n))).
    { generalize (operator_tuples ps n) as A, (operator_tuples ls n) as B. intros A B. induction A as [|a A IH]; [reflexivity|].
      cbn. rewrite !map_app, IH, !map_map. reflexivity. }
    rewrite E. apply NoDup_map_inj_in.
    + intros [p t] [p' t'] H1 H2 E'. apply in_prod_iff in H1, H2. destruct H1 as [H1 H1'], H2 as [H2 H2']. apply In_operator_tuples in H1, H1', H2, H2'.
      cbn in E'. apply Hinj in E'; [|assumption..]. destruct E'. congruence.
    + pose proof (NoDup_operator_tuples ps n Hn') as A. pose proof (NoDup_operator_tuples ls n Hn) as B. revert A B.
      generalize (operator_tuples ps n) as la, (operator_tuples ls n) as lb. intros la lb A B.
      induction A as [|a la Ha Hla IH]; cbn; [constructor|]. apply NoDup_app_in; [| |].
      * apply FinFun.Injective_map_NoDup; [|assumption]. intros u v Huv. now injection Huv.
      * exact IH.
      * intros [u v] H1 H2. apply in_map_iff in H1. destruct H1 as (w & Ew & _). injection Ew as <- <-. apply in_prod_iff in H2. tauto.
  - intros p t H1 H2. exists (f p t). split; [|now apply Hst]. apply in_concat_map2. exists p, t. rewrite !In_operator_tuples. auto.
  - intros k Hk. apply in_concat_map2 in Hk. destruct Hk as (p & t & H1 & H2 & ->). rewrite In_operator_tuples in H1, H2. exists p, t. split; [assumption|]. split; [assumption|]. now apply Hst.
Qed.
