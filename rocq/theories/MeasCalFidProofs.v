(** Proofs about noiseless calibration and readout fidelity. *)
From Coq Require Import QArith Lqa.
From Verif Require Import LinAlg Base CountsModel CountsSpec CountsProofs BasisSem MeasCalModel MeasCalSpec MeasCalCircProofs MeasCalFitProofs.
Open Scope nat_scope.

Lemma zsum_pos_In l z : (forall y, In y l -> (0 <= y)%Z) -> In z l -> (0 < z)%Z -> (0 < zsum l)%Z.
Proof.
  induction l as [|a l IH]; cbn; intros Hp Hin Hz; [destruct Hin|].
  assert (0 <= a)%Z by (apply Hp; left; reflexivity).
  assert (0 <= zsum l)%Z by (apply zsum_nonneg; intros; apply Hp; right; assumption).
  destruct Hin as [->|Hin]; [lia|]. specialize (IH (fun y h => Hp y (or_intror h)) Hin Hz). lia.
Qed.

Lemma noiseless_freq sizes g sh y x :
  (forall p m c, In (p, m, c) sh -> p = m /\ (0 < c)%Z) ->
  (exists p m c, In (p, m, c) sh /\ group_part sizes g p = x) ->
  (frequency (pooled sizes g sh y x) (prepared_shots sizes g sh x) == if eqb y x then 1 else 0)%Q.
Proof.
  intros Hs (p0 & m0 & c0 & Hin0 & Hx0).
  assert (Hpos : (0 < prepared_shots sizes g sh x)%Z).
  { unfold prepared_shots. apply zsum_pos_In with (z := c0).
    - intros z Hz. apply in_map_iff in Hz. destruct Hz as ([[p m] c] & <- & Hin).
      destruct (Hs p m c Hin). destruct (eqb _ _); lia.
    - apply in_map_iff. exists (p0, m0, c0). split; [|exact Hin0]. rewrite Hx0, eqb_refl. reflexivity.
    - apply (Hs p0 m0 c0 Hin0). }
  assert (Hpool : pooled sizes g sh y x = if eqb y x then prepared_shots sizes g sh x else 0%Z).
  { unfold pooled, prepared_shots. destruct (eqb_spec y x) as [->|Hne].
    - apply zsum_map_ext. intros [[p m] c] Hin. destruct (Hs p m c Hin) as [<- _].
      destruct (eqb (group_part sizes g p) x); reflexivity.
    - transitivity (zsum (map (fun _ : shot => 0%Z) sh)); [|apply zsum_map_zero].
      apply zsum_map_ext. intros [[p m] c] Hin. destruct (Hs p m c Hin) as [<- _].
      destruct (eqb_spec (group_part sizes g p) x) as [He|]; cbn [andb]; [|reflexivity].
      destruct (eqb_spec (group_part sizes g p) y); [congruence | reflexivity]. }
  unfold frequency. destruct (Z.eqb_spec (prepared_shots sizes g sh x) 0); [lia|].
  rewrite Hpool. assert (Hq : ~ (inject_Z (prepared_shots sizes g sh x) == 0)%Q) by (unfold Qeq, inject_Z; cbn; lia).
  destruct (eqb y x).
  - field; exact Hq.
  - change (inject_Z 0) with 0%Q. field; exact Hq.
Qed.

(** ** Positions of labels *)
Lemma label_position_one (ls : list pystr) : forall k i, NoDup ls -> i < length ls ->
  map snd (filter (fun li => eqb (nth i ls []) (fst li)) (combine ls (seq k (length ls)))) = [k + i].
Proof.
  induction ls as [|a ls IH]; intros k i Hnd Hi; cbn [length] in Hi; [lia|].
  inversion Hnd as [|? ? Hni Hnd']; subst. cbn [length seq combine filter fst].
  destruct i as [|i]; cbn [nth].
  - rewrite eqb_refl. cbn [map snd]. f_equal; [lia|].
    replace (filter _ _) with (@nil (pystr * nat)); [reflexivity|]. symmetry.
    assert (Hall : forall li, In li (combine ls (seq (S k) (length ls))) -> eqb a (fst li) = false).
    { intros [l i] Hin. apply in_combine_l in Hin. cbn. apply eqb_neq. intros ->; contradiction. }
    clear -Hall. induction (combine ls (seq (S k) (length ls))) as [|li l IH]; cbn; [reflexivity|].
    rewrite Hall by (left; reflexivity). apply IH. intros; apply Hall; right; assumption.
  - assert (Hin : In (nth i ls []) ls) by (apply nth_In; lia).
    destruct (eqb_spec (nth i ls []) a) as [He|_]; [rewrite He in Hin; contradiction|].
    rewrite IH by (auto; lia). f_equal; lia.
Qed.

Lemma label_positions_single ls i : NoDup ls -> i < length ls -> label_positions ls [nth i ls []] = [i].
Proof. intros. unfold label_positions. cbn [flat_map]. rewrite app_nil_r. rewrite label_position_one by assumption. reflexivity. Qed.

Lemma mapM_nth_seq {A B} (l : list A) d (f : A -> result B) : mapM f l = mapM (fun i => f (nth i l d)) (seq 0 (length l)).
Proof. rewrite <- (map_nth_seq l d) at 1. rewrite mapM_map. reflexivity. Qed.

Lemma qsum_ext {A} (f g : A -> Q) l : (forall a, In a l -> (f a == g a)%Q) -> (qsum (map f l) == qsum (map g l))%Q.
Proof.
  induction l as [|a l IH]; cbn; intros H; [reflexivity|].
  rewrite (H a) by (left; reflexivity). rewrite IH by (intros; apply H; right; assumption). reflexivity.
Qed.

Lemma readout_fidelity_diag f ms g ls m :
  ft_cal f = Some ms -> nth_error (ft_labels f) g = Some ls -> nth_error ms g = Some m ->
  NoDup ls -> ls <> [] ->
  exists q, readout_fidelity f g None = Ok q /\
    (q == qsum (map (fun i => m i i) (seq 0 (length ls))) / inject_Z (Z.of_nat (length ls)))%Q.
Proof.
  intros Hc Hl Hm Hnd Hne. unfold readout_fidelity, index_e. rewrite Hc, Hl, Hm. cbn [bind].
  rewrite mapM_map, (mapM_nth_seq ls []).
  rewrite (mapM_ext _ (fun i => Ok (((m i i + 0) + 0) / inject_Z 1)%Q)).
  - rewrite (mapM_all_Ok _ (fun i => ((m i i + 0) + 0) / inject_Z 1)%Q) by reflexivity. cbn [bind].
    destruct ls as [|l0 ls']; [congruence|]. cbn [length seq map].
    eexists; split; [reflexivity|]. unfold qsum; cbn [fold_right length]. rewrite map_length, seq_length.
    apply Qdiv_comp; [|reflexivity].
    apply Qplus_comp; [change (inject_Z 1) with 1%Q; field|].
    apply (qsum_ext (fun i => (m i i + 0 + 0) / inject_Z 1)%Q (fun i => m i i)). intros; change (inject_Z 1) with 1%Q; field.
  - intros i Hi. apply in_seq in Hi. rewrite label_positions_single by (auto; lia). reflexivity.
Qed.

Lemma qsum_bounds {A} (f : A -> Q) l : (forall a, In a l -> (0 <= f a <= 1)%Q) ->
  (0 <= qsum (map f l) <= inject_Z (Z.of_nat (length l)))%Q.
Proof.
  induction l as [|a l IH]; intros H; cbn [map qsum fold_right length].
  - change (inject_Z (Z.of_nat 0)) with 0%Q. lra.
  - specialize (IH (fun x h => H x (or_intror h))). specialize (H a (or_introl eq_refl)).
    rewrite Nat2Z.inj_succ. unfold Z.succ. rewrite inject_Z_plus. unfold qsum in IH. change (inject_Z 1) with 1%Q. lra.
Qed.

Lemma qsum_one {A} (f : A -> Q) l : (forall a, In a l -> (f a == 1)%Q) -> (qsum (map f l) == inject_Z (Z.of_nat (length l)))%Q.
Proof.
  induction l as [|a l IH]; intros H; cbn [map qsum fold_right length]; [reflexivity|].
  specialize (IH (fun x h => H x (or_intror h))). rewrite (H a (or_introl eq_refl)).
  rewrite Nat2Z.inj_succ. unfold Z.succ. rewrite inject_Z_plus. unfold qsum in IH. rewrite IH. change (inject_Z 1) with 1%Q. ring.
Qed.

Lemma inject_pos n : 0 < n -> (0 < inject_Z (Z.of_nat n))%Q.
Proof. intros H. unfold Qlt, inject_Z; cbn. lia. Qed.

Lemma C12_bounds_lemma f ms g ls m :
  ft_cal f = Some ms -> nth_error (ft_labels f) g = Some ls -> nth_error ms g = Some m ->
  NoDup ls -> ls <> [] -> (forall i, i < length ls -> (0 <= m i i <= 1)%Q) ->
  exists q, readout_fidelity f g None = Ok q /\ (0 <= q <= 1)%Q.
Proof.
  intros Hc Hl Hm Hnd Hne Hb. destruct (readout_fidelity_diag f ms g ls m Hc Hl Hm Hnd Hne) as (q & Hq & Hv).
  exists q; split; [exact Hq|]. rewrite Hv.
  assert (Hs : (0 <= qsum (map (fun i => m i i) (seq 0 (length ls))) <= inject_Z (Z.of_nat (length ls)))%Q).
  { rewrite <- (seq_length (length ls) 0) at 3. apply qsum_bounds. intros i Hi. apply in_seq in Hi. apply Hb; lia. }
  assert (Hp : (0 < inject_Z (Z.of_nat (length ls)))%Q) by (apply inject_pos; destruct ls; [congruence | cbn; lia]).
  split; [apply Qle_shift_div_l; [exact Hp | lra] | apply Qle_shift_div_r; [exact Hp | lra]].
Qed.

(** ** Noiseless calibration *)
Lemma cal_ncl mp qr cr lab circs pat c : tensored_meas_cal mp qr cr lab = Ok (circs, pat) -> In c circs ->
  c_ncl c = match cr with Some n => n | None => length (concat pat) end.
Proof.
  intros H Hc. apply tensored_inv in H. destruct H as (_ & _ & q & m & H). cbn zeta in H.
  destruct H as (_ & _ & Hcirc). apply mapM_Ok in Hcirc. destruct (Forall2_In_r _ _ _ _ Hcirc Hc) as (b & _ & Hcc).
  unfold cal_circuit in Hcc. apply bind_Ok in Hcc. destruct Hcc as (g1 & _ & Hcc).
  apply bind_Ok in Hcc. destruct Hcc as (g2 & _ & Hcc). injection Hcc as <-. reflexivity.
Qed.


Lemma noiseless_fit_lemma pat qr lab circs pat' n :
  tensored_meas_cal (Some pat) qr None lab = Ok (circs, pat') -> pat <> [] -> (forall g, In g pat -> g <> []) ->
  (forall c, In c circs -> (0 < n c)%Z) ->
  exists f ms, tensored_fitter (Some [noiseless_result n circs]) pat None lab = Ok f /\ ft_cal f = Some ms /\
    (forall g i j, g < length pat -> i < 2 ^ length (nth g pat []) -> j < 2 ^ length (nth g pat []) ->
       (nth g ms (fun _ _ => 0%Q) i j == if i =? j then 1 else 0)%Q) /\
    (forall g, g < length pat -> exists q, readout_fidelity f g None = Ok q /\ (q == 1)%Q).
Proof.
  intros H Hne Hg Hn.
  assert (Hcne : concat pat <> []).
  { destruct pat as [|a pat]; [congruence|]. specialize (Hg a (or_introl eq_refl)). destruct a; [congruence | discriminate]. }
  assert (Hpp : pat' = pat). { pose proof (tensored_inv _ _ _ _ _ _ H) as (_ & Hp & _). exact Hp. }
  subst pat'.
  pose proof (C06_lemma _ _ _ _ _ _ H Hcne) as (_ & _ & H6).
  pose proof (C07_lemma _ _ _ _ _ _ H Hcne) as (m & labels & Hm1 & Hm2 & Hnames & Hlen & Hnd & Hcnt).
  assert (Hncl : forall c, In c circs -> c_ncl c = length (concat pat)) by (intros c Hc; apply (cal_ncl _ _ _ _ _ _ c H Hc)).
  set (sizes := map (@length nat) pat).
  assert (Hsum : fold_right Nat.add 0 sizes = length (concat pat)) by (unfold sizes; rewrite concat_length_sum; reflexivity).
  assert (Hb : forall c, In c circs -> exists b, c_name c = lab ++ str "cal_" ++ b /\ noiseless_outcome c = b /\
                 length b = length (concat pat) /\ is_bits b).
  { intros c Hc. destruct (H6 c Hc) as (b & E1 & E2 & E3 & E4 & E5 & _). exists b. split; [exact E1|].
    split; [|auto]. rewrite E5, (Hncl c Hc), E2, Nat.sub_diag. reflexivity. }
  set (ss := map (fun c => [(noiseless_outcome c, noiseless_outcome c, n c)] : list shot) circs).
  assert (Hin_ss : forall p m0 c0, In (p, m0, c0) (concat ss) ->
            exists c, In c circs /\ p = noiseless_outcome c /\ m0 = noiseless_outcome c /\ c0 = n c).
  { intros p m0 c0 Hin. apply in_concat in Hin. destruct Hin as (x & Hx & Hin). unfold ss in Hx.
    apply in_map_iff in Hx. destruct Hx as (c & <- & Hc). destruct Hin as [[= <- <- <-]|[]]. eauto. }
  assert (Hd : data_ok lab (fold_right Nat.add 0 sizes) [noiseless_result n circs] (concat ss)).
  { split; [|split].
    - intros r [<-|[]]. unfold noiseless_result. rewrite map_map. exact Hnd.
    - intros r e [<-|[]] He. unfold noiseless_result in He. apply in_map_iff in He. destruct He as (c & <- & _). discriminate.
    - exists ss. split; [|split; [reflexivity|]].
      + cbn [concat]. rewrite app_nil_r. unfold exps_shots, ss, noiseless_result.
        assert (Hall : forall l, (forall c, In c l -> In c circs) ->
           Forall2 (fun e s => exp_shots lab (e_name e) (e_counts e) s)
             (map (fun c => {| e_name := c_name c; e_counts := [(noiseless_outcome c, n c)] |}) l)
             (map (fun c => [(noiseless_outcome c, noiseless_outcome c, n c)]) l)).
        { induction l as [|c l IH]; intros Hl; cbn; constructor.
          - destruct (Hb c (Hl c (or_introl eq_refl))) as (b & E1 & E2 & E3 & E4). cbn. rewrite E1, E2.
            apply (ES_cal lab b [(b, n c)]); [|exact E4]. intros ->. cbn in E3. destruct (concat pat); [congruence | discriminate].
          - apply IH. intros; apply Hl; right; assumption. }
        apply Hall; auto.
      + intros p m0 c0 Hin. destruct (Hin_ss p m0 c0 Hin) as (c & Hc & -> & -> & ->).
        destruct (Hb c Hc) as (b & _ & -> & E3 & E4). rewrite Hsum. auto. }
  pose proof (default_labels_complete pat Hg) as Hl. fold sizes in Hl.
  destruct (build_matrices_spec lab sizes _ _ _ Hl Hd) as (ms & Hbm & Hmlen & Hspec).
  exists {| ft_label := lab; ft_sizes := sizes; ft_labels := map count_keys sizes;
            ft_results := [noiseless_result n circs]; ft_cal := Some ms |}, ms.
  split; [|split; [reflexivity|]].
  { unfold tensored_fitter. cbn [bind add_data ft_results ft_label ft_sizes ft_labels app]. fold sizes.
    rewrite Hbm. reflexivity. }
  assert (Hszl : length sizes = length pat) by (unfold sizes; apply map_length).
  assert (Hsz : forall g, nth g sizes 0 = length (nth g pat [])) by (intros g; unfold sizes; apply (map_nth (@length nat) pat [] g)).
  assert (Hid : forall g i j, g < length pat -> i < 2 ^ length (nth g pat []) -> j < 2 ^ length (nth g pat []) ->
       (nth g ms (fun _ _ => 0%Q) i j == if i =? j then 1 else 0)%Q).
  { intros g i j Hgl Hi Hj. rewrite Hspec by (rewrite ?Hszl, ?Hsz; assumption).
    set (ls := nth g (map count_keys sizes) []).
    assert (Hcl : complete_labels (length (nth g pat [])) ls).
    { rewrite <- Hsz. apply Forall2_nth_labels; [exact Hl | rewrite Hszl; exact Hgl]. }
    pose proof (complete_labels_length _ _ Hcl) as Hll.
    rewrite noiseless_freq.
    - replace (eqb (nth i ls []) (nth j ls [])) with (i =? j); [reflexivity|].
      destruct (Nat.eqb_spec i j) as [->|Hij]; [symmetry; apply eqb_refl|]. symmetry; apply eqb_neq.
      intros E. apply Hij. apply (NoDup_nth ls []); [apply Hcl | lia | lia | exact E].
    - intros p m0 c0 Hin. destruct (Hin_ss p m0 c0 Hin) as (c & Hc & -> & -> & ->). split; [reflexivity | apply Hn; exact Hc].
    - assert (Hj' : In (nth j ls []) ls) by (apply nth_In; lia).
      apply Hcl in Hj'. destruct Hj' as [Hjl Hjb].
      specialize (Hcnt g (nth j ls []) Hgl Hjl Hjb). fold sizes in Hcnt.
      assert (Hex : exists b, In b labels /\ group_part sizes g b = nth j ls []).
      { destruct (filter (fun b => eqb (group_part sizes g b) (nth j ls [])) labels) as [|b l] eqn:Ef.
        - exfalso. cbn in Hcnt. pose proof (Nat.pow_nonzero 2 (m - length (nth j ls []))). lia.
        - exists b. assert (Hin : In b (b :: l)) by (left; reflexivity). rewrite <- Ef in Hin.
          apply filter_In in Hin. destruct Hin as [Hin He]. split; [exact Hin | apply eqb_true; exact He]. }
      destruct Hex as (b & Hbin & Hbe).
      assert (Hnm : In (lab ++ str "cal_" ++ b) (map c_name circs)).
      { rewrite Hnames. apply (in_map (fun b => lab ++ str "cal_" ++ b)). exact Hbin. }
      apply in_map_iff in Hnm. destruct Hnm as (c & Hcn & Hc).
      destruct (Hb c Hc) as (b' & E1 & E2 & _). assert (Hbb : b' = b).
      { rewrite E1 in Hcn. apply app_inv_head in Hcn. apply app_inv_head in Hcn. exact Hcn. }
      exists (noiseless_outcome c), (noiseless_outcome c), (n c). split; [|rewrite E2, Hbb; exact Hbe].
      apply in_concat. exists [(noiseless_outcome c, noiseless_outcome c, n c)]. split; [|left; reflexivity].
      unfold ss. apply (in_map (fun c => [(noiseless_outcome c, noiseless_outcome c, n c)])). exact Hc. }
  split; [exact Hid|].
  intros g Hgl.
  assert (Hcl : complete_labels (length (nth g pat [])) (nth g (map count_keys sizes) [])).
  { rewrite <- Hsz. apply Forall2_nth_labels; [exact Hl | rewrite Hszl; exact Hgl]. }
  pose proof (complete_labels_length _ _ Hcl) as Hll.
  assert (Hlne : nth g (map count_keys sizes) [] <> []).
  { intros E. rewrite E in Hll. cbn in Hll. pose proof (Nat.pow_nonzero 2 (length (nth g pat []))). lia. }
  edestruct (readout_fidelity_diag {| ft_label := lab; ft_sizes := sizes; ft_labels := map count_keys sizes;
            ft_results := [noiseless_result n circs]; ft_cal := Some ms |} ms g) as (q & Hq & Hv).
  - reflexivity.
  - cbn. apply nth_error_nth'. rewrite map_length, Hszl. exact Hgl.
  - apply nth_error_nth'. rewrite Hmlen, Hszl. exact Hgl.
  - apply Hcl.
  - exact Hlne.
  - exists q. split; [exact Hq|]. rewrite Hv. rewrite qsum_one.
    + rewrite seq_length. assert (Hp : (0 < inject_Z (Z.of_nat (length (nth g (map count_keys sizes) []))))%Q)
        by (apply inject_pos; destruct (nth g (map count_keys sizes) []); [congruence | cbn; lia]).
      field. intros E. rewrite E in Hp. apply (Qlt_irrefl _ Hp).
    + intros i Hi. apply in_seq in Hi. rewrite (Hid g i i Hgl) by (rewrite <- Hll; lia). rewrite Nat.eqb_refl. reflexivity.
Qed.
