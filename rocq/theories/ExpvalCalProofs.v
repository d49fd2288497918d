(** Calibration data, assignment matrices and calibration circuits (C33, C59). *)
From Coq Require Import QArith QArith.Qcanon Lqa Btauto.
From Verif Require Import LinAlg Base ResultFacts CountsModel CountsSpec CountsProofs BasisSem MeasCalModel MeasCalSpec MeasCalCircProofs QcFacts ExpvalModel ExpvalSpec
  ExpvalProofs ExpvalVecProofs.
Open Scope nat_scope.

(** ** Index functions *)
Lemma amat_index_local qs i : amat_index i qs = local_index qs i.
Proof.
  unfold amat_index. rewrite fold_left_add_acc. cbn [Nat.add].
  assert (Hterm : forall q s, Nat.shiftl (Nat.shiftr (Nat.land i (Nat.shiftl 1 q)) q) s = if Nat.testbit i q then 2 ^ s else 0).
  { intros q s. rewrite Nat.shiftr_land, Nat.shiftr_shiftl_l, Nat.sub_diag, Nat.shiftl_0_r by lia.
    change 1 with (Nat.ones 1). rewrite Nat.land_ones. change (2 ^ 1) with 2. rewrite <- Nat.bit0_mod, Nat.shiftr_spec' . cbn [Nat.add].
    destruct (Nat.testbit i q); cbn [Nat.b2n]; rewrite ?Nat.shiftl_1_l, ?Nat.shiftl_0_l; reflexivity. }
  assert (G : forall qs' size k, size = k + length qs' ->
    fold_right Nat.add 0 (map (fun jq => Nat.shiftl (Nat.shiftr (Nat.land i (Nat.shiftl 1 (snd jq))) (snd jq)) (size - 1 - fst jq))
         (combine (seq k (length qs')) qs')) = local_index qs' i).
  { induction qs' as [|q qs' IH]; intros size k Hk; [reflexivity|]. cbn [length seq combine map fold_right local_index fst snd].
    rewrite Hterm, (IH size (S k)) by (cbn in Hk; lia). f_equal. replace (size - 1 - k) with (length qs') by (cbn in Hk; lia). reflexivity. }
  apply (G qs (length qs) 0). reflexivity.
Qed.

Lemma local_index_lt qs i : local_index qs i < 2 ^ length qs.
Proof. induction qs as [|q qs IH]; cbn; [lia|]. destruct (Nat.testbit i q); lia. Qed.

Lemma amat_mask_bit qs n i : Nat.testbit (amat_mask qs n) i = (i <? n) && negb (mem i qs).
Proof.
  unfold amat_mask. revert i. induction n as [|n IH]; intros i.
  - cbn [seq fold_left]. rewrite Nat.bits_0. reflexivity.
  - rewrite seq_S, fold_left_app. cbn [Nat.add fold_left]. set (m := fold_left _ (seq 0 n) 0) in *.
    assert (Hn : Nat.testbit m n = false) by (rewrite IH, Nat.ltb_irrefl; reflexivity).
    destruct (mem n qs) eqn:Em.
    + rewrite IH. destruct (Nat.ltb_spec i n), (Nat.ltb_spec i (S n)); try lia; try reflexivity.
      replace i with n by lia. rewrite Em. reflexivity.
    + rewrite Nat.add_comm, testbit_add_pow2, IH by exact Hn.
      destruct (Nat.eqb_spec n i) as [<-|Hne].
      * rewrite Em. destruct (Nat.ltb_spec n (S n)); [reflexivity | lia].
      * destruct (Nat.ltb_spec i n), (Nat.ltb_spec i (S n)); try lia; reflexivity.
Qed.

Lemma mask_clean qs n a b : (Nat.land a (amat_mask qs n) =? Nat.land b (amat_mask qs n)) = clean_elsewhere n qs a b.
Proof.
  apply Bool.eq_iff_eq_true. rewrite Nat.eqb_eq. unfold clean_elsewhere. rewrite forallb_forall. split.
  - intros H i Hi. apply in_seq in Hi. apply (f_equal (fun z => Nat.testbit z i)) in H. rewrite !Nat.land_spec, amat_mask_bit in H.
    destruct (Nat.ltb_spec i n); [|lia]. destruct (mem i qs); [reflexivity|]. cbn [orb negb andb] in *.
    rewrite !Bool.andb_true_r in H. rewrite H. apply Bool.eqb_reflx.
  - intros H. apply Nat.bits_inj. intros i. rewrite !Nat.land_spec, amat_mask_bit.
    destruct (Nat.ltb_spec i n) as [Hi|Hi]; [|rewrite !Bool.andb_false_r; reflexivity].
    specialize (H i ltac:(apply in_seq; lia)). destruct (mem i qs); [rewrite !Bool.andb_false_r; reflexivity|].
    cbn [orb] in H. apply Bool.eqb_prop in H. rewrite H. reflexivity.
Qed.

(** ** Accumulation *)
Lemma zsum_app' (l l' : list Z) : zsum (l ++ l') = (zsum l + zsum l')%Z.
Proof. induction l as [|a l IH]; cbn [app zsum]; [reflexivity | rewrite IH; lia]. Qed.

Lemma accum_local qs n cal c : forall (m : zmat) y x,
  amat_accum_local qs (amat_mask qs n) m cal c y x
  = (m y x + zsum (map (fun kv => if clean_elsewhere n qs cal (fst kv) && (local_index qs cal =? x)%nat && (local_index qs (fst kv) =? y)%nat
                                  then snd kv else 0%Z) c))%Z.
Proof.
  unfold amat_accum_local. rewrite amat_index_local. induction c as [|[k v] c IH]; intros m y x; cbn [fold_left map zsum fst snd]; [lia|].
  rewrite mask_clean. destruct (clean_elsewhere n qs cal k); cbn [andb].
  - rewrite IH. unfold zmat_add. rewrite amat_index_local, (Nat.eqb_sym y), (Nat.eqb_sym x).
    destruct (local_index qs k =? y), (local_index qs cal =? x); cbn [andb]; lia.
  - rewrite IH. lia.
Qed.

Lemma accum_data qs n data : forall (m : zmat) y x,
  fold_left (fun m cc => amat_accum_local qs (amat_mask qs n) m (fst cc) (snd cc)) data m y x = (m y x + joint_shots data n qs y x)%Z.
Proof.
  unfold joint_shots, cal_shots. induction data as [|[cal c] data IH]; intros m y x; cbn [fold_left flat_map]; [cbn; lia|].
  rewrite IH, accum_local, map_app, zsum_app', map_map. cbn [fst snd]. lia.
Qed.

Lemma zsum_pick (f : Z) j d : j < d -> zsum (map (fun y => if j =? y then f else 0%Z) (seq 0 d)) = f.
Proof.
  intros Hj. assert (G : forall k m, k <= j < k + m -> zsum (map (fun y => if j =? y then f else 0%Z) (seq k m)) = f); [|apply (G 0 d); lia].
  assert (Z0 : forall k m, j < k -> zsum (map (fun y => if j =? y then f else 0%Z) (seq k m)) = 0%Z).
  { intros k m; revert k; induction m as [|m IH]; intros k Hk; cbn [seq map zsum]; [reflexivity|].
    destruct (Nat.eqb_spec j k); [lia|]. rewrite IH by lia. lia. }
  intros k m; revert k; induction m as [|m IH]; intros k Hk; [lia|]. cbn [seq map zsum].
  destruct (Nat.eqb_spec j k) as [->|]; [rewrite Z0 by lia; lia|]. rewrite IH by lia. lia.
Qed.
Lemma zsum_swap {A B} (f : A -> B -> Z) la lb :
  zsum (map (fun a => zsum (map (fun b => f a b) lb)) la) = zsum (map (fun b => zsum (map (fun a => f a b) la)) lb).
Proof.
  induction la as [|a la IH]; cbn [map zsum].
  - induction lb as [|b lb IHb]; cbn [map zsum]; [reflexivity | rewrite <- IHb; reflexivity].
  - rewrite IH. clear IH. induction lb as [|b lb IHb]; cbn [map zsum]; [reflexivity | rewrite <- IHb; lia].
Qed.
Lemma zsum_ext_in {A} (f g : A -> Z) l : (forall a, In a l -> f a = g a) -> zsum (map f l) = zsum (map g l).
Proof. intros H. f_equal. apply map_ext_in, H. Qed.

Lemma joint_prepared data n qs x : zsum (map (fun y => joint_shots data n qs y x) (seq 0 (2 ^ length qs))) = prepared_shots data n qs x.
Proof.
  unfold joint_shots, prepared_shots. rewrite zsum_swap. apply zsum_ext_in. intros [[prep meas] v] _.
  rewrite <- (zsum_pick (if clean_elsewhere n qs prep meas && (local_index qs prep =? x) then v else 0%Z) (local_index qs meas) (2 ^ length qs))
    by apply local_index_lt.
  apply zsum_ext_in. intros y _. destruct (clean_elsewhere _ _ _ _), (local_index qs prep =? x), (local_index qs meas =? y); reflexivity.
Qed.
Lemma joint_prepared_full data dim x : (forall p m v, In (p, m, v) (cal_shots data) -> m < dim) ->
  zsum (map (fun y => joint_full data y x) (seq 0 dim)) = prepared_full data x.
Proof.
  intros H. unfold joint_full, prepared_full. rewrite zsum_swap. apply zsum_ext_in. intros [[prep meas] v] Hin.
  rewrite <- (zsum_pick (if prep =? x then v else 0%Z) meas dim) by (eapply H; eauto).
  apply zsum_ext_in. intros y _. destruct (prep =? x), (meas =? y); reflexivity.
Qed.

Lemma accum_full dim cal c : forall (m : zmat), (forall k v, In (k, v) c -> k < dim /\ cal < dim) ->
  exists m', amat_accum_full dim m cal c = Ok m' /\
  forall y x, m' y x = (m y x + zsum (map (fun kv => if (cal =? x)%nat && (fst kv =? y)%nat then snd kv else 0%Z) c))%Z.
Proof.
  unfold amat_accum_full. induction c as [|[k v] c IH]; intros m H; cbn [foldM].
  - exists m. split; [reflexivity|]. intros. cbn. lia.
  - cbn [fst snd]. destruct (H k v (or_introl eq_refl)) as [H1 H2]. apply Nat.ltb_lt in H1. pose proof H2 as H2'. apply Nat.ltb_lt in H2'.
    replace ((k <? dim) && (cal <? dim)) with true by (rewrite H1, H2'; reflexivity). cbn [bind].
    destruct (IH (zmat_add m k cal v)) as (m' & Hm' & E); [intros; eapply H; right; eauto|].
    exists m'. split; [exact Hm'|]. intros y x. rewrite E. cbn [map zsum fst snd]. unfold zmat_add.
    rewrite (Nat.eqb_sym y), (Nat.eqb_sym x). destruct (k =? y), (cal =? x); cbn [andb]; lia.
Qed.
Lemma accum_full_data dim data : forall (m : zmat), (forall p k v, In (p, k, v) (cal_shots data) -> p < dim /\ k < dim) ->
  exists m', foldM (fun m cc => amat_accum_full dim m (fst cc) (snd cc)) data m = Ok m' /\
  forall y x, m' y x = (m y x + joint_full data y x)%Z.
Proof.
  unfold joint_full, cal_shots. induction data as [|[cal c] data IH]; intros m H; cbn [foldM].
  - exists m. split; [reflexivity|]. intros; cbn; lia.
  - cbn [fst snd]. destruct (accum_full dim cal c m) as (m1 & Hm1 & E1).
    { intros k v Hk. destruct (H cal k v) as [H1 H2]; [|split; assumption]. cbn [flat_map]. apply in_app_iff. left. apply in_map_iff. exists (k, v). auto. }
    rewrite Hm1. cbn [bind]. destruct (IH m1) as (m2 & Hm2 & E2).
    { intros p k v Hin. apply (H p k v). cbn [flat_map]. apply in_app_iff. right. exact Hin. }
    exists m2. split; [exact Hm2|]. intros y x. rewrite E2, E1. cbn [flat_map fst snd]. rewrite map_app, zsum_app', map_map. lia.
Qed.

(** ** The assignment matrix *)
Lemma assignment_finish dim (J : nat -> nat -> Z) (P : nat -> Z) (m : zmat) :
  (forall y x, m y x = J y x) -> (forall x, zsum (map (fun y => J y x) (seq 0 dim)) = P x) ->
  (if existsb (fun x => (zsum (map (fun y => m y x) (seq 0 dim)) =? 0)%Z) (seq 0 dim) then Err QiskitError
   else Ok (dim, fun y x => (qz (m y x) / qz (zsum (map (fun y => m y x) (seq 0 dim))))%Qc))
  = Err QiskitError /\ (exists x, x < dim /\ P x = 0%Z) \/
  exists A, (if existsb (fun x => (zsum (map (fun y => m y x) (seq 0 dim)) =? 0)%Z) (seq 0 dim) then Err QiskitError
   else Ok (dim, fun y x => (qz (m y x) / qz (zsum (map (fun y => m y x) (seq 0 dim))))%Qc)) = Ok (dim, A) /\
   (forall x, x < dim -> P x <> 0%Z) /\ (forall y x, A y x = (ofZ (J y x) / ofZ (P x))%Qc) /\
   (forall x, x < dim -> sum_lt dim (fun y => A y x) = 1%Qc).
Proof.
  intros Hm HP. assert (HPm : forall x, zsum (map (fun y => m y x) (seq 0 dim)) = P x).
  { intros x. rewrite <- HP. apply zsum_ext_in. intros; apply Hm. }
  destruct (existsb _ (seq 0 dim)) eqn:Ex.
  - left. split; [reflexivity|]. apply existsb_exists in Ex. destruct Ex as (x & Hx & Ez). apply in_seq in Hx.
    apply Z.eqb_eq in Ez. exists x. split; [lia | rewrite <- HPm; exact Ez].
  - right. assert (Hnz : forall x, x < dim -> P x <> 0%Z).
    { intros x Hx Hz. apply Bool.not_true_iff_false in Ex. apply Ex. apply existsb_exists. exists x. split; [apply in_seq; lia|].
      rewrite HPm. apply Z.eqb_eq, Hz. }
    eexists. split; [reflexivity|]. split; [exact Hnz|]. split.
    + intros y x. rewrite Hm, HPm. reflexivity.
    + intros x Hx. unfold sum_lt. cbv beta. rewrite HPm. unfold Qcdiv. rewrite qsum_mul_r. change qz with iz. rewrite <- iz_zsum, HPm.
      apply Qcmult_inv_r. apply iz_neq_0, Hnz, Hx.
Qed.

Lemma assignment_local_lemma data n qs :
  (assignment_matrix data n (Some qs) = Err QiskitError /\ exists x, x < 2 ^ length qs /\ prepared_shots data n qs x = 0%Z) \/
  exists A, assignment_matrix data n (Some qs) = Ok (2 ^ length qs, A) /\
    (forall x, x < 2 ^ length qs -> prepared_shots data n qs x <> 0%Z) /\
    (forall y x, A y x = (ofZ (joint_shots data n qs y x) / ofZ (prepared_shots data n qs x))%Qc) /\
    (forall x, x < 2 ^ length qs -> sum_lt (2 ^ length qs) (fun y => A y x) = 1%Qc).
Proof.
  unfold assignment_matrix. cbn [bind]. apply assignment_finish.
  - intros y x. rewrite accum_data. lia.
  - intros x. apply joint_prepared.
Qed.

Lemma assignment_full_lemma data n : (forall p m v, In (p, m, v) (cal_shots data) -> p < 2 ^ n /\ m < 2 ^ n) ->
  (assignment_matrix data n None = Err QiskitError /\ exists x, x < 2 ^ n /\ prepared_full data x = 0%Z) \/
  exists A, assignment_matrix data n None = Ok (2 ^ n, A) /\
    (forall x, x < 2 ^ n -> prepared_full data x <> 0%Z) /\
    (forall y x, A y x = (ofZ (joint_full data y x) / ofZ (prepared_full data x))%Qc) /\
    (forall x, x < 2 ^ n -> sum_lt (2 ^ n) (fun y => A y x) = 1%Qc).
Proof.
  intros H. unfold assignment_matrix. destruct (accum_full_data (2 ^ n) data (fun _ _ => 0%Z) H) as (m & Hm & E).
  rewrite Hm. cbn [bind]. apply assignment_finish.
  - intros y x. rewrite E. lia.
  - intros x. apply joint_prepared_full. intros p k v Hin. apply (H p k v Hin).
Qed.

(** The list of all qubits in decreasing order gives the full matrix. *)
Lemma local_index_rev n i : i < 2 ^ n -> local_index (rev (seq 0 n)) i = i.
Proof.
  intros Hi. assert (G : forall m, local_index (rev (seq 0 m)) i = i mod 2 ^ m).
  { induction m as [|m IH]; [change (2 ^ 0) with 1; rewrite Nat.mod_1_r; reflexivity|]. rewrite seq_S, rev_app_distr. cbn [rev app Nat.add local_index].
    rewrite rev_length, seq_length, IH. cbn [Nat.pow]. rewrite (Nat.mul_comm 2), Nat.mod_mul_r by (try apply Nat.pow_nonzero; lia).
    rewrite <- Nat.testbit_spec'. destruct (Nat.testbit i m); cbn [Nat.b2n]; lia. }
  rewrite G. apply Nat.mod_small, Hi.
Qed.

Lemma full_is_reversed_lemma data n y x :
  (forall p m v, In (p, m, v) (cal_shots data) -> p < 2 ^ n /\ m < 2 ^ n) ->
  joint_shots data n (rev (seq 0 n)) y x = joint_full data y x /\
  prepared_shots data n (rev (seq 0 n)) x = prepared_full data x.
Proof.
  intros H. assert (Hc : forall a b, clean_elsewhere n (rev (seq 0 n)) a b = true).
  { intros a b. unfold clean_elsewhere. apply forallb_forall. intros i Hi. assert (Hm : mem i (rev (seq 0 n)) = true) by (apply mem_In; rewrite <- in_rev; exact Hi).
    rewrite Hm. reflexivity. }
  split; apply zsum_ext_in; intros [[p m] v] Hin; destruct (H p m v Hin) as [H1 H2]; rewrite Hc, !local_index_rev by assumption; reflexivity.
Qed.

(** ** Calibration data *)
Definition count_of (c : list (nat * Z)) (y : nat) : Z := zsum (map (fun kv => if fst kv =? y then snd kv else 0%Z) c).

Lemma zsum_dset_some {K V} `{Eqb K} (F : K * V -> Z) (d : list (K * V)) k v old : dget d k = Some old ->
  zsum (map F (dset d k v)) = (zsum (map F d) - F (k, old) + F (k, v))%Z.
Proof.
  induction d as [|[k' v'] d IH]; cbn; [discriminate|]. destruct (eqb_spec k k') as [->|Hn]; cbn [map zsum].
  - intros [= ->]. lia.
  - intros E. rewrite (IH E). lia.
Qed.
Lemma zsum_dset_none {K V} `{Eqb K} (F : K * V -> Z) (d : list (K * V)) k v : dget d k = None ->
  zsum (map F (dset d k v)) = (zsum (map F d) + F (k, v))%Z.
Proof.
  induction d as [|[k' v'] d IH]; cbn; [lia|]. destruct (eqb_spec k k') as [->|Hn]; cbn [map zsum]; [discriminate|].
  intros E. rewrite (IH E). lia.
Qed.

Lemma combine_int_count c0 c y : count_of (combine_int c0 c) y = (count_of c0 y + count_of c y)%Z.
Proof.
  unfold combine_int, count_of. revert c0; induction c as [|[k v] c IH]; intros c0; cbn [fold_left map zsum fst snd]; [lia|].
  rewrite IH. destruct (dget c0 k) as [v0|] eqn:E.
  - rewrite (zsum_dset_some _ c0 k _ v0 E). cbn [fst snd]. destruct (k =? y); lia.
  - rewrite (zsum_dset_none _ c0 k _ E). cbn [fst snd]. lia.
Qed.

Lemma joint_full_data data y x : joint_full data y x = zsum (map (fun cc => if fst cc =? x then count_of (snd cc) y else 0%Z) data).
Proof.
  unfold joint_full, cal_shots. induction data as [|[p c] data IH]; [reflexivity|]. cbn [flat_map map zsum fst snd].
  rewrite map_app, zsum_app', IH, map_map. cbn [fst snd]. f_equal. unfold count_of. destruct (p =? x); cbn [andb]; [reflexivity|].
  clear. induction c as [|a c IH]; cbn [map zsum]; [reflexivity | rewrite IH; reflexivity].
Qed.

Definition is_cal (m : meta) : bool := match mt_experiment m with Some e => eqb e (str "meas_mit") | None => false end.
Definition exp_of (mc : meta * list (nat * Z)) : option pystr * list (nat * Z) :=
  (if is_cal (fst mc) then Some (mt_cal (fst mc)) else None, snd mc).

Lemma joint_step d key c y x :
  joint_full (match dget d key with None => dset d key c | Some c0 => dset d key (combine_int c0 c) end) y x
  = (joint_full d y x + (if (key =? x)%nat then count_of c y else 0))%Z.
Proof.
  rewrite !joint_full_data. destruct (dget d key) as [c0|] eqn:E.
  - rewrite (zsum_dset_some _ d key _ c0 E). cbn [fst snd]. destruct (key =? x); [rewrite combine_int_count|]; lia.
  - rewrite (zsum_dset_none _ d key _ E). cbn [fst snd]. lia.
Qed.

Definition first_cal {A} (f : meta -> A) (ms : list meta) : option A := option_map f (find is_cal ms).

Lemma calibration_fold counts ms cs : forall k d nq meth,
  Forall2 (fun i c => counts i = Ok c) (seq k (length ms)) cs ->
  (forall m, In m ms -> is_cal m = true -> is_bits (mt_cal m) /\ mt_cal m <> [] /\ mt_method m <> None) ->
  (nq = None <-> meth = None) ->
  exists d' nq' meth', foldM (calibration_step counts) (combine (seq k (length ms)) ms) (d, nq, meth) = Ok (d', nq', meth') /\
    (forall y x, joint_full d' y x = (joint_full d y x + recorded (map exp_of (combine ms cs)) y x)%Z) /\
    nq' = match nq with Some _ => nq | None => first_cal (fun m => length (mt_cal m)) ms end /\
    meth' = match meth with Some _ => meth | None => match find is_cal ms with Some m => mt_method m | None => None end end.
Proof.
  revert cs. induction ms as [|m ms IH]; intros cs k d nq meth HF Hm Hnm; cbn [length seq combine foldM] in *.
  - exists d, nq, meth. split; [reflexivity|]. split; [intros; unfold recorded; cbn; lia|].
    split; [destruct nq; reflexivity | destruct meth; reflexivity].
  - inversion HF as [|i c l cs' Hc HF' E1 E2]; subst. cbn [combine map].
    assert (Hm' : forall m0, In m0 ms -> is_cal m0 = true -> is_bits (mt_cal m0) /\ mt_cal m0 <> [] /\ mt_method m0 <> None) by (intros; apply Hm; [right|]; assumption).
    destruct (is_cal m) eqn:Ecal.
    + destruct (Hm m (or_introl eq_refl) Ecal) as (Hb & Hne & Hme).
      set (key := binary_value 0 (mt_cal m)).
      assert (Hstep : calibration_step counts (d, nq, meth) (k, m)
        = Ok (match dget d key with None => dset d key c | Some c0 => dset d key (combine_int c0 c) end,
              match nq with None => Some (length (mt_cal m)) | Some _ => nq end,
              match meth with None => mt_method m | Some _ => meth end)).
      { unfold calibration_step. fold (is_cal m). rewrite Ecal, (int2_ok _ Hb Hne). cbn [bind]. rewrite Hc. cbn [bind].
        fold key. destruct (dget d key); reflexivity. }
      rewrite Hstep. cbn [bind].
      destruct (IH cs' (S k) (match dget d key with None => dset d key c | Some c0 => dset d key (combine_int c0 c) end)
                  (match nq with None => Some (length (mt_cal m)) | Some _ => nq end)
                  (match meth with None => mt_method m | Some _ => meth end) HF' Hm') as (d' & nq' & meth' & HfM & Hj & Hn & Hmm).
      { destruct nq, meth; split; intros; try discriminate; try (exfalso; apply Hme; assumption); destruct Hnm as [Ha Hb']; try (specialize (Ha eq_refl)); try (specialize (Hb' eq_refl)); try discriminate. }
      exists d', nq', meth'. split; [exact HfM|]. split; [|split].
      * intros y x. rewrite Hj, joint_step. unfold recorded. cbn [map zsum exp_of fst snd]. rewrite Ecal. fold key. unfold count_of. lia.
      * rewrite Hn. unfold first_cal. cbn [find]. rewrite Ecal. destruct nq; reflexivity.
      * rewrite Hmm. cbn [find]. rewrite Ecal. destruct meth; [reflexivity|]. destruct (mt_method m); [reflexivity | congruence].
    + assert (Hstep : calibration_step counts (d, nq, meth) (k, m) = Ok (d, nq, meth)).
      { unfold calibration_step. fold (is_cal m). rewrite Ecal. reflexivity. }
      rewrite Hstep. cbn [bind]. destruct (IH cs' (S k) d nq meth HF' Hm' Hnm) as (d' & nq' & meth' & HfM & Hj & Hn & Hmm).
      exists d', nq', meth'. split; [exact HfM|]. split; [|split].
      * intros y x. rewrite Hj. unfold recorded. cbn [map zsum exp_of fst snd]. rewrite Ecal. lia.
      * rewrite Hn. unfold first_cal. cbn [find]. rewrite Ecal. reflexivity.
      * rewrite Hmm. cbn [find]. rewrite Ecal. reflexivity.
Qed.

Lemma calibration_data_lemma counts ms cs :
  Forall2 (fun i c => counts i = Ok c) (seq 0 (length ms)) cs ->
  (forall m, In m ms -> is_cal m = true -> is_bits (mt_cal m) /\ mt_cal m <> [] /\ mt_method m <> None) ->
  exists d, calibration_data counts ms = Ok (d, first_cal (fun m => length (mt_cal m)) ms,
      match find is_cal ms with Some m => mt_method m | None => None end) /\
    forall y x, joint_full d y x = recorded (map exp_of (combine ms cs)) y x.
Proof.
  intros HF Hm. destruct (calibration_fold counts ms cs 0 [] None None HF Hm) as (d & nq & meth & H1 & H2 & H3 & H4); [split; reflexivity|].
  exists d. rewrite <- H4, <- H3. split; [exact H1|]. intros y x. rewrite H2. unfold joint_full. cbn. lia.
Qed.

(** ** Circuits *)
Lemma calibration_circuit_lemma n label : length label = n -> is_bits label ->
  exists c, calibration_circuit n label = Ok c /\ noiseless_outcome c = label /\ c_nq c = n /\ c_ncl c = n /\
    c_name c = str "meas_mit_cal_" ++ label /\
    (forall q, q < n -> In (IMeasure q q) (c_body c)).
Proof.
  intros Hl Hb. unfold calibration_circuit. rewrite Hl.
  assert (Hg : mapM (fun iv : nat * ascii => if eqb (snd iv) ch1 then if fst iv <? n then Ok [IX (fst iv)] else Err CircuitError else Ok [])
                 (combine (seq 0 n) (rev label))
             = Ok (map (fun iv : nat * ascii => if eqb (snd iv) ch1 then [IX (fst iv)] else []) (combine (seq 0 n) (rev label)))).
  { apply mapM_ok. intros [i v] Hin. apply in_combine_l in Hin. apply in_seq in Hin. cbn [fst snd].
    destruct (eqb v ch1); [|reflexivity]. destruct (Nat.ltb_spec i n); [reflexivity | lia]. }
  rewrite Hg. cbn [bind]. eexists. split; [reflexivity|]. cbn [c_nq c_ncl c_name].
  split; [|split; [reflexivity|]; split; [reflexivity|]; split; [reflexivity|]].
  - unfold noiseless_outcome. cbn [c_ncl c_body].
    pose proof (cal_body_outcome (seq 0 n) label n (seq_NoDup n 0)) as H. rewrite seq_length in H.
    specialize (H Hl Hb (le_n n)). rewrite Nat.sub_diag in H. cbn [repeat app] in H. rewrite <- H at 2. f_equal. f_equal. f_equal. f_equal.
    unfold ms_of. clear. cbn [app]. f_equal. generalize (seq 0 n) as l. induction l as [|a l IH]; cbn; [reflexivity | rewrite IH; reflexivity].
  - intros q Hq. cbn [c_body]. apply in_app_iff. right. right. apply in_map_iff. exists q. split; [reflexivity|]. apply in_seq. lia.
Qed.

Lemma repeat_bits (a : ascii) n : a = "0"%char \/ a = "1"%char -> is_bits (repeat a n).
Proof. intros H c Hc. apply repeat_spec in Hc. subst c. destruct H; [left | right]; assumption. Qed.

Lemma ctmp_label_excited n i : i < n ->
  excited n i (repeat ch0 (n - i - 1) ++ [ch1] ++ repeat ch0 i).
Proof.
  intros Hi. split; [rewrite !app_length, !repeat_length; cbn; lia|]. intros k Hk.
  destruct (Nat.lt_trichotomy k (n - 1 - i)) as [H|[H|H]].
  - rewrite app_nth1 by (rewrite repeat_length; lia). destruct (Nat.eqb_spec k (n - 1 - i)); [lia|].
    apply nth_repeat.
  - rewrite app_nth2 by (rewrite repeat_length; lia). rewrite repeat_length. replace (k - (n - i - 1)) with 0 by lia.
    destruct (Nat.eqb_spec k (n - 1 - i)); [reflexivity | lia].
  - rewrite app_nth2 by (rewrite repeat_length; lia). rewrite repeat_length. destruct (Nat.eqb_spec k (n - 1 - i)); [lia|].
    destruct (k - (n - i - 1)) as [|j] eqn:Ej; [lia|]. cbn [app nth]. apply nth_repeat.
Qed.
