(** Expectation values without mitigation and probability vectors (C29, C30). *)
From Coq Require Import QArith QArith.Qcanon Lqa.
From Verif Require Import LinAlg Base ResultFacts CountsModel CountsSpec CountsProofs QcFacts ExpvalModel ExpvalSpec.
Open Scope nat_scope.

Lemma qz_iz z : qz z = iz z. Proof. reflexivity. Qed.
Lemma ofZ_iz z : ofZ z = iz z. Proof. reflexivity. Qed.

Lemma int2_fold s acc : is_bits s ->
  foldM (fun acc c => if eqb c ch1 then Ok (2 * acc + 1) else if eqb c ch0 then Ok (2 * acc) else Err ValueError) s acc
  = Ok (binary_value acc s).
Proof.
  revert acc; induction s as [|c s IH]; intros acc Hb; [reflexivity|].
  apply is_bits_cons in Hb. destruct Hb as [Hc Hb]. cbn [foldM binary_value].
  destruct Hc as [-> | ->].
  - change (eqb ch0 ch1) with false. change (eqb ch0 ch0) with true. change (Ascii.eqb ch0 "1") with false.
    cbn iota. cbn [bind]. rewrite IH by exact Hb. rewrite Nat.add_0_r. reflexivity.
  - change (eqb ch1 ch1) with true. change (Ascii.eqb ch1 "1") with true. cbn iota. cbn [bind].
    rewrite IH by exact Hb. reflexivity.
Qed.
Lemma int2_ok s : is_bits s -> s <> [] -> int2 s = Ok (binary_value 0 s).
Proof. intros Hb Hn. unfold int2. destruct s; [congruence|]. apply int2_fold, Hb. Qed.

Lemma sign_parity s : sign_of (ones s) = z_parity s.
Proof.
  unfold sign_of, ones. induction s as [|c s IH]; [reflexivity|]. cbn [filter z_parity].
  change (eqb c ch1) with (Ascii.eqb c "1"). destruct (Ascii.eqb c "1"); cbn [length]; [|exact IH].
  rewrite <- IH, Nat.even_succ, <- Nat.negb_even. destruct (Nat.even _); cbn [negb].
  - reflexivity.
  - ring.
Qed.

Lemma dotp_map {A} (f g : A -> Qc) l : dotp (map f l) (map g l) = Ok (fsum (map (fun a => f a * g a)%Qc l)).
Proof.
  unfold dotp. rewrite !map_length, Nat.eqb_refl. f_equal. f_equal.
  induction l as [|a l IH]; cbn; [reflexivity|]. rewrite IH. reflexivity.
Qed.

(** Core: the value and the variance as weighted sums. *)
Definition wmean {A} (w f : A -> Qc) (T : Qc) (l : list A) : Qc := (fsum (map (fun a => w a * f a) l) / T)%Qc.
Definition wvar {A} (w f : A -> Qc) (T : Qc) (l : list A) : Qc :=
  (fsum (map (fun a => w a * ((f a - wmean w f T l) * (f a - wmean w f T l))) l) / T)%Qc.

Lemma wvar_eq {A} (w f : A -> Qc) T l : T <> 0%Qc -> fsum (map w l) = T ->
  wvar w f T l = (fsum (map (fun a => f a * f a * (w a / T)) l) - wmean w f T l * wmean w f T l)%Qc.
Proof.
  intros HT Hs. unfold wvar. set (m := wmean w f T l).
  assert (Hm : fsum (map (fun a => w a * f a)%Qc l) = (m * T)%Qc) by (unfold m, wmean; field; exact HT).
  transitivity ((fsum (map (fun a => w a * (f a * f a) + ((- (m + m)) * (w a * f a) + m * m * w a)) l) / T)%Qc).
  { f_equal. apply qsum_ext. intros a _. ring. }
  rewrite !qsum_add, !qsum_mul, Hm, Hs.
  replace (fsum (map (fun a => f a * f a * (w a / T)) l))%Qc with (fsum (map (fun a => w a * (f a * f a)) l) * / T)%Qc.
  - field; exact HT.
  - rewrite <- qsum_mul_r. apply qsum_ext. intros a _. field; exact HT.
Qed.

Lemma expval_core {A} (w : A -> Z) (f : A -> Qc) T l p :
  zsum (map w l) = T -> T <> 0%Z -> p = map (fun a => (iz (w a) / iz T)%Qc) l ->
  exists v, expval_with_stddev (map f l) (Some p) T = Ok (Some (wmean (fun a => iz (w a)) f (iz T) l), v) /\
    ((0 < T)%Z -> (forall a, In a l -> (0 <= w a)%Z) ->
       v = (wvar (fun a => iz (w a)) f (iz T) l / iz T)%Qc) /\ (0 <= v)%Qc.
Proof.
  intros Hs HT ->. unfold expval_with_stddev. rewrite map_map, !dotp_map. cbn [bind]. cbv zeta.
  pose proof (iz_neq_0 T HT) as HT'.
  assert (Hm : fsum (map (fun a => f a * (iz (w a) / iz T))%Qc l) = wmean (fun a => iz (w a)) f (iz T) l).
  { unfold wmean. unfold Qcdiv at 2. rewrite <- qsum_mul_r. apply qsum_ext. intros a _. field; exact HT'. }
  rewrite Hm. eexists. split; [reflexivity|]. split.
  - intros Hp Hnn. assert (Hsq : fsum (map (fun a => iz (w a)) l) = iz T) by (rewrite <- iz_zsum, Hs; reflexivity).
    rewrite <- (wvar_eq (fun a => iz (w a)) f (iz T) l HT' Hsq). change qz with iz. unfold Qc_ltb.
    assert (Hv : (0 <= wvar (fun a => iz (w a)) f (iz T) l)%Qc).
    { unfold wvar. apply Qc_div_nonneg; [|apply iz_pos, Hp]. apply qsum_nonneg. intros a Ha.
      apply Qc_mul_nonneg; [apply iz_nonneg, Hnn, Ha | apply Qc_sq_nonneg]. }
    assert (Hv' : (0 <= wvar (fun a => iz (w a)) f (iz T) l / iz T)%Qc) by (apply Qc_div_nonneg; [exact Hv | apply iz_pos, Hp]).
    destruct (Qclt_le_dec _ _) as [Hlt|Hle]; [reflexivity|]. apply Qcle_antisym; assumption.
  - unfold Qc_ltb. destruct (Qclt_le_dec _ _) as [Hlt|Hle]; [apply Qclt_le_weak, Hlt | apply Qcle_refl].
Qed.

(** Summing over a dictionary and over the shots it summarises. *)
Lemma group_sum {A} (g : A -> pystr) (v : A -> Z) (f : pystr -> Qc) l m :
  (forall a, In a l -> length (g a) = m /\ is_bits (g a)) ->
  fsum (map (fun y => f y * iz (zsum (map (fun a => if eqb (g a) y then v a else 0%Z) l)))%Qc (all_bits m))
  = fsum (map (fun a => iz (v a) * f (g a))%Qc l).
Proof.
  intros Hk.
  transitivity (fsum (map (fun y => fsum (map (fun a => if eqb (g a) y then (iz (v a) * f y)%Qc else 0%Qc) l)) (all_bits m))).
  - apply qsum_ext. intros y _. rewrite iz_zsum, <- qsum_mul. apply qsum_ext. intros a _.
    destruct (eqb (g a) y); [ring|]. rewrite iz_0. ring.
  - rewrite qsum_swap. apply qsum_ext. intros a Ha.
    rewrite (qsum_pick (all_bits m) (g a) (fun y => (iz (v a) * f y)%Qc)); [reflexivity | apply all_bits_NoDup|].
    apply all_bits_In, Hk, Ha.
Qed.

Lemma marginal_ok n c clbits sel : well_formed n c clbits sel ->
  exists r, marginalised c clbits = Ok r /\ total r = total c /\ NoDup (map fst r) /\
    (forall y, In y (map fst r) -> length y = n /\ is_bits y) /\
    (total c <> 0%Z -> r <> []) /\
    (forall f : pystr -> Qc, fsum (map (fun kv => iz (snd kv) * f (fst kv))%Qc r)
                     = fsum (map (fun kv => iz (snd kv) * f (outcome_sel sel (fst kv)))%Qc c)).
Proof.
  intros [Hn Hw]. destruct clbits as [qs|], sel as [asc|]; try contradiction.
  - destruct Hw as (m & Hvc & Hasc & Hlt & Hlen).
    assert (Hq : qs <> []) by (intros ->; cbn in Hlen; lia).
    destruct (marginal_counts_exact_lemma m c qs asc false Hvc Hasc Hlt Hq) as (r & Hr & Hg & Ht & Hnd & Hk & _).
    exists r. split; [exact Hr|]. split; [exact Ht|]. split; [exact Hnd|]. rewrite <- Hlen. split; [exact Hk|].
    split. { intros Hz ->. cbn in Ht. congruence. }
    intros f. rewrite <- (group_sum fst snd f r (length qs)); [|intros [k v] Ha; apply Hk, (in_map fst _ _ Ha)].
    rewrite <- (group_sum (fun kv => outcome_sel (Some asc) (fst kv)) snd f c (length qs)).
    + apply qsum_ext. intros y _. f_equal. f_equal. change (shots_of r y = marginal_spec c asc y).
      rewrite <- shots_of_dget0 by exact Hnd. apply Hg.
    + intros [k v] Ha. cbn [outcome_sel fst]. destruct Hvc as (_ & _ & Hv). destruct (Hv k v Ha) as [Hl Hb].
      rewrite outcome_on_length. destruct Hasc as [_ Hp]. split; [apply Permutation_length, Hp|].
      apply outcome_on_bits; [exact Hb|]. intros q Hqa. rewrite Hl. apply Hlt. eapply Permutation_in; eauto.
  - destruct Hw as [(Hne & Hnd & Hv) Hs]. exists c. split; [reflexivity|]. split; [reflexivity|].
    assert (E : map (fun kv : pystr * Z => strip (fst kv)) c = map fst c).
    { apply map_ext_in. intros [k v] Ha. apply (Hs k v Ha). }
    rewrite E in Hnd. split; [exact Hnd|]. split.
    { intros y Hy. apply in_map_iff in Hy. destruct Hy as ([k v] & <- & Ha). cbn [fst].
      destruct (Hv k v Ha) as [Hl Hb]. rewrite (Hs k v Ha) in Hl, Hb. auto. }
    split; [auto|]. intros f. apply qsum_ext. intros [k v] Ha. cbn [outcome_sel fst]. rewrite (Hs k v Ha). reflexivity.
Qed.

Lemma mean_wmean f (c : counts) : mean_of f c = wmean (fun kv => iz (snd kv)) (fun kv => f (fst kv)) (iz (total c)) c.
Proof. reflexivity. Qed.
Lemma var_wvar f (c : counts) : var_of f c = wvar (fun kv => iz (snd kv)) (fun kv => f (fst kv)) (iz (total c)) c.
Proof. reflexivity. Qed.

Lemma mean_transfer (r c : counts) f g : total r = total c ->
  (forall h : pystr -> Qc, fsum (map (fun kv => iz (snd kv) * h (fst kv))%Qc r)
                 = fsum (map (fun kv => iz (snd kv) * h (g (fst kv)))%Qc c)) ->
  mean_of f r = mean_of (fun k => f (g k)) c /\ var_of f r = var_of (fun k => f (g k)) c.
Proof.
  intros Ht Hs.
  assert (Hm : mean_of f r = mean_of (fun k => f (g k)) c).
  { unfold mean_of. rewrite Ht. f_equal. apply (Hs f). }
  split; [exact Hm|]. unfold var_of. rewrite Ht, Hm. f_equal.
  apply (Hs (fun k => ((f k - mean_of (fun k => f (g k)) c) * (f k - mean_of (fun k => f (g k)) c))%Qc)).
Qed.

Lemma dvals_map (c : counts) : dvals c = map snd c. Proof. reflexivity. Qed.
Lemma dkeys_map (c : counts) : dkeys c = map fst c. Proof. reflexivity. Qed.

Lemma normalise_some {A} (w : A -> Z) l T : l <> [] -> T <> 0%Z ->
  normalise (map w l) T = Some (map (fun a => (iz (w a) / iz T)%Qc) l).
Proof.
  intros Hl HT. unfold normalise. destruct l as [|a l]; [congruence|]. cbn [map].
  destruct (Z.eqb_spec T 0); [congruence|]. rewrite map_map. reflexivity.
Qed.

Lemma coeffs_ok (r : counts) (diag : option (list Qc)) n : 1 <= n ->
  (forall y, In y (map fst r) -> length y = n /\ is_bits y) ->
  (forall d, diag = Some d -> 2 ^ n <= length d) ->
  match diag with
  | None => Ok (map (fun k => sign_of (ones k)) (dkeys r))
  | Some d => do keys <- mapM int2 (dkeys r); mapM (index_e d) keys
  end = Ok (map (fun kv => observable diag (fst kv)) r).
Proof.
  intros Hn Hk Hd. destruct diag as [d|].
  - rewrite dkeys_map. rewrite (mapM_ok int2 (binary_value 0)).
    2:{ intros y Hy. destruct (Hk y Hy) as [Hl Hb]. apply int2_ok; [exact Hb|]. intros ->; cbn in Hl; lia. }
    cbn [bind]. rewrite (mapM_ok (index_e d) (fun i => nth i d 0%Qc)).
    + rewrite !map_map. reflexivity.
    + intros i Hi. apply in_map_iff in Hi. destruct Hi as (y & <- & Hy). apply index_ok.
      apply nth_error_nth'. destruct (Hk y Hy) as [Hl Hb]. pose proof (binary_value_lt y) as Hlt. rewrite Hl in Hlt.
      specialize (Hd d eq_refl). lia.
  - rewrite dkeys_map, map_map. f_equal. apply map_ext. intros [k v]. apply sign_parity.
Qed.

Lemma expectation_value_lemma n c diag clbits sel :
  well_formed n c clbits sel -> nonneg c -> (0 < total c)%Z ->
  (forall d, diag = Some d -> 2 ^ n <= length d) ->
  let f := fun s => observable diag (outcome_sel sel s) in
  expectation_value c diag clbits = Ok (Some (mean_of f c), (var_of f c / ofZ (total c))%Qc).
Proof.
  intros Hw Hnn HT Hd f. destruct (marginal_ok n c clbits sel Hw) as (r & Hr & Ht & Hnd & Hk & Hne & Hs).
  unfold expectation_value. rewrite Hr. cbn [bind]. rewrite (coeffs_ok r diag n) by (try apply Hw; auto).
  cbn [bind]. rewrite dvals_map. fold (total r). assert (HT0 : total c <> 0%Z) by lia. specialize (Hne HT0).
  rewrite normalise_some by (rewrite ?Ht; auto).
  destruct (expval_core (fun kv : pystr * Z => snd kv) (fun kv => observable diag (fst kv)) (total r) r
     (map (fun kv : pystr * Z => (iz (snd kv) / iz (total r))%Qc) r)) as (v & Hv & Hvv & Hv0);
    [reflexivity | rewrite Ht; lia | reflexivity|].
  rewrite Hv. clear Hv.
  destruct (mean_transfer r c (observable diag) (outcome_sel sel) Ht Hs) as [Hm Hvar].
  rewrite mean_wmean in Hm. rewrite Hm. f_equal. f_equal.
  (* the variance: r may hold values derived from non-negative ones *)
  assert (Hrn : forall a : pystr * Z, In a r -> (0 <= snd a)%Z).
  { intros [k v0] Ha. cbn [snd].
    pose proof (Hs (fun y => if eqb y k then 1%Qc else 0%Qc)) as Hsk.
    assert (E : fsum (map (fun kv : pystr * Z => (iz (snd kv) * (if eqb (fst kv) k then 1 else 0))%Qc) r) = iz v0).
    { clear - Hnd Ha. induction r as [|[k' v'] r IH]; [contradiction|]. cbn [map fst snd] in *. rewrite qsum_cons.
      inversion Hnd as [|? ? Hni Hnd']; subst. destruct Ha as [[= -> ->]|Ha].
      - rewrite eqb_refl. rewrite qsum_zero'; [ring|]. intros [k2 v2] Hb. cbn [fst snd].
        destruct (eqb_spec k2 k) as [->|]; [|ring]. exfalso. apply Hni, (in_map fst _ _ Hb).
      - rewrite IH by auto. destruct (eqb_spec k' k) as [->|]; [|ring]. exfalso. apply Hni, (in_map fst _ _ Ha). }
    cbv beta in Hsk. rewrite E in Hsk. assert (Hge : (0 <= iz v0)%Qc).
    { rewrite Hsk. apply qsum_nonneg. intros [k1 v1] Hb. cbn [fst snd].
      apply Qc_mul_nonneg; [apply iz_nonneg, (Hnn k1 v1 Hb)|]. destruct (eqb _ _); unfold Qcle; cbn; lra. }
    destruct (Z.lt_ge_cases v0 0) as [Hlt|]; [|lia]. exfalso. apply iz_lt in Hlt. rewrite iz_0 in Hlt.
    apply Qcle_not_lt in Hge. auto. }
  rewrite (Hvv ltac:(rewrite Ht; exact HT) Hrn). rewrite <- var_wvar, Hvar, Ht. reflexivity.
Qed.

(** Without marginalisation the default observable needs no condition on keys. *)
Lemma expectation_parity_any_lemma c : nonneg c -> (0 < total c)%Z ->
  expectation_value c None None = Ok (Some (mean_of z_parity c), (var_of z_parity c / ofZ (total c))%Qc).
Proof.
  intros Hnn HT. unfold expectation_value. cbn [marginalised bind]. rewrite dvals_map, dkeys_map. fold (total c).
  assert (Hne : c <> []) by (intros ->; cbn in HT; lia).
  rewrite normalise_some by (auto; lia). rewrite map_map.
  rewrite (map_ext (fun kv : pystr * Z => sign_of (ones (fst kv))) (fun kv => z_parity (fst kv))) by (intros; apply sign_parity).
  destruct (expval_core (fun kv : pystr * Z => snd kv) (fun kv => z_parity (fst kv)) (total c) c
     (map (fun kv : pystr * Z => (iz (snd kv) / iz (total c))%Qc) c)) as (v & Hv & Hvv & Hv0);
    [reflexivity | lia | reflexivity|].
  rewrite Hv, <- mean_wmean. rewrite Hvv; [reflexivity | lia |]. intros [k v0] Ha. exact (Hnn k v0 Ha).
Qed.

Lemma expval_sd_nonneg coeffs probs shots e v : expval_with_stddev coeffs probs shots = Ok (e, v) -> (0 <= v)%Qc.
Proof.
  unfold expval_with_stddev. destruct probs as [p|]; [|intros [= <- <-]; apply Qcle_refl].
  intros H. apply bind_inv in H. destruct H as (x & _ & H). apply bind_inv in H. destruct H as (y & _ & H).
  cbv zeta in H. injection H as _ <-. unfold Qc_ltb.
  destruct (Qclt_le_dec _ _) as [Hlt|Hle]; [apply Qclt_le_weak, Hlt | apply Qcle_refl].
Qed.

Lemma expectation_sd_lemma c diag clbits e v : expectation_value c diag clbits = Ok (e, v) -> (0 <= v)%Qc.
Proof.
  unfold expectation_value. intros H. apply bind_inv in H. destruct H as (r & _ & H).
  apply bind_inv in H. destruct H as (cs & _ & H). eapply expval_sd_nonneg; exact H.
Qed.

Lemma expectation_zero_shots_lemma c diag : c <> [] -> total c = 0%Z ->
  (exists e, expectation_value c diag None = Err e) \/ expectation_value c diag None = Ok (None, 0%Qc).
Proof.
  intros Hne HT. unfold expectation_value. cbn [marginalised bind]. rewrite dvals_map. fold (total c). rewrite HT.
  destruct c as [|kv c]; [congruence|]. unfold normalise. cbn [map Z.eqb].
  match goal with |- context [bind ?m _] => destruct m as [l|e] end; cbn [bind]; [right; reflexivity | left; eauto].
Qed.

Lemma mean_bounds_lemma f c lo hi : nonneg c -> (0 < total c)%Z ->
  (forall k v, In (k, v) c -> (lo <= f k)%Qc /\ (f k <= hi)%Qc) ->
  (lo <= mean_of f c)%Qc /\ (mean_of f c <= hi)%Qc.
Proof.
  intros Hnn HT Hf. assert (HP : (0 < iz (total c))%Qc) by (apply iz_pos, HT).
  assert (Hs : forall x, (x * iz (total c))%Qc = fsum (map (fun kv : pystr * Z => iz (snd kv) * x)%Qc c)).
  { intros x. rewrite qsum_mul_r. unfold total. rewrite iz_zsum. ring. }
  split; unfold mean_of.
  - apply Qc_le_div; [exact HP|]. change ofZ with iz. rewrite Hs. apply qsum_le. intros [k v] Ha. cbn [fst snd].
    destruct (Hf k v Ha). pose proof (iz_nonneg v (Hnn k v Ha)). rewrite !(Qcmult_comm (iz v)).
    apply Qcmult_le_compat_r; assumption.
  - apply Qc_div_le; [exact HP|]. change ofZ with iz. rewrite Hs. apply qsum_le. intros [k v] Ha. cbn [fst snd].
    destruct (Hf k v Ha). pose proof (iz_nonneg v (Hnn k v Ha)). rewrite !(Qcmult_comm (iz v)).
    apply Qcmult_le_compat_r; assumption.
Qed.

Lemma var_nonneg_lemma f c : nonneg c -> (0 < total c)%Z -> (0 <= var_of f c)%Qc.
Proof.
  intros Hnn HT. unfold var_of. apply Qc_div_nonneg; [|apply iz_pos, HT]. apply qsum_nonneg. intros [k v] Ha.
  apply Qc_mul_nonneg; [apply iz_nonneg, (Hnn k v Ha) | apply Qc_sq_nonneg].
Qed.
