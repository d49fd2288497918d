(** Proofs about the measurement filters. *)
From Verif Require Import LinAlg Base CountsModel CountsSpec CountsProofs BasisSem MeasCalModel MeasCalSpec MeasCalCircProofs MeasCalFitProofs.
Open Scope nat_scope.

Section Filters.
Context {F : Type} {HF : Fld F}.
Add Field FF : fth.

(** ** Sparse dictionaries *)
Lemma fold_dset_nonzero (l : list (pystr * F)) acc :
  NoDup (map fst acc ++ map fst l) ->
  fold_left (fun r kv => if eqb (snd kv) f0 then r else dset r (fst kv) (snd kv)) l acc
  = acc ++ filter (fun kv => negb (eqb (snd kv) f0)) l.
Proof.
  revert acc; induction l as [|[k v] l IH]; intros acc Hnd; cbn [fold_left filter fst snd].
  - rewrite app_nil_r; reflexivity.
  - cbn [map fst] in Hnd. destruct (eqb_spec v f0) as [->|Hv]; cbn [negb].
    + rewrite IH; [reflexivity|]. apply NoDup_remove_1 in Hnd. exact Hnd.
    + rewrite dkeys_dset_notIn.
      * rewrite IH.
        -- rewrite <- app_assoc; reflexivity.
        -- rewrite map_app, <- app_assoc. exact Hnd.
      * apply NoDup_remove_2 in Hnd. rewrite in_app_iff in Hnd.
        intros Hi; apply Hnd; left; exact Hi.
Qed.

Lemma sparse_lists dom (x : pystr -> F) : NoDup dom ->
  lists_nonzero (filter (fun kv => negb (eqb (snd kv) f0)) (map (fun y => (y, x y)) dom)) dom x.
Proof.
  intros Hnd. split.
  - apply NoDup_map_filter. rewrite map_fst_pair. exact Hnd.
  - intros y v. rewrite filter_In, in_map_iff. split.
    + intros [(z & [= -> <-] & Hz) Hnz]. cbn in Hnz. apply negb_true_iff, eqb_neq in Hnz. auto.
    + intros (Hy & -> & Hnz). split; [exists y; auto|]. cbn. apply negb_true_iff, eqb_neq. exact Hnz.
Qed.

Lemma sparse_total dom (x : pystr -> F) :
  total_value (filter (fun kv => negb (eqb (snd kv) f0)) (map (fun y => (y, x y)) dom)) = fsum (map x dom).
Proof.
  unfold total_value. induction dom as [|y dom IH]; cbn [map filter]; [reflexivity|]. cbn [snd].
  destruct (eqb_spec (x y) f0) as [E|E]; cbn [negb map snd]; rewrite !fsum_cons, IH; [rewrite E; ring | reflexivity].
Qed.

Lemma value_at_dget (d : list (pystr * F)) y : NoDup (map fst d) ->
  value_at d y = match dget d y with Some v => v | None => f0 end.
Proof.
  unfold value_at. induction d as [|[k v] d IH]; cbn [map fst snd dget]; intros Hnd; [reflexivity|].
  inversion Hnd as [|? ? Hni Hnd']; subst. rewrite fsum_cons, IH by exact Hnd'.
  destruct (eqb_spec k y) as [->|Hn].
  - rewrite eqb_refl. assert (dget d y = None) as ->; [|ring]. apply dget_None. exact Hni.
  - destruct (eqb_spec y k); [congruence|]. ring.
Qed.

Lemma total_value_sum (d : list (pystr * F)) dom : NoDup dom -> (forall k, In k (map fst d) -> In k dom) ->
  fsum (map (value_at d) dom) = total_value d.
Proof.
  intros Hnd Hk. unfold value_at, total_value. rewrite fsum_swap. apply fsum_map_ext.
  intros [k v] Hin. cbn. apply (fsum_pick dom k (fun _ => v)); [exact Hnd|].
  apply Hk. apply in_map_iff. exists (k, v); auto.
Qed.

(** ** MeasurementFilter *)
Section MF.
Variable pinv : (nat -> nat -> F) -> (nat -> nat -> F).
Variable lsq : (nat -> nat -> F) -> list F -> list F.

Lemma nth_map_lt {A B} (f : A -> B) l i d d' : i < length l -> nth i (map f l) d = f (nth i l d').
Proof. intros H. rewrite nth_indep with (d' := f d') by (rewrite map_length; exact H). apply map_nth. Qed.

Lemma dot_spec n m (f : nat -> F) : dot n m (map f (seq 0 n)) = map (fun i => fsum (map (fun k => fmul (m i k) (f k)) (seq 0 n))) (seq 0 n).
Proof.
  unfold dot. apply map_ext_in. intros i _. apply fsum_map_ext. intros k Hk. apply in_seq in Hk.
  rewrite (nth_map_lt _ _ _ _ 0) by (rewrite seq_length; lia). rewrite seq_nth by lia. reflexivity.
Qed.

Lemma combine_labels (labels : list pystr) (x : pystr -> F) :
  combine labels (map (fun i => x (nth i labels [])) (seq 0 (length labels))) = map (fun y => (y, x y)) labels.
Proof.
  rewrite <- (map_map (fun i => nth i labels []) x), map_nth_seq. apply combine_map_self.
Qed.

Lemma mf_dict_closed labels cal (d : dict pystr F) :
  NoDup labels -> NoDup (dkeys d) -> (forall k, In k (dkeys d) -> In k labels) ->
  let out i := fsum (map (fun k => fmul (pinv cal i k) (value_at d (nth k labels []))) (seq 0 (length labels))) in
  mf_apply_dict pinv lsq labels cal d PseudoInverse
  = Ok (filter (fun kv => negb (eqb (snd kv) f0)) (combine labels (map out (seq 0 (length labels))))).
Proof.
  intros Hnd Hndd Hk out. unfold mf_apply_dict.
  replace (forallb (fun k => mem k labels) (dkeys d)) with true
    by (symmetry; apply forallb_forall; intros k Hin; apply mem_In, Hk, Hin).
  cbn [correct_blocks mapM bind nth].
  rewrite fold_dset_nonzero.
  - cbn [app]. do 3 f_equal.
    rewrite (map_ext_in _ (value_at d) labels) by (intros y _; symmetry; apply value_at_dget; exact Hndd).
    rewrite <- (map_nth_seq labels []) at 2. rewrite map_map. rewrite dot_spec. reflexivity.
  - cbn [map app]. rewrite map_fst_combine. exact Hnd.
    unfold dot. rewrite map_length, seq_length. apply Nat.le_refl.
Qed.

Lemma list_sum_named (labels : list pystr) (f : pystr -> F) :
  fsum (map (fun k => f (nth k labels [])) (seq 0 (length labels))) = fsum (map f labels).
Proof. rewrite <- (map_map (fun k => nth k labels []) f), map_nth_seq. reflexivity. Qed.

Lemma inverse_apply n P A (x : nat -> F) i : left_inverse n P A -> i < n ->
  fsum (map (fun k => fmul (P i k) (fsum (map (fun j => fmul (A k j) (x j)) (seq 0 n)))) (seq 0 n)) = x i.
Proof.
  intros H Hi.
  change (mapply (seq 0 n) P (mapply (seq 0 n) A x) i = x i). rewrite mapply_mmul.
  rewrite (mapply_ext _ _ delta x x).
  - apply mapply_delta; [apply seq_NoDup | apply in_seq; lia].
  - intros k Hk. apply in_seq in Hk. unfold mmul. rewrite H by lia. unfold delta. reflexivity.
  - reflexivity.
Qed.

Lemma stochastic_inverse n P A : left_inverse n A P -> columns_sum_one n A -> columns_sum_one n P.
Proof.
  intros H Hc j Hj.
  transitivity (fsum (map (fun k => fmul (fsum (map (fun i => A i k) (seq 0 n))) (P k j)) (seq 0 n))).
  - apply fsum_map_ext. intros k Hk. apply in_seq in Hk. rewrite Hc by lia. ring.
  - rewrite (fsum_map_ext _ (fun k => fsum (map (fun i => fmul (A i k) (P k j)) (seq 0 n))))
      by (intros; symmetry; apply fsum_map_mul_r).
    rewrite fsum_swap.
    rewrite (fsum_map_ext _ (fun i => if eqb j i then f1 else f0)).
    + apply (fsum_pick (seq 0 n) j (fun _ => f1)); [apply seq_NoDup | apply in_seq; lia].
    + intros i Hi. apply in_seq in Hi. rewrite H by lia. rewrite Nat.eqb_sym. reflexivity.
Qed.

Lemma stochastic_sum n P (v : nat -> F) : columns_sum_one n P ->
  fsum (map (fun i => fsum (map (fun k => fmul (P i k) (v k)) (seq 0 n))) (seq 0 n)) = fsum (map v (seq 0 n)).
Proof.
  intros H. rewrite fsum_swap. apply fsum_map_ext. intros k Hk. apply in_seq in Hk.
  rewrite fsum_map_mul_r, H by lia. ring.
Qed.

Lemma C09_mf_lemma labels cal (d : dict pystr F) x :
  NoDup labels -> NoDup (dkeys d) -> (forall k, In k (dkeys d) -> In k labels) ->
  left_inverse (length labels) (pinv cal) cal ->
  (forall i, i < length labels ->
     value_at d (nth i labels []) = fsum (map (fun k => fmul (cal i k) (x (nth k labels []))) (seq 0 (length labels)))) ->
  exists r, mf_apply_dict pinv lsq labels cal d PseudoInverse = Ok r /\ lists_nonzero r labels x.
Proof.
  intros Hnd Hndd Hk Hinv Hd. eexists; split; [apply mf_dict_closed; assumption|].
  rewrite (map_ext_in _ (fun i => x (nth i labels []))).
  - rewrite combine_labels. apply sparse_lists; exact Hnd.
  - intros i Hi. apply in_seq in Hi. rewrite <- (inverse_apply _ _ _ (fun k => x (nth k labels [])) i Hinv) by lia.
    apply fsum_map_ext. intros k Hk'. apply in_seq in Hk'. rewrite Hd by lia. reflexivity.
Qed.

Lemma combine_total (labels : list pystr) (v : nat -> F) :
  total_value (filter (fun kv => negb (eqb (snd kv) f0)) (combine labels (map v (seq 0 (length labels)))))
  = fsum (map v (seq 0 (length labels))).
Proof.
  unfold total_value. generalize 0 as s. induction labels as [|y labels IH]; intros s; cbn [length seq map combine filter]; [reflexivity|].
  cbn [snd]. destruct (eqb_spec (v s) f0) as [E|E]; cbn [negb map snd]; rewrite !fsum_cons, IH; [rewrite E; ring | reflexivity].
Qed.

Lemma C09_mf_total_lemma labels cal (d : dict pystr F) :
  NoDup labels -> NoDup (dkeys d) -> (forall k, In k (dkeys d) -> In k labels) ->
  left_inverse (length labels) cal (pinv cal) -> columns_sum_one (length labels) cal ->
  exists r, mf_apply_dict pinv lsq labels cal d PseudoInverse = Ok r /\ total_value r = total_value d.
Proof.
  intros Hnd Hndd Hk Hinv Hc. eexists; split; [apply mf_dict_closed; assumption|].
  rewrite combine_total, (stochastic_sum _ _ (fun k => value_at d (nth k labels []))) by (eapply stochastic_inverse; eassumption).
  rewrite list_sum_named. apply total_value_sum; assumption.
Qed.

(** ** Rejections and blocks *)
Lemma C10_label_lemma labels cal (d : dict pystr F) meth k :
  In k (dkeys d) -> ~ In k labels -> mf_apply_dict pinv lsq labels cal d meth = Err QiskitError.
Proof.
  intros Hk Hn. unfold mf_apply_dict.
  replace (forallb (fun k => mem k labels) (dkeys d)) with false; [reflexivity|].
  symmetry. apply not_true_iff_false. rewrite forallb_forall. intros H. specialize (H k Hk).
  apply mem_In in H. contradiction.
Qed.

Lemma C10_length_lemma labels cal (data : list F) meth :
  labels <> [] -> length data mod length labels <> 0 ->
  mf_apply_list pinv lsq labels cal data meth = Err QiskitError.
Proof.
  intros Hn Hm. unfold mf_apply_list.
  destruct (Nat.eqb_spec (length labels) 0) as [E|E]; [destruct labels; [congruence | discriminate]|].
  destruct (Nat.eqb_spec (length data) (length labels)) as [E1|E1].
  - exfalso. apply Hm. rewrite E1. apply Nat.mod_same. exact E.
  - destruct (Nat.eqb_spec (length data mod length labels) 0); [contradiction | reflexivity].
Qed.

Lemma C10_method_dict_lemma labels cal (d : dict pystr F) :
  (forall k, In k (dkeys d) -> In k labels) ->
  mf_apply_dict pinv lsq labels cal d OtherMethod = Err QiskitError.
Proof.
  intros Hk. unfold mf_apply_dict.
  replace (forallb (fun k => mem k labels) (dkeys d)) with true
    by (symmetry; apply forallb_forall; intros k Hin; apply mem_In, Hk, Hin). reflexivity.
Qed.

Lemma C10_method_list_lemma labels cal (data : list F) :
  labels <> [] -> data <> [] -> mf_apply_list pinv lsq labels cal data OtherMethod = Err QiskitError.
Proof.
  intros Hn Hd. unfold mf_apply_list.
  destruct (Nat.eqb_spec (length labels) 0) as [E|E]; [destruct labels; [congruence | discriminate]|].
  destruct (Nat.eqb_spec (length data) (length labels)); [reflexivity|].
  destruct (Nat.eqb_spec (length data mod length labels) 0) as [Em|]; [|reflexivity].
  assert (Hq : exists q, length data / length labels = S q).
  { destruct (length data / length labels) eqn:Eq; [|eauto]. exfalso. apply Nat.div_small_iff in Eq; [|exact E].
    rewrite Nat.mod_small in Em by exact Eq. destruct data; [congruence | discriminate]. }
  destruct Hq as (q & ->). reflexivity.
Qed.

Lemma chunks_concat n (blocks : list (list F)) :
  Forall (fun b => length b = n) blocks -> chunks n (length blocks) (concat blocks) = blocks.
Proof.
  induction 1 as [|b blocks Hb Hr IH]; cbn [length chunks concat]; [reflexivity|].
  rewrite firstn_app, firstn_all2 by lia. rewrite skipn_app, skipn_all2 by lia.
  replace (n - length b) with 0 by lia. cbn. rewrite app_nil_r, IH. reflexivity.
Qed.

Lemma concat_length_const n (blocks : list (list F)) :
  Forall (fun b => length b = n) blocks -> length (concat blocks) = length blocks * n.
Proof. induction 1 as [|b bl Hb Hr IH]; cbn; [reflexivity|]. rewrite app_length, IH, Hb. reflexivity. Qed.

Lemma C10_blocks_lemma labels cal meth (blocks : list (list F)) outs :
  labels <> [] -> Forall (fun b => length b = length labels) blocks ->
  Forall2 (fun b o => mf_apply_list pinv lsq labels cal b meth = Ok o) blocks outs ->
  mf_apply_list pinv lsq labels cal (concat blocks) meth = Ok (concat outs).
Proof.
  intros Hn Hb Ho.
  assert (E : (length labels =? 0) = false) by (apply Nat.eqb_neq; destruct labels; [congruence | discriminate]).
  assert (Hcb : correct_blocks pinv lsq (length labels) cal meth blocks = Ok outs).
  { unfold correct_blocks. apply mapM_Ok. clear -Hb Ho E. induction Ho as [|b o bl os Hbo Hr IH]; constructor.
    - inversion Hb; subst. unfold mf_apply_list in Hbo. rewrite E in Hbo.
      replace (length b =? length labels) with true in Hbo by (symmetry; apply Nat.eqb_eq; assumption).
      unfold correct_blocks in Hbo. cbn [mapM] in Hbo. destruct meth; cbn [bind nth] in Hbo; [exact Hbo | exact Hbo | discriminate].
    - apply IH. inversion Hb; assumption. }
  unfold mf_apply_list. rewrite E, (concat_length_const (length labels)) by exact Hb.
  apply Nat.eqb_neq in E.
  destruct (Nat.eqb_spec (length blocks * length labels) (length labels)) as [El|El].
  - assert (length blocks = 1) by nia. destruct blocks as [|b [|]]; try discriminate. cbn [concat].
    rewrite app_nil_r, Hcb. cbn [bind]. pose proof (Forall2_len _ _ _ Ho) as Hl.
    destruct outs as [|o [|]]; try discriminate. cbn. rewrite app_nil_r. reflexivity.
  - rewrite Nat.mod_mul by exact E. cbn [Nat.eqb]. rewrite Nat.div_mul by exact E.
    rewrite chunks_concat by exact Hb. rewrite Hcb. reflexivity.
Qed.

Lemma mapM_single {A B} (f : A -> result B) a : mapM f [a] = do b <- f a; Ok [b].
Proof. cbn. destruct (f a); reflexivity. Qed.

(** A dictionary gives the numbers of the corresponding list. *)
Lemma C10_dict_list_lemma labels cal (d : dict pystr F) meth (out : list F) :
  labels <> [] -> NoDup labels -> NoDup (dkeys d) -> (forall k, In k (dkeys d) -> In k labels) ->
  mf_apply_list pinv lsq labels cal (map (value_at d) labels) meth = Ok out -> length out = length labels ->
  exists r, mf_apply_dict pinv lsq labels cal d meth = Ok r /\ NoDup (map fst r) /\
    forall y v, In (y, v) r <-> v <> f0 /\ exists i, nth_error labels i = Some y /\ nth_error out i = Some v.
Proof.
  intros Hne Hnd Hndd Hk Hl Hlen. unfold mf_apply_list in Hl. rewrite map_length in Hl.
  replace (length labels =? 0) with false in Hl by (symmetry; apply Nat.eqb_neq; destruct labels; [congruence | discriminate]).
  rewrite Nat.eqb_refl in Hl.
  unfold mf_apply_dict.
  replace (forallb (fun k => mem k labels) (dkeys d)) with true
    by (symmetry; apply forallb_forall; intros k Hin; apply mem_In, Hk, Hin).
  rewrite (map_ext_in _ (value_at d) labels) by (intros y _; symmetry; apply value_at_dget; exact Hndd).
  apply bind_Ok in Hl. destruct Hl as (vs & Hvs & [= <-]). rewrite Hvs. cbn [bind].
  eexists; split; [reflexivity|]. rewrite fold_dset_nonzero by (cbn [map app]; rewrite map_fst_combine by lia; exact Hnd).
  cbn [app]. split.
  - apply NoDup_map_filter. rewrite map_fst_combine by lia. exact Hnd.
  - intros y v. rewrite filter_In. cbn [snd]. rewrite negb_true_iff, eqb_neq.
    split; [intros [Hin Hv]; split; [exact Hv|] | intros [Hv (i & H1 & H2)]; split; [|exact Hv]].
    + apply In_nth_error in Hin. destruct Hin as (i & Hi). exists i. revert Hi. generalize (nth 0 vs []) as out. clear.
      revert i; induction labels as [|a l IH]; intros [|i] [|o out]; cbn; try discriminate.
      * intros [= -> ->]; auto.
      * apply IH.
    + revert H1 H2. generalize (nth 0 vs []) as out. clear.
      revert i; induction labels as [|a l IH]; intros [|i] [|o out]; cbn; try discriminate.
      * intros [= ->] [= ->]; left; reflexivity.
      * intros H1 H2; right; eapply IH; eassumption.
Qed.
End MF.
End Filters.
