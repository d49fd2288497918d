(** What the filters return with the least squares method. *)
From Coq Require Import Reals Lra.
From Verif Require Import LinAlg Base CountsModel CountsSpec CountsProofs CtmpSpec BasisSem MeasCalModel MeasCalSpec
  MeasCalCircProofs MeasCalFitProofs MeasCalFilterProofs MeasCalTensorProofs ResultFacts MeasLsqModel MeasLsqSpec MeasLsqProofs MeasLsq2Proofs.
Local Open Scope list_scope.
Local Open Scope R_scope.

Lemma start_length rand : length (start rand) = length rand.
Proof. apply map_length. Qed.

(** The dictionary built from the entries that are not zero. *)
Definition sparse (ls : list pystr) (x : pystr -> R) : dict pystr R :=
  filter (fun kv => negb (eqb (snd kv) f0)) (map (fun y => (y, x y)) ls).

Lemma sparse_ext ls x y : (forall i, In i ls -> x i = y i) -> sparse ls x = sparse ls y.
Proof. intros H. unfold sparse. f_equal. apply map_ext_in. intros i Hi. rewrite (H i Hi). reflexivity. Qed.

Lemma sparse_fold ls x : NoDup ls -> length x = length ls ->
  fold_left (fun acc lx => if eqb (snd lx) f0 then acc else dset acc (fst lx) (snd lx)) (combine ls x) []
  = sparse ls (fam ls x).
Proof.
  intros Hnd Hl. rewrite fold_dset_nonzero.
  - cbn [app]. unfold sparse. rewrite <- (fam_map ls x Hnd Hl) at 1. rewrite combine_map_self. reflexivity.
  - cbn [map app]. rewrite map_fst_combine by lia. exact Hnd.
Qed.

(** ** MeasurementFilter *)
Section MF.
Variable minimize : problem -> list R -> list R.
Variable pinv : (nat -> nat -> R) -> nat -> nat -> R.
Variables (labels : list pystr) (cal : nat -> nat -> R) (M : pystr -> pystr -> R).
Hypothesis Hnd : NoDup labels.
Hypothesis Hn : named labels cal M.

Lemma mf_block rand v : length rand = length labels ->
  minimises minimize (mf_fun (length labels) cal (map v labels)) (map v labels) rand ->
  length (mf_lsq minimize (length labels) rand cal (map v labels)) = length labels /\
  best_physical labels M v (fam labels (mf_lsq minimize (length labels) rand cal (map v labels))).
Proof.
  intros Hr Hm. unfold mf_lsq. unfold minimises in Hm.
  apply (solves_best labels Hnd (mf_fun (length labels) cal (map v labels)) (map v labels) (start rand)); auto.
  - rewrite start_length. exact Hr.
  - intros y. apply mf_fun_dist, Hn.
Qed.

Lemma mf_dict_best rand d : length rand = length labels ->
  NoDup (dkeys d) -> (forall k, In k (dkeys d) -> In k labels) ->
  minimises minimize (mf_fun (length labels) cal (map (value_at d) labels)) (map (value_at d) labels) rand ->
  exists x, mf_dict_lsq minimize pinv labels cal rand d = Ok (sparse labels x) /\ best_physical labels M (value_at d) x.
Proof.
  intros Hr Hndd Hk Hm. destruct (mf_block rand _ Hr Hm) as [Hl Hb].
  eexists; split; [|exact Hb]. unfold mf_dict_lsq, mf_apply_dict.
  replace (forallb (fun k => mem k labels) (dkeys d)) with true
    by (symmetry; apply forallb_forall; intros k Hin; apply mem_In, Hk, Hin).
  rewrite (map_ext_in _ (value_at d) labels) by (intros y _; symmetry; apply value_at_dget; exact Hndd).
  cbn [correct_blocks mapM bind nth]. rewrite sparse_fold by assumption. reflexivity.
Qed.

Lemma mf_list_best rands blocks : labels <> [] ->
  Forall (fun b : list R => length b = length labels) blocks ->
  (forall k b, nth_error blocks k = Some b -> length (rands k) = length labels /\
     minimises minimize (mf_fun (length labels) cal b) b (rands k)) ->
  exists outs, mf_list_lsq minimize labels cal rands (concat blocks) = Ok (concat outs) /\
    Forall2 (fun b o => length o = length labels /\ best_physical labels M (fam labels b) (fam labels o)) blocks outs.
Proof.
  intros Hne Hb Hm.
  set (outs := map (fun ib => mf_lsq minimize (length labels) (rands (fst ib)) cal (snd ib)) (combine (seq 0 (length blocks)) blocks)).
  exists outs. split.
  - unfold mf_list_lsq. assert (Hn0 : (length labels <> 0)%nat) by (destruct labels; [congruence | discriminate]).
    replace (length labels =? 0)%nat with false by (symmetry; apply Nat.eqb_neq; exact Hn0).
    assert (Hlc : length (concat blocks) = (length blocks * length labels)%nat).
    { clear -Hb. induction Hb as [|b bs H1 H2 IH]; [reflexivity|]. cbn [concat length]. rewrite app_length, H1, IH. lia. }
    assert (Hch : chunks (length labels) (length blocks) (concat blocks) = blocks).
    { clear -Hb. induction Hb as [|b bs H1 H2 IH]; [reflexivity|]. cbn [concat length chunks].
      rewrite <- H1, firstn_app_exact, skipn_app_exact by reflexivity. rewrite H1, IH. reflexivity. }
    rewrite Hlc. destruct (Nat.eqb_spec (length blocks * length labels) (length labels)) as [E|E].
    + destruct blocks as [|b [|b' bs]]; cbn [length] in E; [lia | | nia].
      unfold outs. cbn [length seq combine map concat fst snd]. rewrite !app_nil_r. reflexivity.
    + rewrite Nat.mod_mul, Nat.eqb_refl, Nat.div_mul by exact Hn0. rewrite Hch. reflexivity.
  - assert (G : forall bs s, (forall k b, nth_error bs k = Some b -> length b = length labels /\ length (rands (s + k)%nat) = length labels /\
        minimises minimize (mf_fun (length labels) cal b) b (rands (s + k)%nat)) ->
      Forall2 (fun b o => length o = length labels /\ best_physical labels M (fam labels b) (fam labels o)) bs
        (map (fun ib => mf_lsq minimize (length labels) (rands (fst ib)) cal (snd ib)) (combine (seq s (length bs)) bs))).
    { clear -Hnd Hn. induction bs as [|b bs IH]; intros s H; cbn [length seq combine map fst snd]; constructor.
      - destruct (H 0%nat b eq_refl) as (Hl & Hr & Hmn). rewrite Nat.add_0_r in *.
        rewrite <- (fam_map labels b Hnd Hl) in Hmn. pose proof (mf_block _ _ Hr Hmn) as Hbk.
        rewrite (fam_map labels b Hnd Hl) in Hbk. exact Hbk.
      - apply IH. intros k b' Hk. replace (S s + k)%nat with (s + S k)%nat by lia. apply (H (S k) b' Hk). }
    apply G. intros k b Hk. cbn [Nat.add]. split; [|exact (Hm k b Hk)].
    rewrite Forall_forall in Hb. apply Hb, nth_error_In with k, Hk.
Qed.
End MF.

(** ** TensoredFilter *)
Lemma rs_scale {I} (l : list I) a (f : I -> R) : fsum (map (fun i => a * f i) l) = a * fsum (map f l).
Proof. induction l as [|i l IH]; cbn [map]; [rewrite rs_nil; ring|]. rewrite !rs_cons, IH. ring. Qed.

Section TF.
Variable minimize : problem -> list R -> list R.
Variable gs : list (cal_group R).
Hypothesis Hg : Forall group_ok gs.
Hypothesis Hw : (0 < groups_width gs)%nat.

Lemma tf_dict_best rand d : length rand = (2 ^ groups_width gs)%nat ->
  NoDup (dkeys d) -> (forall k, In k (dkeys d) -> length k = groups_width gs /\ is_bits k) ->
  minimises minimize (tf_objective gs (value_at d)) (map (value_at d) (all_bits (groups_width gs))) rand ->
  exists x, tf_dict_lsq minimize (map cg_labels gs) (map cg_matrix gs) rand d = Ok (sparse (all_bits (groups_width gs)) x) /\
    best_physical (all_bits (groups_width gs)) (groups_kron gs) (value_at d) x.
Proof.
  intros Hr Hnd Hk Hm. unfold tf_dict_lsq. rewrite (groups_sizes gs Hg). fold (groups_width gs).
  set (n := groups_width gs) in *.
  rewrite raw_vector_closed by assumption. cbn [bind]. fold n.
  change (tf_fun (map cg_size gs) (map indices_of (map cg_labels gs)) (map cg_matrix gs) n
           (map (value_at d) (all_bits n))) with (tf_objective gs (value_at d)).
  assert (Hrl : length (start rand) = length (all_bits n)) by (rewrite start_length, all_bits_length; exact Hr).
  assert (Hf : forall y, tf_objective gs (value_at d) (map y (all_bits n)) = Ok (dist2 (all_bits n) (value_at d) (shown (all_bits n) (groups_kron gs) y)))
    by (intros y; apply tf_fun_dist; assumption).
  assert (Hs : exists z, tf_objective gs (value_at d) (start rand) = Ok z).
  { pose proof (fam_map (all_bits n) (start rand) (all_bits_NoDup n) Hrl) as Hfm. rewrite <- Hfm, Hf. eauto. }
  destruct Hs as [z Hs].
  destruct (solves_best (all_bits n) (all_bits_NoDup n) _ _ _ Hrl _ _ eq_refl Hf _ Hm) as [Hl Hb].
  eexists; split; [|exact Hb]. rewrite Hs. cbn [bind]. rewrite count_keys_all_bits by exact Hw.
  rewrite sparse_fold by (auto using all_bits_NoDup). reflexivity.
Qed.

Variable undo : (nat -> nat -> R) -> nat -> nat -> R.

Lemma tf_undoes : (forall g, In g gs -> left_inverse (2 ^ cg_size g) (undo (cg_matrix g)) (cg_matrix g)) ->
  undoes (all_bits (groups_width gs)) (pinv_kron undo gs) (groups_kron gs).
Proof.
  intros Hi x y Hx Hy. exact (kron_inverse undo gs Hg Hi x y Hx Hy).
Qed.

Lemma tf_stochastic : (forall g, In g gs -> columns_sum_one (2 ^ cg_size g) (cg_matrix g)) ->
  stochastic (all_bits (groups_width gs)) (groups_kron gs).
Proof.
  intros Hc z Hz. unfold groups_kron. set (fs := map (fun g : cal_group R => (cg_size g, cg_named g)) gs).
  assert (Hwf : width fs = groups_width gs) by (unfold fs; apply (width_groups gs (fun g => cg_named g))).
  rewrite <- Hwf in *. refine (kron_col_sum fs _ z Hz).
  unfold fs. apply Forall_forall. intros f Hf. apply in_map_iff in Hf. destruct Hf as (g & <- & Hin). cbn [fst snd].
  intros y Hy. rewrite Forall_forall in Hg. destruct (Hg g Hin) as [Hcl _].
  rewrite (fsum_map_ext _ (fun x => byidx (cg_labels g) (cg_matrix g) x y)) by (intros x Hx; apply named_idx; auto).
  unfold byidx. rewrite (sum_by_index (fun m => m) _ _ (fun i => cg_matrix g i (idx (cg_labels g) y)) Hcl).
  apply all_bits_In in Hy. destruct Hy as [Hy1 Hy2].
  apply (Hc g Hin). apply (idx_get _ _ y Hcl Hy1 Hy2).
Qed.

(** The squared norm of the inverse is the product of those of the groups. *)
Lemma kron_frob (fs : list (nat * (pystr -> pystr -> R))) :
  frob2 (all_bits (width fs)) (kron fs) = fold_right Rmult 1 (map (fun f => frob2 (all_bits (fst f)) (snd f)) fs).
Proof.
  induction fs as [|[s A] fs IH].
  - unfold frob2. cbn. rewrite !rs_cons, rs_nil. ring.
  - cbn [width map fold_right fst snd]. fold (width fs). rewrite <- IH. unfold frob2 at 1.
    rewrite Nat.add_comm, all_bits_app_sum.
    transitivity (fsum (map (fun p => fsum (map (fun q => fsum (map (fun p' => fsum (map (fun q' =>
        (A q q' * A q q') * (kron fs p p' * kron fs p p')) (all_bits s))) (all_bits (width fs)))) (all_bits s))) (all_bits (width fs)))).
    + apply rs_ext. intros p Hp. apply rs_ext. intros q Hq. rewrite all_bits_app_sum. apply rs_ext. intros p' Hp'. apply rs_ext. intros q' Hq'.
      apply all_bits_In in Hp, Hq, Hp', Hq'. destruct Hp as [Hp _], Hq as [Hq _], Hp' as [Hp' _], Hq' as [Hq' _].
      cbn [kron]. rewrite !app_length, Hp, Hq, Hp', Hq'. replace (width fs + s - s)%nat with (width fs) by lia.
      assert (E1 : forall u w : pystr, length u = width fs -> firstn (width fs) (u ++ w) = u) by (intros u w Hu; apply firstn_app_exact; symmetry; exact Hu).
      assert (E2 : forall u w : pystr, length u = width fs -> skipn (width fs) (u ++ w) = w) by (intros u w Hu; apply skipn_app_exact; symmetry; exact Hu).
      rewrite !E1, !E2 by assumption.
      change (@fmul R _) with Rmult. ring.
    + unfold frob2.
      transitivity (fsum (map (fun p => frob2 (all_bits s) A * fsum (map (fun p' => kron fs p p' * kron fs p p') (all_bits (width fs)))) (all_bits (width fs)))).
      * apply rs_ext. intros p Hp. rewrite Rmult_comm. unfold frob2. rewrite <- rs_scale.
        apply rs_ext. intros q Hq. rewrite Rmult_comm, <- rs_scale. apply rs_ext. intros p' Hp'.
        rewrite (Rmult_comm (fsum _)), <- rs_scale. apply rs_ext. intros q' Hq'. ring.
      * apply rs_scale.
Qed.

Lemma tf_frob : frob2 (all_bits (groups_width gs)) (pinv_kron undo gs)
  = fold_right Rmult 1 (map (fun g => frob2 (seq 0 (2 ^ cg_size g)) (undo (cg_matrix g))) gs).
Proof.
  unfold pinv_kron. rewrite <- (width_groups gs (fun g => byidx (cg_labels g) (undo (cg_matrix g)))).
  rewrite kron_frob, map_map. cbn [fst snd]. f_equal. apply map_ext_in. intros g Hin.
  rewrite Forall_forall in Hg. destruct (Hg g Hin) as [Hcl _]. unfold frob2, byidx.
  rewrite (sum_by_index (fun m => m) _ _ (fun i => fsum (map (fun j => undo (cg_matrix g) i (idx (cg_labels g) j) * undo (cg_matrix g) i (idx (cg_labels g) j)) (all_bits (cg_size g)))) Hcl).
  apply rs_ext. intros i Hi.
  exact (sum_by_index (fun m => m) _ _ (fun j => undo (cg_matrix g) i j * undo (cg_matrix g) i j) Hcl).
Qed.
End TF.

(** ** The Result form *)
Lemma nth_error_combine {A B} (l : list A) (m : list B) i a b :
  nth_error l i = Some a -> nth_error m i = Some b -> nth_error (combine l m) i = Some (a, b).
Proof.
  revert m i; induction l as [|x l IH]; intros [|y m] [|i] H1 H2; try discriminate; cbn in *; [congruence | apply IH; assumption].
Qed.

Lemma nth_error_same {A} (l m : list A) : length l = length m -> (forall i, nth_error l i = nth_error m i) -> l = m.
Proof.
  revert m; induction l as [|x l IH]; intros [|y m] Hl H; try discriminate; [reflexivity|].
  pose proof (H 0%nat) as H0. cbn in H0. injection H0 as ->. f_equal. apply IH; [cbn in Hl; congruence|].
  intros i. exact (H (S i)).
Qed.

Section Res.
Context {X : Type}.
Variable apply : nat -> dict pystr R -> result (dict pystr R).

Lemma set_counts_spec (done : list (expt X)) e r c :
  set_counts (done ++ e :: r) (length done) c = Ok (done ++ {| x_counts := Some c; x_rest := x_rest e |} :: r).
Proof.
  unfold set_counts. rewrite nth_error_app2 by lia. rewrite Nat.sub_diag. cbn [nth_error].
  rewrite firstn_app_exact by reflexivity. do 2 f_equal. f_equal.
  rewrite skipn_app. rewrite skipn_all2 by lia. replace (length done + 1 - length done)%nat with 1%nat by lia. reflexivity.
Qed.

Lemma result_fold (r done : list (expt X)) cs : length cs = length r ->
  foldM (fun acc ic => set_counts acc (fst ic) (snd ic)) (combine (seq (length done) (length r)) cs) (done ++ r)
  = Ok (done ++ map (fun ec => {| x_counts := Some (snd ec); x_rest := x_rest (fst ec) |}) (combine r cs)).
Proof.
  revert done cs; induction r as [|e r IH]; intros done [|c cs] Hl; try discriminate; [reflexivity|].
  cbn [length seq combine foldM fst snd map]. rewrite set_counts_spec. cbn [bind].
  specialize (IH (done ++ [{| x_counts := Some c; x_rest := x_rest e |}]) cs).
  rewrite app_length in IH. cbn [length] in IH. rewrite Nat.add_1_r, <- !app_assoc in IH. cbn [app] in IH. apply IH. injection Hl as Hl. exact Hl.
Qed.

Lemma apply_result_ok (r r' : list (expt X)) :
  apply_result apply r = Ok r' <->
  length r' = length r /\
  forall i e, nth_error r i = Some e -> exists c c', x_counts e = Some c /\ apply i c = Ok c' /\
    nth_error r' i = Some {| x_counts := Some c'; x_rest := x_rest e |}.
Proof.
  unfold apply_result. split.
  - intros H. inv_bind H. apply mapM_inv in E.
    assert (G : forall l s new, Forall2 (fun i b => (do c <- counts_of r i; do c' <- apply i c; Ok (i, c')) = Ok b) (seq s l) new ->
       exists cs, new = combine (seq s l) cs /\ length cs = l /\
         forall i c', nth_error cs i = Some c' -> exists c, counts_of r (s + i)%nat = Ok c /\ apply (s + i)%nat c = Ok c').
    { clear. induction l as [|l IH]; intros s new H; inversion H; subst.
      - exists []. repeat split; auto. intros [|i] c'; discriminate.
      - rename H2 into Hb. rename H4 into Hr4.
        destruct (counts_of r s) as [c1|] eqn:Ec; [|discriminate]. cbn [bind] in Hb.
        destruct (apply s c1) as [c2|] eqn:Ea; [|discriminate]. injection Hb as <-. destruct (IH _ _ Hr4) as (cs & -> & Hl & Hc).
        exists (c2 :: cs). cbn [seq combine length]. repeat split; [congruence|].
        intros [|i] c' Hi; cbn [nth_error] in Hi.
        + injection Hi as <-. exists c1. rewrite Nat.add_0_r. auto.
        + replace (s + S i)%nat with (S s + i)%nat by lia. apply Hc, Hi. }
    destruct (G _ _ _ E) as (cs & -> & Hl & Hc).
    pose proof (result_fold r [] cs Hl) as Hf. cbn [length app] in Hf. rewrite Hf in H. injection H as <-.
    split; [rewrite map_length, combine_length; lia|].
    intros i e Hi. assert (Hlt : (i < length cs)%nat) by (rewrite Hl; apply nth_error_Some; congruence).
    destruct (nth_error cs i) as [c'|] eqn:Hci; [|apply nth_error_None in Hci; lia].
    destruct (Hc i c' Hci) as (c & H1 & H2). cbn [Nat.add] in *. unfold counts_of in H1. rewrite Hi in H1.
    destruct (x_counts e) as [c0|]; [|discriminate]. injection H1 as ->. exists c, c'. repeat split; auto.
    rewrite nth_error_map. replace (nth_error (combine r cs) i) with (Some (e, c')); [reflexivity|].
    symmetry. apply nth_error_combine; assumption.
  - intros [Hl H].
    assert (G : forall l s, (s + l <= length r)%nat -> exists cs, length cs = l /\
       mapM (fun i => do c <- counts_of r i; do c' <- apply i c; Ok (i, c')) (seq s l) = Ok (combine (seq s l) cs) /\
       forall i e, nth_error r (s + i) = Some e -> (i < l)%nat -> exists c, nth_error cs i = Some c /\ nth_error r' (s + i) = Some {| x_counts := Some c; x_rest := x_rest e |}).
    { induction l as [|l IH]; intros s Hs.
      - exists []. repeat split; auto. intros; lia.
      - destruct (nth_error r s) as [e|] eqn:He; [|apply nth_error_None in He; lia].
        destruct (H s e He) as (c & c' & H1 & H2 & H3). destruct (IH (S s)) as (cs & Hcl & Hm & Hc); [lia|].
        exists (c' :: cs). cbn [length seq mapM combine]. repeat split; [congruence| |].
        + unfold counts_of at 1. rewrite He, H1. cbn [bind]. rewrite H2. cbn [bind]. rewrite Hm. reflexivity.
        + intros [|i] e' He' Hlt; cbn [nth_error].
          * rewrite Nat.add_0_r in *. exists c'. split; [reflexivity|]. congruence.
          * replace (s + S i)%nat with (S s + i)%nat in * by lia. apply Hc; [exact He' | lia]. }
    destruct (G (length r) 0%nat) as (cs & Hcl & Hm & Hc); [lia|]. rewrite Hm. cbn [bind].
    pose proof (result_fold r [] cs Hcl) as Hf. cbn [length app] in Hf. rewrite Hf. f_equal.
    apply nth_error_same; [rewrite map_length, combine_length; lia|].
    intros i. rewrite nth_error_map. destruct (nth_error r i) as [e|] eqn:He.
    + assert (Hlt : (i < length r)%nat) by (apply nth_error_Some; congruence).
      destruct (Hc i e He Hlt) as (c & H1 & H2). cbn [Nat.add] in H2. rewrite H2.
      replace (nth_error (combine r cs) i) with (Some (e, c)); [reflexivity|].
      symmetry. apply nth_error_combine; assumption.
    + apply nth_error_None in He. replace (nth_error r' i) with (@None (expt X)) by (symmetry; apply nth_error_None; lia).
      replace (nth_error (combine r cs) i) with (@None (expt X * dict pystr R)); [reflexivity|].
      symmetry. apply nth_error_None. rewrite combine_length. lia.
Qed.
End Res.

(** ** Comparing methods and filters *)
Lemma agrees_lemma minimize pinv labels cal M rand (d : dict pystr R) r :
  NoDup labels -> named labels cal M -> length rand = length labels ->
  NoDup (dkeys d) -> (forall k, In k (dkeys d) -> In k labels) ->
  left_inverse (length labels) (pinv cal) cal -> left_inverse (length labels) cal (pinv cal) ->
  stochastic labels M ->
  mf_apply_dict pinv (mf_lsq minimize (length labels) rand) labels cal d PseudoInverse = Ok r ->
  (forall k v, In (k, v) r -> 0 <= v) ->
  minimises minimize (mf_fun (length labels) cal (map (value_at d) labels)) (map (value_at d) labels) rand ->
  mf_dict_lsq minimize pinv labels cal rand d = Ok r.
Proof.
  intros Hnd Hn Hr Hd Hk HL HR Hs Hp Hpos Hm.
  pose proof (eq_trans (eq_sym Hp) (mf_dict_closed pinv (mf_lsq minimize (length labels) rand) labels cal d Hnd Hd Hk)) as Er.
  set (n := length labels) in *.
  set (out := fun i => fsum (map (fun k => fmul (pinv cal i k) (value_at d (nth k labels []))) (seq 0 n))) in *.
  set (x := fam labels (map out (seq 0 n))).
  assert (Hl : length (map out (seq 0 n)) = length labels) by (rewrite map_length, seq_length; reflexivity).
  assert (Hx : map x labels = map out (seq 0 n)) by (apply fam_map; assumption).
  assert (Hxi : forall i, (i < n)%nat -> x (nth i labels []) = out i).
  { intros i Hi. transitivity (nth i (map x labels) 0).
    - symmetry. rewrite (nth_map_lt x labels i 0 []) by exact Hi. reflexivity.
    - rewrite Hx. rewrite (nth_map_lt out (seq 0 n) i 0 0%nat) by (rewrite seq_length; exact Hi). rewrite seq_nth by exact Hi. reflexivity. }
  assert (Hform : filter (fun kv : pystr * R => negb (eqb (snd kv) f0)) (combine labels (map out (seq 0 n))) = sparse labels x).
  { unfold sparse. rewrite <- Hx, combine_map_self. reflexivity. }
  rewrite Hform in Er. injection Er as Er. subst r.
  set (Pn := fun a b : pystr => pinv cal (idx labels a) (idx labels b)).
  assert (Hidx : forall i, (i < n)%nat -> idx labels (nth i labels []) = i).
  { intros i Hi. unfold idx. rewrite (list_index_NoDup labels (nth i labels []) i Hnd); [reflexivity|]. apply nth_error_nth'; exact Hi. }
  assert (HP : undoes labels Pn M).
  { intros a b Ha Hb. apply (In_nth labels a []) in Ha. apply (In_nth labels b []) in Hb.
    destruct Ha as (i & Hi & <-), Hb as (j & Hj & <-).
    transitivity (fsum (map (fun k => fmul (pinv cal i k) (cal k j)) (seq 0 n))).
    - rewrite <- (list_sum_named labels (fun k => Pn (nth i labels []) k * M k (nth j labels []))). apply rs_ext. intros k Hin. apply in_seq in Hin.
      unfold Pn. rewrite !Hidx by (unfold n; lia). rewrite <- (Hn k j) by (unfold n in *; lia). reflexivity.
    - rewrite (HL i j Hi Hj). destruct (Nat.eqb_spec i j) as [-> | Hne].
      + rewrite eqb_refl. reflexivity.
      + destruct (eqb_spec (nth i labels []) (nth j labels [])) as [E|_]; [|reflexivity].
        exfalso. apply Hne. rewrite <- (Hidx i Hi), <- (Hidx j Hj), E. reflexivity. }
  destruct (mf_dict_best minimize pinv labels cal M Hnd Hn rand d Hr Hd Hk Hm) as (z & -> & Hb).
  f_equal. apply sparse_ext. apply (best_exact labels Pn M Hnd HP (value_at d) z x Hs); [| |exact Hb].
  - intros i Hi. destruct (Req_dec (x i) 0) as [-> | Hne]; [lra|].
    apply (Hpos i (x i)). apply (proj2 (sparse_lists labels x Hnd)). auto.
  - intros y Hy. apply (In_nth labels y []) in Hy. destruct Hy as (i & Hi & <-). fold n in Hi.
    transitivity (fsum (map (fun k => fmul (cal i k) (out k)) (seq 0 n))).
    + symmetry. apply (inverse_apply (fun m => m) (fun _ v => v) n cal (pinv cal) (fun k => value_at d (nth k labels [])) i HR Hi).
    + unfold shown. rewrite <- (list_sum_named labels (fun k => M (nth i labels []) k * x k)). apply rs_ext.
      intros k Hin. apply in_seq in Hin. rewrite Hxi by lia. rewrite <- (Hn i k) by (unfold n in *; lia). reflexivity.
Qed.

Lemma sum_perm (ls ms : list pystr) (f : pystr -> R) : NoDup ls -> NoDup ms -> (forall y, In y ls <-> In y ms) ->
  fsum (map f ls) = fsum (map f ms).
Proof. intros H1 H2 H. apply fsum_perm, Permutation_map, NoDup_Permutation; assumption. Qed.

Lemma best_perm (ls ms : list pystr) A v x : NoDup ls -> NoDup ms -> (forall y, In y ls <-> In y ms) ->
  best_physical ls A v x -> best_physical ms A v x.
Proof.
  intros H1 H2 H [[Hp Hs] Hb].
  assert (E : forall f, fsum (map f ls) = fsum (map f ms)) by (intros f; apply sum_perm; assumption).
  assert (Hd : forall y, dist2 ls v (shown ls A y) = dist2 ms v (shown ms A y)).
  { intros y. unfold dist2. rewrite E. apply rs_ext. intros i Hi. unfold shown. rewrite !E. reflexivity. }
  split.
  - split; [intros i Hi; apply Hp, H, Hi | rewrite <- !E; exact Hs].
  - intros y [Hy1 Hy2]. rewrite <- !Hd. apply Hb. split; [intros i Hi; apply Hy1, H, Hi | rewrite !E; exact Hy2].
Qed.

Lemma matches_lemma minimize minimize' pinv gs undo labels cal rand rand' (d : dict pystr R) :
  Forall group_ok gs -> (0 < groups_width gs)%nat -> length rand = (2 ^ groups_width gs)%nat ->
  complete_labels (groups_width gs) labels -> named labels cal (groups_kron gs) -> length rand' = length labels ->
  NoDup (dkeys d) -> (forall k, In k (dkeys d) -> length k = groups_width gs /\ is_bits k) ->
  (forall g, In g gs -> left_inverse (2 ^ cg_size g) (undo (cg_matrix g)) (cg_matrix g)) ->
  minimises minimize (tf_objective gs (value_at d)) (map (value_at d) (all_bits (groups_width gs))) rand ->
  minimises minimize' (mf_fun (length labels) cal (map (value_at d) labels)) (map (value_at d) labels) rand' ->
  exists r r' x, tf_dict_lsq minimize (map cg_labels gs) (map cg_matrix gs) rand d = Ok r /\
    mf_dict_lsq minimize' pinv labels cal rand' d = Ok r' /\
    lists_nonzero r (all_bits (groups_width gs)) x /\ lists_nonzero r' labels x.
Proof.
  intros Hg Hw Hr [Hnd Hin] Hn Hr' Hd Hk HP Hm Hm'.
  destruct (tf_dict_best minimize gs Hg Hw rand d Hr Hd Hk Hm) as (x & -> & Hb).
  destruct (mf_dict_best minimize' pinv labels cal _ Hnd Hn rand' d Hr' Hd (fun k H => proj2 (Hin k) (Hk k H)) Hm') as (z & -> & Hb').
  assert (Hsame : forall y, In y labels <-> In y (all_bits (groups_width gs))).
  { intros y. rewrite Hin, all_bits_In. reflexivity. }
  apply (best_perm labels (all_bits (groups_width gs)) _ _ _ Hnd (all_bits_NoDup _) Hsame) in Hb'.
  pose proof (best_unique _ _ _ (all_bits_NoDup _) (tf_undoes gs Hg undo HP) _ _ _ Hb Hb') as Hu.
  exists (sparse (all_bits (groups_width gs)) x), (sparse labels z), x.
  split; [reflexivity|]. split; [reflexivity|]. split; [apply sparse_lists, all_bits_NoDup|].
  rewrite (sparse_ext labels z x) by (intros i Hi; symmetry; apply Hu, Hsame, Hi). apply sparse_lists, Hnd.
Qed.
