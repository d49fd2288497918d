(** Property C74: the least squares method of the measurement filters, and
    Results as their input. *)
From Coq Require Import Reals Lra.
From Verif Require Import LinAlg Base CountsModel CountsSpec CountsProofs CtmpSpec BasisSem MeasCalModel MeasCalSpec
  MeasCalCircProofs MeasCalFitProofs MeasCalFilterProofs MeasCalTensorProofs ResultFacts
  MeasLsqModel MeasLsqSpec MeasLsqProofs MeasLsq2Proofs MeasLsq3Proofs MeasLsq4Proofs.
Local Open Scope list_scope.
Local Open Scope R_scope.

(** * MeasurementFilter *)
(** In all of these, the minimiser solves the problem it is given
    ([minimises]); [M] is the calibration matrix with its rows and columns named
    by the labels. *)

(** The corrected counts are physical, for as many shots as the data, and no
    physical counts explain the data better. *)
Theorem C74_filter_best minimize pinv labels cal M rand (d : dict pystr R) :
  NoDup labels -> named labels cal M -> length rand = length labels ->
  NoDup (dkeys d) -> (forall k, In k (dkeys d) -> In k labels) ->
  minimises minimize (mf_fun (length labels) cal (map (value_at d) labels)) (map (value_at d) labels) rand ->
  exists r x, mf_dict_lsq minimize pinv labels cal rand d = Ok r /\
    lists_nonzero r labels x /\ best_physical labels M (value_at d) x.
Proof.
  intros Hnd Hn Hr Hd Hk Hm. destruct (mf_dict_best minimize pinv labels cal M Hnd Hn rand d Hr Hd Hk Hm) as (x & -> & Hb).
  exists (sparse labels x), x. split; [reflexivity|]. split; [apply sparse_lists, Hnd | exact Hb].
Qed.
Print Assumptions C74_filter_best.

(** Counts that the device shows on average for the true counts [x] are
    corrected to [x]. *)
Theorem C74_filter_recovers minimize pinv labels cal M P rand (d : dict pystr R) x :
  NoDup labels -> named labels cal M -> length rand = length labels ->
  NoDup (dkeys d) -> (forall k, In k (dkeys d) -> In k labels) ->
  undoes labels P M -> stochastic labels M ->
  (forall y, In y labels -> 0 <= x y) -> (forall y, In y labels -> value_at d y = shown labels M x y) ->
  minimises minimize (mf_fun (length labels) cal (map (value_at d) labels)) (map (value_at d) labels) rand ->
  exists r, mf_dict_lsq minimize pinv labels cal rand d = Ok r /\ lists_nonzero r labels x.
Proof.
  intros Hnd Hn Hr Hd Hk HP Hs Hx Hv Hm.
  destruct (mf_dict_best minimize pinv labels cal M Hnd Hn rand d Hr Hd Hk Hm) as (z & -> & Hb).
  exists (sparse labels z). split; [reflexivity|].
  rewrite (sparse_ext labels z x (best_exact labels P M Hnd HP (value_at d) z x Hs Hx Hv Hb)). apply sparse_lists, Hnd.
Qed.
Print Assumptions C74_filter_recovers.

(** Shot noise: the error of the corrected counts is at most the error of the
    data times the norm of the inverse of the calibration matrix. *)
Theorem C74_filter_error_bound minimize pinv labels cal M P rand (d : dict pystr R) x :
  NoDup labels -> named labels cal M -> length rand = length labels ->
  NoDup (dkeys d) -> (forall k, In k (dkeys d) -> In k labels) ->
  undoes labels P M -> physical labels (total_value d) x ->
  minimises minimize (mf_fun (length labels) cal (map (value_at d) labels)) (map (value_at d) labels) rand ->
  exists r z, mf_dict_lsq minimize pinv labels cal rand d = Ok r /\ lists_nonzero r labels z /\
    dist2 labels z x <= frob2 labels P * dist2 labels (value_at d) (shown labels M x).
Proof.
  intros Hnd Hn Hr Hd Hk HP Hx Hm.
  destruct (mf_dict_best minimize pinv labels cal M Hnd Hn rand d Hr Hd Hk Hm) as (z & -> & Hb).
  exists (sparse labels z), z. split; [reflexivity|]. split; [apply sparse_lists, Hnd|].
  apply (best_error labels P M Hnd HP (value_at d) z x Hb).
  rewrite (total_value_sum d labels Hnd Hk). exact Hx.
Qed.
Print Assumptions C74_filter_error_bound.

(** The random starting point and the choice of the minimiser do not matter. *)
Theorem C74_start_irrelevant minimize minimize' pinv labels cal M P rand rand' (d : dict pystr R) :
  NoDup labels -> named labels cal M -> length rand = length labels -> length rand' = length labels ->
  NoDup (dkeys d) -> (forall k, In k (dkeys d) -> In k labels) ->
  undoes labels P M ->
  minimises minimize (mf_fun (length labels) cal (map (value_at d) labels)) (map (value_at d) labels) rand ->
  minimises minimize' (mf_fun (length labels) cal (map (value_at d) labels)) (map (value_at d) labels) rand' ->
  mf_dict_lsq minimize pinv labels cal rand d = mf_dict_lsq minimize' pinv labels cal rand' d.
Proof.
  intros Hnd Hn Hr Hr' Hd Hk HP Hm Hm'.
  destruct (mf_dict_best minimize pinv labels cal M Hnd Hn rand d Hr Hd Hk Hm) as (z & -> & Hb).
  destruct (mf_dict_best minimize' pinv labels cal M Hnd Hn rand' d Hr' Hd Hk Hm') as (z' & -> & Hb').
  f_equal. apply sparse_ext, (best_unique labels P M Hnd HP (value_at d)); assumption.
Qed.
Print Assumptions C74_start_irrelevant.

(** The minimiser starts from the random vector as a probability vector.  It meets the
    constraint and the bounds for one shot only. *)
Theorem C74_start n rand cal raw : (forall r, In r rand -> 0 <= r) -> 0 < fsum rand ->
  exists p x0, (forall minimize, mf_lsq minimize n rand cal raw = minimize p x0) /\ length x0 = length rand /\ physical (seq 0 (length x0)) 1 (fun i => nth i x0 0) /\
    (forall i, nth i x0 0 * fsum rand = nth i rand 0) /\ (feasible p x0 <-> fsum raw = 1).
Proof.
  intros Hr Hs. exists (lsq_problem (mf_fun n cal raw) raw (start rand)), (start rand). split; [reflexivity|]. split; [apply start_length|].
  assert (N : forall i, nth i (start rand) 0 * fsum rand = nth i rand 0).
  { intros i. unfold start. destruct (Nat.lt_ge_cases i (length rand)) as [Hi|Hi].
    - rewrite nth_indep with (d' := (fun r => r / fsum rand) 0) by (rewrite map_length; exact Hi). rewrite (map_nth (fun r => r / fsum rand)). field. lra.
    - rewrite !nth_overflow by (rewrite ?map_length; exact Hi). lra. }
  assert (P : forall x, In x (start rand) -> 0 <= x).
  { intros x Hx. apply in_map_iff in Hx. destruct Hx as (r & <- & Hi). apply Rmult_le_pos; [exact (Hr r Hi)|left; apply Rinv_0_lt_compat, Hs]. }
  assert (T : fsum (start rand) = 1).
  { unfold start. unfold Rdiv. change Rmult with (@fmul R _). rewrite fsum_map_mul_r, map_id. cbn. field. lra. }
  assert (B : forall l, (forall x, In x l -> 0 <= x) -> forall x, In x l -> x <= fsum l).
  { assert (G : forall l, (forall x : R, In x l -> 0 <= x) -> 0 <= fsum l).
    { induction l as [|y l IH]; intros H; [rewrite fsum_nil; cbn; lra|]. rewrite fsum_cons. pose proof (IH (fun x Hx => H x (or_intror Hx))). pose proof (H y (or_introl eq_refl)). cbn. lra. }
    induction l as [|y l IH]; intros H x []; rewrite fsum_cons; cbn.
    - subst y. pose proof (G l (fun x Hx => H x (or_intror Hx))). lra.
    - pose proof (IH (fun x Hx => H x (or_intror Hx)) x H0). pose proof (H y (or_introl eq_refl)). lra. }
  split; [|split; [exact N|]].
  - split.
    + intros i Hi. apply in_seq in Hi. apply P, nth_In. lia.
    + rewrite <- T. f_equal. apply nth_ext with (d := 0) (d' := 0); [rewrite map_length, seq_length; reflexivity|]. intros i Hi. rewrite map_length, seq_length in Hi.
      rewrite nth_indep with (d' := (fun i => nth i (start rand) 0) 0%nat) by (rewrite map_length, seq_length; exact Hi). rewrite (map_nth (fun i => nth i (start rand) 0)), seq_nth by exact Hi. reflexivity.
  - unfold feasible. cbn [lsq_problem p_con p_bounds]. rewrite T, map_length. split; [intros (_ & H & _); lra|]. intros ->. split; [reflexivity|]. split; [lra|].
    assert (Q : forall x, In x (start rand) -> 0 <= x <= 1) by (intros x Hx; split; [exact (P x Hx)|rewrite <- T; exact (B _ P x Hx)]). clear - Q. induction (start rand) as [|y l IH]; [apply Forall2_nil|]. cbn [map]. apply Forall2_cons; [exact (Q y (or_introl eq_refl))|]. apply IH. intros x Hx. exact (Q x (or_intror Hx)).
Qed.
Print Assumptions C74_start.
Example C74_start_case : (forall r, In r [1; 3] -> 0 <= r) /\ 0 < fsum [1; 3].
Proof. split; [intros r [<-|[<-|[]]]; lra|unfold fsum; cbn; lra]. Qed.

(** When the pseudo-inverse gives counts that are not negative, both methods
    return the same dictionary. *)
Theorem C74_agrees_with_inverse minimize pinv labels cal M rand (d : dict pystr R) r :
  NoDup labels -> named labels cal M -> length rand = length labels ->
  NoDup (dkeys d) -> (forall k, In k (dkeys d) -> In k labels) ->
  left_inverse (length labels) (pinv cal) cal -> left_inverse (length labels) cal (pinv cal) ->
  stochastic labels M ->
  mf_apply_dict pinv (mf_lsq minimize (length labels) rand) labels cal d PseudoInverse = Ok r ->
  (forall k v, In (k, v) r -> 0 <= v) ->
  minimises minimize (mf_fun (length labels) cal (map (value_at d) labels)) (map (value_at d) labels) rand ->
  mf_dict_lsq minimize pinv labels cal rand d = Ok r.
Proof. exact (agrees_lemma minimize pinv labels cal M rand d r). Qed.
Print Assumptions C74_agrees_with_inverse.

(** A list of counts is corrected block by block, each block from a starting
    point of its own. *)
Theorem C74_list_best minimize labels cal M rands blocks :
  NoDup labels -> named labels cal M -> labels <> [] ->
  Forall (fun b : list R => length b = length labels) blocks ->
  (forall k b, nth_error blocks k = Some b -> length (rands k) = length labels /\
     minimises minimize (mf_fun (length labels) cal b) b (rands k)) ->
  exists outs, mf_list_lsq minimize labels cal rands (concat blocks) = Ok (concat outs) /\
    Forall2 (fun b o => length o = length labels /\
       best_physical labels M (value_at (combine labels b)) (value_at (combine labels o))) blocks outs.
Proof.
  intros Hnd Hn Hne Hb Hm. destruct (mf_list_best minimize (fun m => m) labels cal M Hnd Hn rands blocks Hne Hb Hm) as (outs & H1 & H2).
  exists outs. auto.
Qed.
Print Assumptions C74_list_best.

(** The problem has a solution for all counts, when the matrix can be undone:
    the contract of the minimiser can be met. *)
Theorem C74_solvable labels cal M P rand (d : dict pystr R) :
  NoDup labels -> named labels cal M -> labels <> [] -> length rand = length labels ->
  (forall k, In k (dkeys d) -> In k labels) -> 0 <= total_value d ->
  undoes labels P M ->
  exists minimize,
    minimises minimize (mf_fun (length labels) cal (map (value_at d) labels)) (map (value_at d) labels) rand.
Proof.
  intros Hnd Hn Hne Hr Hk Ht HP.
  destruct (best_exists labels P M Hnd HP (value_at d) Hne) as [x Hx].
  - rewrite (total_value_sum d labels Hnd Hk). exact Ht.
  - exists (fun _ _ => map x labels).
    apply (best_solves labels Hnd _ _ (start rand) ltac:(rewrite start_length; exact Hr) M (value_at d) eq_refl); [|exact Hx].
    intros y. apply mf_fun_dist, Hn.
Qed.
Print Assumptions C74_solvable.

(** * TensoredFilter *)
Theorem C74_tensored_best minimize gs rand (d : dict pystr R) :
  Forall group_ok gs -> (0 < groups_width gs)%nat -> length rand = (2 ^ groups_width gs)%nat ->
  NoDup (dkeys d) -> (forall k, In k (dkeys d) -> length k = groups_width gs /\ is_bits k) ->
  minimises minimize (tf_objective gs (value_at d)) (map (value_at d) (all_bits (groups_width gs))) rand ->
  exists r x, tf_dict_lsq minimize (map cg_labels gs) (map cg_matrix gs) rand d = Ok r /\
    lists_nonzero r (all_bits (groups_width gs)) x /\
    best_physical (all_bits (groups_width gs)) (groups_kron gs) (value_at d) x.
Proof.
  intros Hg Hw Hr Hd Hk Hm. destruct (tf_dict_best minimize gs Hg Hw rand d Hr Hd Hk Hm) as (x & -> & Hb).
  exists (sparse (all_bits (groups_width gs)) x), x.
  split; [reflexivity|]. split; [apply sparse_lists, all_bits_NoDup | exact Hb].
Qed.
Print Assumptions C74_tensored_best.

Theorem C74_tensored_recovers minimize gs undo rand (d : dict pystr R) x :
  Forall group_ok gs -> (0 < groups_width gs)%nat -> length rand = (2 ^ groups_width gs)%nat ->
  NoDup (dkeys d) -> (forall k, In k (dkeys d) -> length k = groups_width gs /\ is_bits k) ->
  (forall g, In g gs -> left_inverse (2 ^ cg_size g) (undo (cg_matrix g)) (cg_matrix g)) ->
  (forall g, In g gs -> columns_sum_one (2 ^ cg_size g) (cg_matrix g)) ->
  (forall y, In y (all_bits (groups_width gs)) -> 0 <= x y) ->
  (forall y, In y (all_bits (groups_width gs)) -> value_at d y = shown (all_bits (groups_width gs)) (groups_kron gs) x y) ->
  minimises minimize (tf_objective gs (value_at d)) (map (value_at d) (all_bits (groups_width gs))) rand ->
  exists r, tf_dict_lsq minimize (map cg_labels gs) (map cg_matrix gs) rand d = Ok r /\
    lists_nonzero r (all_bits (groups_width gs)) x.
Proof.
  intros Hg Hw Hr Hd Hk HP Hc Hx Hv Hm.
  destruct (tf_dict_best minimize gs Hg Hw rand d Hr Hd Hk Hm) as (z & -> & Hb).
  exists (sparse (all_bits (groups_width gs)) z). split; [reflexivity|].
  rewrite (sparse_ext _ z x (best_exact _ _ _ (all_bits_NoDup _) (tf_undoes gs Hg undo HP) (value_at d) z x (tf_stochastic gs Hg Hw Hc) Hx Hv Hb)).
  apply sparse_lists, all_bits_NoDup.
Qed.
Print Assumptions C74_tensored_recovers.

(** The error is multiplied at most by the norms of the inverses of all the
    calibration matrices. *)
Theorem C74_tensored_error_bound minimize gs undo rand (d : dict pystr R) x :
  Forall group_ok gs -> (0 < groups_width gs)%nat -> length rand = (2 ^ groups_width gs)%nat ->
  NoDup (dkeys d) -> (forall k, In k (dkeys d) -> length k = groups_width gs /\ is_bits k) ->
  (forall g, In g gs -> left_inverse (2 ^ cg_size g) (undo (cg_matrix g)) (cg_matrix g)) ->
  physical (all_bits (groups_width gs)) (total_value d) x ->
  minimises minimize (tf_objective gs (value_at d)) (map (value_at d) (all_bits (groups_width gs))) rand ->
  exists r z, tf_dict_lsq minimize (map cg_labels gs) (map cg_matrix gs) rand d = Ok r /\
    lists_nonzero r (all_bits (groups_width gs)) z /\
    dist2 (all_bits (groups_width gs)) z x
    <= fold_right Rmult 1 (map (fun g => frob2 (seq 0 (2 ^ cg_size g)) (undo (cg_matrix g))) gs)
       * dist2 (all_bits (groups_width gs)) (value_at d) (shown (all_bits (groups_width gs)) (groups_kron gs) x).
Proof.
  intros Hg Hw Hr Hd Hk HP Hx Hm.
  destruct (tf_dict_best minimize gs Hg Hw rand d Hr Hd Hk Hm) as (z & -> & Hb).
  exists (sparse (all_bits (groups_width gs)) z), z. split; [reflexivity|]. split; [apply sparse_lists, all_bits_NoDup|].
  rewrite <- (tf_frob gs Hg Hw undo).
  apply (best_error _ _ _ (all_bits_NoDup _) (tf_undoes gs Hg undo HP) (value_at d) z x Hb).
  rewrite (total_value_sum d _ (all_bits_NoDup _)) by (intros k Hin; apply all_bits_In, Hk, Hin). exact Hx.
Qed.
Print Assumptions C74_tensored_error_bound.

(** Both filters agree: TensoredFilter with the matrices of the groups, and
    MeasurementFilter with the matrix of all the qubits, whatever the order of
    its labels. *)
Theorem C74_tensored_matches_filter minimize minimize' pinv gs undo labels cal rand rand' (d : dict pystr R) :
  Forall group_ok gs -> (0 < groups_width gs)%nat -> length rand = (2 ^ groups_width gs)%nat ->
  complete_labels (groups_width gs) labels -> named labels cal (groups_kron gs) -> length rand' = length labels ->
  NoDup (dkeys d) -> (forall k, In k (dkeys d) -> length k = groups_width gs /\ is_bits k) ->
  (forall g, In g gs -> left_inverse (2 ^ cg_size g) (undo (cg_matrix g)) (cg_matrix g)) ->
  minimises minimize (tf_objective gs (value_at d)) (map (value_at d) (all_bits (groups_width gs))) rand ->
  minimises minimize' (mf_fun (length labels) cal (map (value_at d) labels)) (map (value_at d) labels) rand' ->
  exists r r' x, tf_dict_lsq minimize (map cg_labels gs) (map cg_matrix gs) rand d = Ok r /\
    mf_dict_lsq minimize' pinv labels cal rand' d = Ok r' /\
    lists_nonzero r (all_bits (groups_width gs)) x /\ lists_nonzero r' labels x.
Proof. exact (matches_lemma minimize minimize' pinv gs undo labels cal rand rand' d). Qed.
Print Assumptions C74_tensored_matches_filter.

Theorem C74_tensored_solvable gs undo rand (d : dict pystr R) :
  Forall group_ok gs -> (0 < groups_width gs)%nat -> length rand = (2 ^ groups_width gs)%nat ->
  (forall k, In k (dkeys d) -> length k = groups_width gs /\ is_bits k) -> 0 <= total_value d ->
  (forall g, In g gs -> left_inverse (2 ^ cg_size g) (undo (cg_matrix g)) (cg_matrix g)) ->
  exists minimize,
    minimises minimize (tf_objective gs (value_at d)) (map (value_at d) (all_bits (groups_width gs))) rand.
Proof.
  intros Hg Hw Hr Hk Ht HP.
  destruct (best_exists _ _ _ (all_bits_NoDup (groups_width gs)) (tf_undoes gs Hg undo HP) (value_at d)) as [x Hx].
  - intros E. pose proof (all_bits_length (groups_width gs)) as Hl. rewrite E in Hl. cbn in Hl.
    pose proof (Nat.pow_nonzero 2 (groups_width gs)). lia.
  - rewrite (total_value_sum d _ (all_bits_NoDup _)) by (intros k Hin; apply all_bits_In, Hk, Hin). exact Ht.
  - exists (fun _ _ => map x (all_bits (groups_width gs))).
    apply (best_solves _ (all_bits_NoDup _) _ _ (start rand) ltac:(rewrite start_length, all_bits_length; exact Hr) (groups_kron gs) (value_at d) eq_refl); [|exact Hx].
    intros y. apply tf_fun_dist; assumption.
Qed.
Print Assumptions C74_tensored_solvable.

(** * Results *)
(** A Result is corrected when every experiment has counts and each of them is
    corrected; then every experiment gets the corrected counts and keeps all the
    rest. *)
Theorem C74_result_form {X} apply (r r' : list (expt X)) :
  apply_result apply r = Ok r' <->
  length r' = length r /\
  forall i e, nth_error r i = Some e -> exists c c', x_counts e = Some c /\ apply i c = Ok c' /\
    nth_error r' i = Some {| x_counts := Some c'; x_rest := x_rest e |}.
Proof. exact (apply_result_ok apply r r'). Qed.
Print Assumptions C74_result_form.

(** * Example *)
(** One qubit that reads 0 as 1 in a tenth, and 1 as 0 in a fifth, of the
    shots.  All of 100 shots read 0: direct inversion gives negative counts, the
    best physical counts are 100 zeros. *)
Definition ex_M (i j : nat) : R :=
  match i, j with 0%nat, 0%nat => 9/10 | 0%nat, _ => 2/10 | _, 0%nat => 1/10 | _, _ => 8/10 end.
Definition ex_labels : list pystr := [str "0"; str "1"].
Definition ex_named (a b : pystr) : R := ex_M (if eqb a (str "0") then 0 else 1)%nat (if eqb b (str "0") then 0 else 1)%nat.

Example C74_example :
  NoDup ex_labels /\ named ex_labels ex_M ex_named /\ stochastic ex_labels ex_named /\
  minimises (fun _ _ => [100; 0]) (mf_fun 2 ex_M [100; 0]) [100; 0] [1/3; 1/4] /\
  mf_dict_lsq (fun _ _ => [100; 0]) (fun m => m) ex_labels ex_M [1/3; 1/4] [(str "0", 100)] = Ok [(str "0", 100)].
Proof.
  split; [repeat constructor; cbn; intuition discriminate|]. split.
  { intros [|[|i]] [|[|j]] Hi Hj; cbn in Hi, Hj; try lia; reflexivity. }
  split.
  { intros j [<- | [<- | []]]; unfold ex_labels; cbn [map]; rewrite !rs_cons, rs_nil; unfold ex_named;
    change (eqb (str "0") (str "0")) with true; change (eqb (str "1") (str "0")) with false; unfold ex_M; lra. }
  split.
  { split.
    - split; [reflexivity|]. cbn [p_con p_bounds lsq_problem start map]. split.
      + rewrite !rs_cons, rs_nil. ring.
      + rewrite !rs_cons, !rs_nil. repeat constructor; cbn [fst snd]; lra.
    - intros y fx fy (Hl & Hc & Hb) Hx Hy. cbn [p_con p_fun p_bounds lsq_problem start map] in *.
      destruct y as [|a [|b [|c y]]]; try discriminate.
      unfold mf_fun in Hx, Hy. injection Hx as <-. injection Hy as <-.
      unfold sum_sq_diff, dot. cbn [seq map combine fst snd nth]. change (@fmul R _) with Rmult.
      inversion Hb as [|? ? ? ? Ha Hb']; subst. inversion Hb' as [|? ? ? ? Hbb _]; subst. cbn [fst snd] in *.
      repeat rewrite rs_cons in *. rewrite ?rs_nil in *. unfold ex_M.
      assert (E : a = 100 - b) by lra. subst a. nra. }
  unfold mf_dict_lsq, mf_apply_dict. change (forallb (fun k => mem k ex_labels) (dkeys [(str "0", 100)])) with true.
  cbn [andb correct_blocks mapM bind nth mf_lsq ex_labels combine fold_left snd fst].
  destruct (eqb_spec 100 (@f0 R _)) as [E|_]; [exfalso; cbn in E; lra|].
  destruct (eqb_spec 0 (@f0 R _)) as [_|E]; [reflexivity | exfalso; apply E; reflexivity].
Qed.
