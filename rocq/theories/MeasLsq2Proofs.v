(** The filters' least squares problems are the problem of the best physical
    counts. *)
From Coq Require Import Reals Lra.
From Verif Require Import LinAlg Base CountsModel CountsSpec CountsProofs CtmpSpec BasisSem MeasCalModel MeasCalSpec
  MeasCalCircProofs MeasCalFitProofs MeasCalFilterProofs MeasCalTensorProofs MeasLsqModel MeasLsqSpec MeasLsqProofs.
Local Open Scope list_scope.
Local Open Scope R_scope.

(** ** Lists of numbers as families over labels *)
Definition fam (ls : list pystr) (x : list R) (y : pystr) : R := value_at (combine ls x) y.

Lemma fam_cons a ls v x y : fam (a :: ls) (v :: x) y = (if eqb a y then v else 0) + fam ls x y.
Proof. unfold fam, value_at. cbn [combine map fst snd]. rewrite rs_cons. reflexivity. Qed.

Lemma fam_out ls x y : ~ In y ls -> fam ls x y = 0.
Proof.
  revert x; induction ls as [|a ls IH]; intros [|v x] H; try reflexivity. rewrite fam_cons, IH by (intros Hi; apply H; right; exact Hi).
  destruct (eqb_spec a y) as [-> | Hn]; [exfalso; apply H; left; reflexivity | ring].
Qed.

Lemma fam_map ls x : NoDup ls -> length x = length ls -> map (fam ls x) ls = x.
Proof.
  intros Hnd. revert x; induction Hnd as [|a ls Hni Hnd IH]; intros [|v x] Hl; try discriminate; [reflexivity|].
  cbn [map]. f_equal.
  - rewrite fam_cons, eqb_refl, fam_out by exact Hni. ring.
  - injection Hl as Hl. rewrite <- (IH x Hl) at 2. apply map_ext_in. intros y Hy. rewrite fam_cons.
    destruct (eqb_spec a y) as [-> | Hn]; [contradiction | ring].
Qed.

Lemma map_eq_in {A B} (f g : A -> B) l : map f l = map g l -> forall a, In a l -> f a = g a.
Proof.
  induction l as [|b l IH]; cbn [map]; intros H a Ha; [contradiction|]. injection H as H1 H2.
  destruct Ha as [<- | Ha]; auto.
Qed.

(** ** Feasible points are the physical counts *)
Section Problem.
Variable ls : list pystr.
Hypothesis Hnd : NoDup ls.
Variables (f : list R -> result R) (raw x0 : list R).
Hypothesis H0 : length x0 = length ls.

Lemma bounds_const (x : list R) b : length x = length x0 ->
  Forall2 (fun xi (b : R * R) => fst b <= xi <= snd b) x (map (fun _ => b) x0) <-> (forall xi, In xi x -> fst b <= xi <= snd b).
Proof.
  clear. revert x0; induction x as [|a x IH]; intros [|c x0] Hl; try discriminate; cbn [map].
  - split; [intros _ ? [] | constructor].
  - injection Hl as Hl. split.
    + intros H xi Hi. inversion H; subst. destruct Hi as [<- | Hi]; [assumption|].
      apply (proj1 (IH x0 Hl)); assumption.
    + intros H. constructor; [apply H; left; reflexivity|]. apply (IH x0 Hl). intros; apply H; right; assumption.
Qed.

Lemma feasible_physical x : feasible (lsq_problem f raw x0) x ->
  length x = length ls /\ physical ls (fsum raw) (fam ls x).
Proof.
  intros (Hl & Hc & Hb). cbn [p_bounds p_con lsq_problem] in *. rewrite map_length in Hl.
  assert (Hl' : length x = length ls) by congruence.
  split; [exact Hl'|]. rewrite (bounds_const x _ Hl) in Hb. cbn [fst snd] in Hb.
  split.
  - intros i Hi. apply Hb. rewrite <- (fam_map ls x Hnd Hl') at 2. apply in_map, Hi.
  - rewrite fam_map by assumption. lra.
Qed.

Lemma physical_feasible y : physical ls (fsum raw) y -> feasible (lsq_problem f raw x0) (map y ls).
Proof.
  intros [Hp Hs]. unfold feasible. cbn [p_bounds p_con lsq_problem]. rewrite !map_length. split; [congruence|]. split; [lra|].
  apply bounds_const; [rewrite map_length; congruence|]. cbn [fst snd]. intros xi Hi. apply in_map_iff in Hi.
  destruct Hi as (i & <- & Hi). split; [apply Hp, Hi|]. rewrite <- Hs. apply (rs_term ls y i Hp Hi).
Qed.

Variables (M : pystr -> pystr -> R) (v : pystr -> R).
Hypothesis Hraw : raw = map v ls.
Hypothesis Hf : forall y, f (map y ls) = Ok (dist2 ls v (shown ls M y)).

Lemma solves_best x : solves (lsq_problem f raw x0) x ->
  length x = length ls /\ best_physical ls M v (fam ls x).
Proof.
  intros [Hx Hbest]. destruct (feasible_physical x Hx) as [Hl Hp]. split; [exact Hl|].
  rewrite Hraw in Hp. split; [exact Hp|].
  intros y Hy. rewrite <- Hraw in Hy. refine (Hbest (map y ls) _ _ (physical_feasible y Hy) _ _); cbn [p_fun lsq_problem].
  - rewrite <- (fam_map ls x Hnd Hl) at 1. apply Hf.
  - apply Hf.
Qed.

Lemma best_solves y : best_physical ls M v y -> solves (lsq_problem f raw x0) (map y ls).
Proof.
  intros [Hp Hb]. rewrite <- Hraw in *. split; [apply physical_feasible, Hp|].
  intros x fx fy Hx H1 H2. destruct (feasible_physical x Hx) as [Hl Hpx]. cbn [p_fun lsq_problem] in *.
  rewrite Hf in H1. injection H1 as <-. rewrite <- (fam_map ls x Hnd Hl), Hf in H2. injection H2 as <-.
  apply Hb, Hpx.
Qed.
End Problem.

(** ** The objectives *)
Lemma sum_sq_dist ls (v w : pystr -> R) : sum_sq_diff (map v ls) (map w ls) = dist2 ls v w.
Proof.
  unfold sum_sq_diff, dist2. f_equal. induction ls as [|a ls IH]; cbn [map combine]; [reflexivity|]. f_equal; exact IH.
Qed.

Lemma dot_named ls cal M (y : pystr -> R) : named ls cal M ->
  dot (length ls) cal (map y ls) = map (shown ls M y) ls.
Proof.
  intros Hn.
  assert (E : forall g : pystr -> R, map g ls = map (fun i => g (nth i ls [])) (seq 0 (length ls))).
  { intros g. rewrite <- (map_map (fun i => nth i ls []) g), map_nth_seq. reflexivity. }
  rewrite (E y), (E (shown ls M y)), (dot_spec (fun m => m)). apply map_ext_in. intros i Hi. apply in_seq in Hi.
  unfold shown. rewrite <- (list_sum_named ls (fun j => M (nth i ls []) j * y j)). apply fsum_map_ext.
  intros k Hk. apply in_seq in Hk. rewrite (Hn i k) by lia. reflexivity.
Qed.

Lemma mf_fun_dist ls cal M v y : named ls cal M ->
  mf_fun (length ls) cal (map v ls) (map y ls) = Ok (dist2 ls v (shown ls M y)).
Proof. intros Hn. unfold mf_fun. rewrite (dot_named _ _ M) by exact Hn. rewrite sum_sq_dist. reflexivity. Qed.

Lemma groups_combine_id (gs : list (cal_group R)) :
  combine (map cg_size gs) (map (fun lm => byidx (fst lm) (snd lm)) (combine (map cg_labels gs) (map cg_matrix gs)))
  = map (fun g => (cg_size g, byidx (cg_labels g) (cg_matrix g))) gs.
Proof. induction gs as [|g gs IH]; cbn; [reflexivity | f_equal; exact IH]. Qed.

Lemma groups_complete (gs : list (cal_group R)) : Forall group_ok gs ->
  Forall2 complete_labels (map cg_size gs) (map cg_labels gs).
Proof. induction 1 as [|g gs [Hc _] Hr IH]; cbn; constructor; assumption. Qed.

Lemma groups_sizes (gs : list (cal_group R)) : Forall group_ok gs ->
  map (fun l : list pystr => Nat.log2 (length l)) (map cg_labels gs) = map cg_size gs.
Proof.
  induction 1 as [|g gs [Hc _] Hr IH]; cbn; [reflexivity|]. f_equal; [|exact IH].
  rewrite (complete_labels_length _ _ Hc). apply Nat.log2_pow2. lia.
Qed.

Lemma tf_fun_dist gs v y : Forall group_ok gs -> (0 < groups_width gs)%nat ->
  tf_fun (map cg_size gs) (map indices_of (map cg_labels gs)) (map cg_matrix gs) (groups_width gs)
         (map v (all_bits (groups_width gs))) (map y (all_bits (groups_width gs)))
  = Ok (dist2 (all_bits (groups_width gs)) v (shown (all_bits (groups_width gs)) (groups_kron gs) y)).
Proof.
  intros Hg Hw. pose proof (groups_complete gs Hg) as Hcl. set (n := groups_width gs) in *.
  unfold tf_fun. rewrite count_keys_all_bits by exact Hw.
  rewrite (mapM_all_Ok _ (shown (all_bits n) (groups_kron gs) y)).
  - cbn [bind]. rewrite sum_sq_dist. reflexivity.
  - intros s1 Hs1. pose proof Hs1 as Hin1. apply all_bits_In in Hs1. destruct Hs1 as [Hl1 Hb1].
    rewrite combine_map_self.
    rewrite (foldM_skip_zero _ (fun z => groups_kron gs s1 z)
               f0 (fun z => group_product (map cg_size gs) (map indices_of (map cg_labels gs)) (map cg_matrix gs) s1 z n f1)).
    + f_equal. rewrite map_map. cbn [fst snd]. unfold shown. change (@f0 R _) with 0. rewrite Rplus_0_l. reflexivity.
    + intros z x Hin. apply in_map_iff in Hin. destruct Hin as (z' & [= -> <-] & Hz). pose proof Hz as Hinz.
      apply all_bits_In in Hz. destruct Hz as [Hlz Hbz].
      rewrite (group_product_closed _ _ Hcl) by (rewrite ?map_length; auto; unfold n, groups_width in *; lia).
      rewrite groups_combine_id. rewrite !firstn_all2 by lia. f_equal.
      change (1 * kron (map (fun g => (cg_size g, byidx (cg_labels g) (cg_matrix g))) gs) s1 z = groups_kron gs s1 z).
      rewrite Rmult_1_l. unfold groups_kron. rewrite Forall_forall in Hg. apply (kron_ext (fun m => m)).
      * apply Forall2_map_both. intros g Hgi. cbn [fst snd]. split; [reflexivity|]. intros a b Ha Hb.
        symmetry. apply named_idx; auto.
      * rewrite (width_groups gs (fun g => byidx (cg_labels g) (cg_matrix g))). exact Hin1.
      * rewrite (width_groups gs (fun g => byidx (cg_labels g) (cg_matrix g))). exact Hinz.
Qed.
