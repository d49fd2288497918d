(** Proofs about [subset_fitter]. *)
From Verif Require Import LinAlg Base CountsModel CountsSpec CountsProofs BasisSem MeasCalModel MeasCalSpec MeasCalCircProofs.
Open Scope nat_scope.

Section Subset.
Context {F : Type} {HF : Fld F}.
Add Field FF : fth.
Local Open Scope fld_scope.


Lemma bits_sum_prod n : forall (g : nat -> ascii -> F),
  fsum (map (fun a => fprod (map (fun p => g p (cat a p)) (seq 0 n))) (all_bits n))
  = fprod (map (fun p => g p ch0 + g p ch1) (seq 0 n)).
Proof.
  induction n as [|n IH]; intros g; cbn [all_bits seq map].
  - rewrite fsum_cons, fsum_nil, fprod_nil. ring.
  - rewrite map_app, fsum_app, !map_map, fprod_cons, <- seq_shift, !map_map.
    rewrite <- (IH (fun p => g (S p))).
    rewrite (fsum_map_ext _ (fun a => g 0%nat ch0 * fprod (map (fun p => g (S p) (cat a p)) (seq 0 n)))).
    2:{ intros a _. rewrite fprod_cons, map_map. reflexivity. }
    rewrite fsum_map_mul.
    rewrite (fsum_map_ext (fun x => fprod (g 0%nat (cat (ch1 :: x) 0%nat) :: _ )) (fun a => g 0%nat ch1 * fprod (map (fun p => g (S p) (cat a p)) (seq 0 n)))).
    2:{ intros a _. rewrite fprod_cons, map_map. reflexivity. }
    rewrite fsum_map_mul. ring.
Qed.

Lemma fprod_map_mul {A} (f g : A -> F) l : fprod (map (fun a => f a * g a) l) = fprod (map f l) * fprod (map g l).
Proof. induction l as [|a l IH]; cbn [map]; rewrite ?fprod_nil, ?fprod_cons; [ring | rewrite IH; ring]. Qed.

Lemma fprod_map_ext {A} (f g : A -> F) l : (forall a, In a l -> f a = g a) -> fprod (map f l) = fprod (map g l).
Proof.
  induction l as [|a l IH]; cbn [map]; intros H; [reflexivity|].
  rewrite !fprod_cons, H by (left; reflexivity). rewrite IH by (intros; apply H; right; assumption). reflexivity.
Qed.

(** Restriction to the strings that read [y] on positions [ind]. *)
Section Class.
Variables (n : nat) (ind : list nat).
Hypothesis Hnd : NoDup ind.
Hypothesis Hlt : forall p, In p ind -> (p < n)%nat.

Definition reduce (a : pystr) : pystr := map (cat a) ind.

(** Character demanded at position [p]. *)
Definition demand (y : pystr) (p : nat) : option ascii :=
  match list_index ind p with Some m => Some (cat y m) | None => None end.
Definition ok_at (y : pystr) (p : nat) (c : ascii) : F :=
  match demand y p with None => 1 | Some t => if eqb c t then 1 else 0 end.

Lemma indicator a y : length y = length ind ->
  (if eqb (reduce a) y then (1 : F) else 0) = fprod (map (fun p => ok_at y p (cat a p)) (seq 0 n)).
Proof.
  intros Hy. destruct (eqb_spec (reduce a) y) as [E|E].
  - symmetry. transitivity (fprod (map (fun _ : nat => (1 : F)) (seq 0 n))).
    + apply fprod_map_ext. intros p _. unfold ok_at, demand. destruct (list_index ind p) as [m|] eqn:Em; [|reflexivity].
      pose proof (list_index_nth _ _ _ Em) as Hm.
      assert (Hl : (m < length ind)%nat) by (apply nth_error_Some; congruence).
      assert (Hc : cat y m = cat a p).
      { rewrite <- E. unfold cat, reduce. rewrite (nth_indep _ _ (cat a 0%nat)) by (rewrite map_length; exact Hl).
        rewrite map_nth. unfold cat. rewrite (nth_error_nth _ _ _ Hm). reflexivity. }
      rewrite Hc, eqb_refl. reflexivity.
    + generalize (seq 0 n). induction l as [|q l IH]; cbn [map]; rewrite ?fprod_cons, ?fprod_nil; [reflexivity | rewrite IH; ring].
  - symmetry. apply fprod_zero.
    assert (Hm : exists m, (m < length ind)%nat /\ cat (reduce a) m <> cat y m).
    { assert (Hl : length (reduce a) = length ind) by (unfold reduce; apply map_length).
      destruct (forallb (fun m => eqb (cat (reduce a) m) (cat y m)) (seq 0 (length ind))) eqn:Ef.
      - exfalso. apply E. rewrite forallb_forall in Ef. apply (nth_ext _ _ "?"%char "?"%char); [congruence|].
        intros m Hm. apply (eqb_true (cat (reduce a) m) (cat y m)). apply Ef. apply in_seq. lia.
      - clear -Ef. assert (Hex : existsb (fun m => negb (eqb (cat (reduce a) m) (cat y m))) (seq 0 (length ind)) = true).
        { revert Ef. generalize (seq 0 (length ind)). induction l as [|m l IH]; cbn; [discriminate|].
          destruct (eqb (cat (reduce a) m) (cat y m)); cbn; auto. }
        apply existsb_exists in Hex. destruct Hex as (m & Hm & Hne). exists m. apply in_seq in Hm. split; [lia|].
        apply negb_true_iff, eqb_neq in Hne. exact Hne. }
    destruct Hm as (m & Hm & Hne). apply in_map_iff. exists (nth m ind 0%nat). split.
    + unfold ok_at, demand. rewrite (list_index_NoDup ind (nth m ind 0%nat) m) by (auto; apply nth_error_nth'; exact Hm).
      destruct (eqb_spec (cat a (nth m ind 0%nat)) (cat y m)) as [Ec|]; [|reflexivity]. exfalso. apply Hne. rewrite <- Ec.
      unfold cat at 1. unfold reduce. rewrite (nth_indep _ _ (cat a 0%nat)) by (rewrite map_length; exact Hm).
      apply map_nth.
    + apply in_seq. specialize (Hlt (nth m ind 0%nat) (nth_In _ _ Hm)). lia.
Qed.

Lemma class_sum (g : pystr -> F) y : length y = length ind ->
  fsum (map g (filter (fun a => eqb (reduce a) y) (all_bits n)))
  = fsum (map (fun a => g a * fprod (map (fun p => ok_at y p (cat a p)) (seq 0 n))) (all_bits n)).
Proof.
  intros Hy. induction (all_bits n) as [|a l IH]; cbn [filter map]; [reflexivity|].
  rewrite fsum_cons, <- IH. rewrite <- (indicator a y Hy). destruct (eqb (reduce a) y); cbn [map]; rewrite ?fsum_cons; ring.
Qed.

Definition free : list nat := filter (fun p => negb (mem p ind)) (seq 0 n).

Lemma split_positions : Permutation (seq 0 n) (ind ++ free).
Proof.
  apply NoDup_Permutation; [apply seq_NoDup| |].
  - assert (Hf : NoDup free) by (apply NoDup_filter, seq_NoDup).
    revert Hf. unfold free. clear -Hnd. intros Hf.
    assert (Hdis : forall p, In p ind -> ~ In p (filter (fun p => negb (mem p ind)) (seq 0 n))).
    { intros p Hp Hi. apply filter_In in Hi. destruct Hi as [_ Hi]. apply negb_true_iff, mem_not_In in Hi. contradiction. }
    revert Hdis Hf. generalize (filter (fun p => negb (mem p ind)) (seq 0 n)) as l2. clear -Hnd.
    induction Hnd as [|p l1 Hni Hnd1 IH]; intros l2 Hdis Hf; [exact Hf|]. cbn. constructor.
    + rewrite in_app_iff. intros [Hi|Hi]; [contradiction | apply (Hdis p); [left; reflexivity | exact Hi]].
    + refine (IH Hnd1 l2 _ Hf). intros q Hq; apply Hdis; right; exact Hq.
  - intros p. rewrite in_app_iff. unfold free. rewrite filter_In, in_seq, negb_true_iff, mem_not_In.
    split; [intros Hp; destruct (in_dec Nat.eq_dec p ind); [left | right]; auto | intros [Hp|Hp]; [specialize (Hlt p Hp); lia | tauto]].
Qed.

Lemma product_split (t : nat -> F) :
  fprod (map t (seq 0 n)) = fprod (map (fun m => t (nth m ind 0%nat)) (seq 0 (length ind))) * fprod (map t free).
Proof.
  rewrite (fprod_perm _ _ (Permutation_map t split_positions)), map_app, fprod_app.
  rewrite <- (map_map (fun m => nth m ind 0%nat) t), map_nth_seq. reflexivity.
Qed.

Lemma demand_ind y m : (m < length ind)%nat -> demand y (nth m ind 0%nat) = Some (cat y m).
Proof.
  intros Hm. unfold demand. rewrite (list_index_NoDup ind (nth m ind 0%nat) m); auto. apply nth_error_nth'; exact Hm.
Qed.
Lemma demand_free y p : In p free -> demand y p = None.
Proof.
  unfold free. rewrite filter_In, negb_true_iff, mem_not_In. intros [_ Hp]. unfold demand.
  apply list_index_None in Hp. rewrite Hp. reflexivity.
Qed.

Definition bitch (c : ascii) : Prop := c = ch0 \/ c = ch1.

Lemma pick_bit (f : ascii -> F) t : bitch t ->
  f ch0 * (if eqb ch0 t then 1 else 0) + f ch1 * (if eqb ch1 t then 1 else 0) = f t.
Proof.
  intros [-> | ->].
  - change (eqb ch0 ch0) with true. change (eqb ch1 ch0) with false. cbn. ring.
  - change (eqb ch0 ch1) with false. change (eqb ch1 ch1) with true. cbn. ring.
Qed.

(** The double sum over two classes of a product. *)
Lemma class_product (B : nat -> ascii -> ascii -> F) y x :
  length y = length ind -> length x = length ind -> is_bits y -> is_bits x ->
  (forall p c, In p free -> bitch c -> B p ch0 c + B p ch1 c = 1) ->
  fsum (map (fun a => fsum (map (fun b => fprod (map (fun p => B p (cat a p) (cat b p)) (seq 0 n)))
         (filter (fun b => eqb (reduce b) x) (all_bits n)))) (filter (fun a => eqb (reduce a) y) (all_bits n)))
  = fprod (map (fun m => B (nth m ind 0%nat) (cat y m) (cat x m)) (seq 0 (length ind))) * fprod (map (fun _ => 1 + 1) free).
Proof.
  intros Hy Hx Hby Hbx Hcol.
  rewrite class_sum by exact Hy.
  rewrite (fsum_map_ext _ (fun a => fprod (map (fun p => (B p (cat a p) ch0 * ok_at x p ch0 + B p (cat a p) ch1 * ok_at x p ch1) * ok_at y p (cat a p)) (seq 0 n)))).
  2:{ intros a _. rewrite class_sum by exact Hx. rewrite fprod_map_mul. f_equal.
      rewrite <- (bits_sum_prod n (fun p c => B p (cat a p) c * ok_at x p c)).
      apply fsum_map_ext. intros b _. rewrite fprod_map_mul. reflexivity. }
  rewrite (bits_sum_prod n (fun p c => (B p c ch0 * ok_at x p ch0 + B p c ch1 * ok_at x p ch1) * ok_at y p c)).
  rewrite product_split. f_equal; apply fprod_map_ext.
  - intros m Hm. apply in_seq in Hm. unfold ok_at. rewrite !demand_ind by lia.
    assert (H1 : bitch (cat y m)) by (apply Hby; apply nth_In; lia).
    assert (H2 : bitch (cat x m)) by (apply Hbx; apply nth_In; lia).
    rewrite !pick_bit by exact H2.
    apply (pick_bit (fun c => B (nth m ind 0%nat) c (cat x m))). exact H1.
  - intros p Hp. unfold ok_at. rewrite !demand_free by exact Hp.
    pose proof (Hcol p ch0 Hp (or_introl eq_refl)) as E0. pose proof (Hcol p ch1 Hp (or_intror eq_refl)) as E1.
    transitivity ((B p ch0 ch0 + B p ch1 ch0) + (B p ch0 ch1 + B p ch1 ch1)); [ring|]. rewrite E0, E1. reflexivity.
Qed.

Lemma fnat_sum k : fnat k = fsum (map (fun _ => 1) (seq 0 k)).
Proof.
  unfold fnat. f_equal. generalize 0%nat. induction k as [|k IH]; intros s; cbn; [reflexivity|]. rewrite (IH (S s)). reflexivity.
Qed.

Lemma fnat_length {A} (l : list A) : fnat (length l) = fsum (map (fun _ => 1) l).
Proof. unfold fnat. induction l as [|a l IH]; cbn [length repeat map]; [reflexivity|]. rewrite !fsum_cons, IH. reflexivity. Qed.

Lemma class_count y : length y = length ind -> is_bits y ->
  fnat (length (filter (fun a => eqb (reduce a) y) (all_bits n))) = fprod (map (fun _ => 1 + 1) free).
Proof.
  intros Hy Hby. rewrite fnat_length, class_sum by exact Hy.
  rewrite (fsum_map_ext _ (fun a => fprod (map (fun p => ok_at y p (cat a p)) (seq 0 n)))) by (intros; ring).
  rewrite (bits_sum_prod n (ok_at y)), product_split.
  rewrite (fprod_map_ext (fun m => _ + _) (fun _ => 1)).
  - rewrite (fprod_map_ext (fun p => ok_at y p ch0 + ok_at y p ch1) (fun _ => 1 + 1)).
    + replace (fprod (map (fun _ : nat => 1) (seq 0 (length ind)))) with (1 : F); [ring|].
      generalize (seq 0 (length ind)). induction l as [|q l IH]; cbn [map]; rewrite ?fprod_cons, ?fprod_nil; [reflexivity | rewrite <- IH; ring].
    + intros p Hp. unfold ok_at. rewrite demand_free by exact Hp. reflexivity.
  - intros m Hm. apply in_seq in Hm. unfold ok_at. rewrite demand_ind by lia.
    assert (H1 : bitch (cat y m)) by (apply Hby; apply nth_In; lia).
    transitivity (1 * (if eqb ch0 (cat y m) then 1 else 0) + 1 * (if eqb ch1 (cat y m) then 1 else 0)); [ring|]. exact (pick_bit (fun _ => 1) (cat y m) H1).
Qed.

Lemma fprod_const_neq (l : list nat) : (1 + 1 : F) <> 0 -> fprod (map (fun _ => 1 + 1 : F) l) <> 0.
Proof.
  intros H2. induction l as [|q l IH]; cbn [map]; rewrite ?fprod_cons, ?fprod_nil; [apply f1_neq_0|].
  intros E. apply fmul_eq_0 in E. destruct E; contradiction.
Qed.
End Class.

(** Index of a qubit in the list. *)
Lemma sublist_indices_spec ql sub : NoDup ql -> incl sub ql ->
  sublist_indices ql sub = map (fun q => match list_index ql q with Some i => i | None => 0%nat end) sub.
Proof.
  intros Hnd Hincl. unfold sublist_indices. induction sub as [|q sub IH]; [reflexivity|].
  cbn [flat_map map]. rewrite IH by (intros x Hx; apply Hincl; right; exact Hx).
  assert (Hg : forall l k, NoDup l -> map snd (filter (fun qi : nat * nat => eqb (fst qi) q) (combine l (seq k (length l))))
     = match list_index l q with Some i => [(k + i)%nat] | None => [] end).
  { clear. induction l as [|a l IH]; intros k Hnd; [reflexivity|]. inversion Hnd as [|? ? Hni Hnd']; subst.
    cbn [length seq combine filter fst list_index]. destruct (eqb_spec a q) as [->|Hn].
    - cbn [map snd]. rewrite IH by exact Hnd'. apply list_index_None in Hni. rewrite Hni. f_equal; lia.
    - rewrite IH by exact Hnd'. destruct (list_index l q); cbn [option_map]; [f_equal; lia | reflexivity]. }
  rewrite Hg by exact Hnd. destruct (list_index_Some ql q) as (i & -> & _ & _); [apply Hincl; left; reflexivity|]. reflexivity.
Qed.


Lemma index_in_lt ql q : In q ql -> (index_in ql q < length ql)%nat /\ nth (index_in ql q) ql 0%nat = q.
Proof.
  intros H. unfold index_in. destruct (list_index_Some ql q H) as (i & -> & Hn & Hl). split; [exact Hl | apply nth_error_nth; exact Hn].
Qed.

Lemma mapping_labels (red : pystr -> pystr) l : forall labels pre,
  map (fun i => nth i (pre ++ labels) [])
    (map snd (filter (fun li : pystr * nat => eqb (fst li) l) (combine (map red labels) (seq (length pre) (length (map red labels))))))
  = filter (fun a => eqb (red a) l) labels.
Proof.
  induction labels as [|a labels IH]; intros pre; [reflexivity|].
  cbn [map length seq combine filter fst]. specialize (IH (pre ++ [a])).
  rewrite <- app_assoc, app_length, Nat.add_1_r in IH. cbn [app length] in IH.
  destruct (eqb (red a) l); cbn [map snd]; [f_equal|]; [|exact IH | exact IH].
  rewrite app_nth2, Nat.sub_diag by lia. reflexivity.
Qed.

Lemma nth_map_lt0 {A B} (f : A -> B) l i d d' : (i < length l)%nat -> nth i (map f l) d = f (nth i l d').
Proof. intros H. rewrite nth_indep with (d' := f d') by (rewrite map_length; exact H). apply map_nth. Qed.

Lemma cat_qubit s r : (r < length s)%nat -> cat s (length s - 1 - r) = qubit_bit s r.
Proof. intros H. unfold cat, qubit_bit. symmetry. apply nth_rev_eq. exact H. Qed.

Lemma C11_actual_lemma ql sub (A : nat -> ascii -> ascii -> F) (cal : nat -> nat -> F) :
  (1 + 1 : F) <> 0 ->
  NoDup ql -> NoDup sub -> sub <> [] -> incl sub ql ->
  (forall r c, (r < length ql)%nat -> c = "0"%char \/ c = "1"%char -> A r "0"%char c + A r "1"%char c = 1) ->
  named (count_keys (length ql)) cal
    (fun y x => fprod (map (fun r => A r (qubit_bit y r) (qubit_bit x r)) (seq 0 (length ql)))) ->
  exists m, subset_matrix ql (count_keys (length ql)) cal sub = Ok (count_keys (length sub), m) /\
    named (count_keys (length sub)) m
      (fun y x => fprod (map (fun k => A (length ql - 1 - index_in ql (nth k sub 0%nat))%nat (cat y k) (cat x k)) (seq 0 (length sub)))).
Proof.
  intros H2 Hndq Hnds Hne Hincl Hcol Hcal. unfold subset_matrix.
  replace (forallb (fun q => mem q ql) sub) with true
    by (symmetry; apply forallb_forall; intros q Hq; apply mem_In, Hincl, Hq).
  set (n := length ql) in *. set (ind := map (index_in ql) sub).
  assert (Hind : sublist_indices ql sub = ind) by (apply sublist_indices_spec; assumption).
  rewrite Hind.
  assert (Hn : (1 <= n)%nat).
  { destruct sub as [|q sub']; [congruence|]. specialize (Hincl q (or_introl eq_refl)). unfold n. destruct ql; [destruct Hincl | cbn; lia]. }
  assert (Hk : (1 <= length sub)%nat) by (destruct sub; [congruence | cbn; lia]).
  rewrite !count_keys_all_bits in * by assumption.
  assert (Hilt : forall p, In p ind -> (p < n)%nat).
  { intros p Hp. apply in_map_iff in Hp. destruct Hp as (q & <- & Hq). apply index_in_lt, Hincl, Hq. }
  assert (Hind_nd : NoDup ind).
  { apply (NoDup_nth ind 0%nat). intros i j Hi Hj E. unfold ind in *. rewrite map_length in *.
    rewrite !(nth_map_lt0 _ _ _ _ 0%nat) in E by assumption.
    destruct (index_in_lt ql (nth i sub 0%nat)) as [_ E1]; [apply Hincl, nth_In; exact Hi|].
    destruct (index_in_lt ql (nth j sub 0%nat)) as [_ E2]; [apply Hincl, nth_In; exact Hj|].
    apply (NoDup_nth sub 0%nat); auto. rewrite <- E1, <- E2, E. reflexivity. }
  rewrite (mapM_all_Ok _ (reduce ind)).
  2:{ intros a Ha. apply all_bits_In in Ha. destruct Ha as [Hal _]. apply mapM_all_Ok. intros p Hp.
      unfold index_e. rewrite (nth_error_nth' a "?"%char); [reflexivity | rewrite Hal; apply Hilt, Hp]. }
  cbn [bind]. eexists; split; [reflexivity|].
  intros i j Hi Hj. rewrite all_bits_length in Hi, Hj.
  set (y := nth i (all_bits (length sub)) []). set (x := nth j (all_bits (length sub)) []).
  assert (Hyin : In y (all_bits (length sub))) by (apply nth_In; rewrite all_bits_length; exact Hi).
  assert (Hxin : In x (all_bits (length sub))) by (apply nth_In; rewrite all_bits_length; exact Hj).
  apply all_bits_In in Hyin, Hxin. destruct Hyin as [Hyl Hyb], Hxin as [Hxl Hxb].
  rewrite !(nth_map_lt0 _ _ _ [] []) by (rewrite all_bits_length; assumption). fold y x.
  set (cmb := combine (map (reduce ind) (all_bits n)) (seq 0 (length (map (reduce ind) (all_bits n))))).
  set (posy := map snd (filter (fun li : pystr * nat => eqb (fst li) y) cmb)).
  set (posx := map snd (filter (fun li : pystr * nat => eqb (fst li) x) cmb)).
  assert (Hpy : map (fun i => nth i (all_bits n) []) posy = filter (fun a => eqb (reduce ind a) y) (all_bits n)) by (apply (mapping_labels (reduce ind) y (all_bits n) [])).
  assert (Hpx : map (fun i => nth i (all_bits n) []) posx = filter (fun a => eqb (reduce ind a) x) (all_bits n)) by (apply (mapping_labels (reduce ind) x (all_bits n) [])).
  assert (Hposlt : forall z p, In p (map snd (filter (fun li : list ascii * nat => eqb (fst li) z)
             (combine (map (reduce ind) (all_bits n)) (seq 0 (length (map (reduce ind) (all_bits n))))))) -> (p < 2 ^ n)%nat).
  { intros z p Hp. apply in_map_iff in Hp. destruct Hp as ([w q] & <- & Hp). apply filter_In in Hp. destruct Hp as [Hp _].
    apply in_combine_r in Hp. apply in_seq in Hp. rewrite map_length, all_bits_length in Hp. cbn. lia. }
  set (B := fun p => A (n - 1 - p)%nat).
  assert (Hnum : fsum (map (fun a => fsum (map (fun b => cal a b) posx)) posy)
     = fprod (map (fun m => B (nth m ind 0%nat) (cat y m) (cat x m)) (seq 0 (length ind))) * fprod (map (fun _ => 1 + 1) (free n ind))).
  { rewrite <- (class_product n ind Hind_nd Hilt B y x); try (unfold ind; rewrite map_length); auto.
    - rewrite <- Hpy, map_map. apply fsum_map_ext. intros a Ha. rewrite <- Hpx, map_map. apply fsum_map_ext. intros b Hb.
      specialize (Hposlt y a Ha) as Hla. specialize (Hposlt x b Hb) as Hlb.
      rewrite (Hcal a b) by (rewrite all_bits_length; assumption).
      set (u := nth a (all_bits n) []). set (v := nth b (all_bits n) []).
      assert (Hu : length u = n) by (apply (all_bits_In n u), nth_In; rewrite all_bits_length; exact Hla).
      assert (Hv : length v = n) by (apply (all_bits_In n v), nth_In; rewrite all_bits_length; exact Hlb).
      assert (Hrev : Permutation (seq 0 n) (map (fun p => (n - 1 - p)%nat) (seq 0 n))).
      { apply NoDup_Permutation; [apply seq_NoDup| |].
        - apply (NoDup_nth _ 0%nat). intros i1 i2. rewrite map_length, seq_length. intros L1 L2.
          rewrite !(nth_map_lt0 _ _ _ _ 0%nat), !seq_nth by (rewrite ?seq_length; lia). lia.
        - intros r. rewrite in_map_iff. split.
          + intros Hr. apply in_seq in Hr. exists (n - 1 - r)%nat. split; [lia | apply in_seq; lia].
          + intros (p & <- & Hp). apply in_seq in Hp. apply in_seq. lia. }
      rewrite (fprod_perm _ _ (Permutation_map _ Hrev)), map_map. apply fprod_map_ext.
      intros p Hp. apply in_seq in Hp. unfold B.
      rewrite <- !cat_qubit by lia. rewrite Hu, Hv. replace (n - 1 - (n - 1 - p))%nat with p by lia. reflexivity.
    - intros p c Hp Hc. unfold free in Hp. apply filter_In in Hp. destruct Hp as [Hp _]. apply in_seq in Hp.
      unfold B. apply (Hcol (n - 1 - p)%nat c); [lia | exact Hc]. }
  assert (Hden : fnat (length posy) = fprod (map (fun _ => 1 + 1) (free n ind))).
  { rewrite <- (class_count n ind Hind_nd Hilt y) by (auto; unfold ind; rewrite map_length; exact Hyl).
    rewrite <- Hpy, map_length. reflexivity. }
  rewrite Hnum, Hden.
  pose proof (fprod_const_neq (free n ind) H2) as Hnz.
  rewrite (fprod_map_ext (fun k => A (n - 1 - index_in ql (nth k sub 0%nat))%nat (cat y k) (cat x k)) (fun m => B (nth m ind 0%nat) (cat y m) (cat x m))).
  - unfold ind at 2. rewrite map_length. field. exact Hnz.
  - intros k Hk'. apply in_seq in Hk'. unfold B, ind. rewrite (nth_map_lt0 _ _ _ _ 0%nat) by lia. reflexivity.
Qed.

Lemma C11_mirrored_lemma ql sub (A : nat -> ascii -> ascii -> F) (cal : nat -> nat -> F) :
  (1 + 1 : F) <> 0 ->
  NoDup ql -> NoDup sub -> sub <> [] -> incl sub ql ->
  (forall r c, (r < length ql)%nat -> c = "0"%char \/ c = "1"%char -> A r "0"%char c + A r "1"%char c = 1) ->
  named (count_keys (length ql)) cal
    (fun y x => fprod (map (fun r => A r (qubit_bit y r) (qubit_bit x r)) (seq 0 (length ql)))) ->
  (forall r, (r < length sub)%nat ->
     (index_in ql (nth r sub 0%nat) + index_in ql (nth (length sub - 1 - r) sub 0%nat) = length ql - 1)%nat) ->
  exists m, subset_matrix ql (count_keys (length ql)) cal sub = Ok (count_keys (length sub), m) /\
    named (count_keys (length sub)) m
      (fun y x => fprod (map (fun r => A (index_in ql (nth r sub 0%nat)) (qubit_bit y r) (qubit_bit x r)) (seq 0 (length sub)))).
Proof.
  intros H2 Hndq Hnds Hne Hincl Hcol Hcal Hsym.
  destruct (C11_actual_lemma ql sub A cal H2 Hndq Hnds Hne Hincl Hcol Hcal) as (m & Hm & Hn).
  exists m. split; [exact Hm|]. intros i j Hi Hj. rewrite (Hn i j Hi Hj).
  assert (Hk : (1 <= length sub)%nat) by (destruct sub; [congruence | cbn; lia]).
  rewrite count_keys_all_bits in * by exact Hk.
  set (y := nth i (all_bits (length sub)) []). set (x := nth j (all_bits (length sub)) []).
  assert (Hyl : length y = length sub) by (apply (all_bits_In _ y), nth_In; exact Hi).
  assert (Hxl : length x = length sub) by (apply (all_bits_In _ x), nth_In; exact Hj).
  set (k := length sub) in *.
  assert (Hrev : Permutation (seq 0 k) (map (fun p => (k - 1 - p)%nat) (seq 0 k))).
  { apply NoDup_Permutation; [apply seq_NoDup| |].
    - apply (NoDup_nth _ 0%nat). intros i1 i2. rewrite map_length, seq_length. intros L1 L2.
      rewrite !(nth_map_lt0 _ _ _ _ 0%nat), !seq_nth by (rewrite ?seq_length; lia). lia.
    - intros r. rewrite in_map_iff. split.
      + intros Hr. apply in_seq in Hr. exists (k - 1 - r)%nat. split; [lia | apply in_seq; lia].
      + intros (p & <- & Hp). apply in_seq in Hp. apply in_seq. lia. }
  rewrite (fprod_perm _ _ (Permutation_map _ Hrev)), map_map. apply fprod_map_ext.
  intros r Hr. apply in_seq in Hr. specialize (Hsym r ltac:(lia)).
  rewrite <- !cat_qubit by lia. rewrite Hyl, Hxl. f_equal. lia.
Qed.
End Subset.
