(** Proofs about the tensored filter. *)
From Verif Require Import LinAlg Base CountsModel CountsSpec CountsProofs BasisSem MeasCalModel MeasCalSpec MeasCalCircProofs MeasCalFitProofs MeasCalFilterProofs.
Open Scope nat_scope.

Section Tensor.
Context {F : Type} {HF : Fld F}.
Add Field FF : fth.
Local Open Scope fld_scope.

(** ** Outcomes of two blocks *)
Lemma all_bits_app_sum a b (f : pystr -> F) :
  fsum (map f (all_bits (a + b))) = fsum (map (fun p => fsum (map (fun q => f (p ++ q)) (all_bits b))) (all_bits a)).
Proof.
  revert f; induction a as [|a IH]; intros f; cbn [Nat.add all_bits].
  - cbn [map app]. rewrite fsum_cons, fsum_nil, fadd_0_r. reflexivity.
  - rewrite !map_app, !fsum_app, !map_map, !IH. reflexivity.
Qed.

Lemma is_bits_firstn n s : is_bits s -> is_bits (firstn n s).
Proof. intros H c Hc. apply H. rewrite <- (firstn_skipn n s). apply in_or_app; left; exact Hc. Qed.
Lemma is_bits_skipn n s : is_bits s -> is_bits (skipn n s).
Proof. intros H c Hc. apply H. rewrite <- (firstn_skipn n s). apply in_or_app; right; exact Hc. Qed.

Definition width (fs : list (nat * (pystr -> pystr -> F))) : nat := fold_right Nat.add 0%nat (map fst fs).

Lemma firstn_app_exact {A} (p q : list A) k : k = length p -> firstn k (p ++ q) = p.
Proof. intros ->. rewrite firstn_app, Nat.sub_diag, firstn_all. apply app_nil_r. Qed.
Lemma skipn_app_exact {A} (p q : list A) k : k = length p -> skipn k (p ++ q) = q.
Proof. intros ->. rewrite skipn_app, Nat.sub_diag, skipn_all. reflexivity. Qed.

(** Products of Kronecker products. *)
Lemma kron_mul fs gs hs :
  Forall2 (fun a b => fst a = fst b) fs gs ->
  Forall2 (fun ab h => fst (fst ab) = fst h /\
     forall x y, In x (all_bits (fst h)) -> In y (all_bits (fst h)) ->
       mmul (all_bits (fst h)) (snd (fst ab)) (snd (snd ab)) x y = snd h x y) (combine fs gs) hs ->
  forall x y, In x (all_bits (width hs)) -> In y (all_bits (width hs)) ->
  mmul (all_bits (width hs)) (kron fs) (kron gs) x y = kron hs x y.
Proof.
  intros H1; revert hs; induction H1 as [|[sa A] [sb B] fs gs Hs Hr IH]; intros hs H2; cbn [combine] in H2.
  - inversion H2; subst. intros x y _ _. unfold mmul. cbn. rewrite fsum_cons, fsum_nil. ring.
  - inversion H2 as [|? [sc C] ? hs' [Hsz Hmul] Hrest]; subst. cbn [fst snd] in *. subst sb sc.
    intros x y Hx Hy. cbn [width map fold_right fst] in *. fold (width hs') in *.
    apply all_bits_In in Hx, Hy. destruct Hx as [Hxl Hxb], Hy as [Hyl Hyb].
    unfold mmul. rewrite Nat.add_comm, all_bits_app_sum.
    cbn [kron]. rewrite Hxl, Hyl. replace (sa + width hs' - sa)%nat with (width hs') by lia.
    set (xr := skipn (width hs') x). set (xl := firstn (width hs') x).
    set (yr := skipn (width hs') y). set (yl := firstn (width hs') y).
    assert (Hxr : In xr (all_bits sa)) by (apply all_bits_In; split; [unfold xr; rewrite skipn_length; lia | apply is_bits_skipn; exact Hxb]).
    assert (Hyr : In yr (all_bits sa)) by (apply all_bits_In; split; [unfold yr; rewrite skipn_length; lia | apply is_bits_skipn; exact Hyb]).
    assert (Hxl' : In xl (all_bits (width hs'))) by (apply all_bits_In; split; [unfold xl; rewrite firstn_length; lia | apply is_bits_firstn; exact Hxb]).
    assert (Hyl' : In yl (all_bits (width hs'))) by (apply all_bits_In; split; [unfold yl; rewrite firstn_length; lia | apply is_bits_firstn; exact Hyb]).
    rewrite <- (Hmul xr yr Hxr Hyr), <- (IH hs' Hrest xl yl Hxl' Hyl'). unfold mmul.
    rewrite <- fsum_map_mul. apply fsum_map_ext. intros p Hp. apply all_bits_In in Hp. destruct Hp as [Hpl Hpb].
    rewrite <- fsum_map_mul_r. apply fsum_map_ext. intros q Hq. apply all_bits_In in Hq. destruct Hq as [Hql Hqb].
    rewrite app_length, Hpl, Hql. replace (width hs' + sa - sa)%nat with (width hs') by lia.
    rewrite firstn_app_exact, skipn_app_exact by (symmetry; exact Hpl). ring.
Qed.

Lemma kron_delta sizes x y :
  In x (all_bits (fold_right Nat.add 0%nat sizes)) -> In y (all_bits (fold_right Nat.add 0%nat sizes)) ->
  kron (map (fun s => (s, delta)) sizes) x y = delta x y.
Proof.
  revert x y; induction sizes as [|s sizes IH]; intros x y Hx Hy; cbn [map kron fold_right] in *.
  - destruct Hx as [<-|[]], Hy as [<-|[]]. reflexivity.
  - apply all_bits_In in Hx, Hy. destruct Hx as [Hxl Hxb], Hy as [Hyl Hyb]. rewrite Hxl, Hyl.
    set (w := fold_right Nat.add 0%nat sizes) in *. replace (s + w - s)%nat with w by lia.
    rewrite IH.
    + unfold delta. destruct (eqb_spec (skipn w x) (skipn w y)) as [E1|E1], (eqb_spec (firstn w x) (firstn w y)) as [E2|E2], (eqb_spec x y) as [E|E]; try ring; exfalso; try congruence.
      apply E. rewrite <- (firstn_skipn w x), <- (firstn_skipn w y). congruence.
    + apply all_bits_In; split; [rewrite firstn_length; lia | apply is_bits_firstn; exact Hxb].
    + apply all_bits_In; split; [rewrite firstn_length; lia | apply is_bits_firstn; exact Hyb].
Qed.

Lemma kron_col_sum fs :
  Forall (fun f => forall y, In y (all_bits (fst f)) -> fsum (map (fun x => snd f x y) (all_bits (fst f))) = 1) fs ->
  forall y, In y (all_bits (width fs)) -> fsum (map (fun x => kron fs x y) (all_bits (width fs))) = 1.
Proof.
  induction 1 as [|[s M] fs Hm Hr IH]; intros y Hy.
  - cbn. rewrite fsum_cons, fsum_nil. ring.
  - cbn [width map fold_right fst snd] in *. fold (width fs) in *.
    apply all_bits_In in Hy. destruct Hy as [Hyl Hyb].
    rewrite Nat.add_comm, all_bits_app_sum. cbn [kron]. rewrite Hyl.
    replace (s + width fs - s)%nat with (width fs) by lia.
    rewrite (fsum_map_ext _ (fun p => kron fs p (firstn (width fs) y))).
    + apply IH. apply all_bits_In; split; [rewrite firstn_length; lia | apply is_bits_firstn; exact Hyb].
    + intros p Hp. apply all_bits_In in Hp. destruct Hp as [Hpl Hpb].
      rewrite (fsum_map_ext _ (fun q => M q (skipn (width fs) y) * kron fs p (firstn (width fs) y))).
      * rewrite fsum_map_mul_r, Hm; [ring|].
        apply all_bits_In; split; [rewrite skipn_length; lia | apply is_bits_skipn; exact Hyb].
      * intros q Hq. apply all_bits_In in Hq. destruct Hq as [Hql Hqb].
        rewrite app_length, Hpl, Hql. replace (width fs + s - s)%nat with (width fs) by lia.
        rewrite firstn_app_exact, skipn_app_exact by (symmetry; exact Hpl). reflexivity.
Qed.

(** ** The product over the groups *)
Definition byidx (ls : list pystr) (m : nat -> nat -> F) : pystr -> pystr -> F := fun a b => m (idx ls a) (idx ls b).

Lemma slice_firstn {A} (l : list A) a e : slice l a e = skipn a (firstn e l).
Proof. unfold slice. rewrite firstn_skipn_comm. destruct (le_lt_dec a e).
  - replace (a + (e - a))%nat with e by lia. reflexivity.
  - replace (a + (e - a))%nat with a by lia. rewrite !skipn_all2; [reflexivity| |]; rewrite firstn_length; lia.
Qed.

Lemma group_product_closed sizes labels : Forall2 complete_labels sizes labels ->
  forall (mats : list (nat -> nat -> F)) s1 s2 e prod,
  length mats = length sizes -> e = fold_right Nat.add 0%nat sizes ->
  (e <= length s1)%nat -> (e <= length s2)%nat -> is_bits s1 -> is_bits s2 ->
  group_product sizes (map indices_of labels) mats s1 s2 e prod
  = Ok (prod * kron (combine sizes (map (fun lm => byidx (fst lm) (snd lm)) (combine labels mats))) (firstn e s1) (firstn e s2)).
Proof.
  induction 1 as [|s ls sizes labels Hsl Hrest IH]; intros mats s1 s2 e prod Hm He H1 H2 Hb1 Hb2.
  - cbn. f_equal. ring.
  - destruct mats as [|m mats]; [discriminate|]. cbn [group_product map combine kron fst snd].
    cbn [fold_right] in He.
    assert (L1 : length (slice s1 (e - s) e) = s) by (rewrite slice_length; lia).
    assert (L2 : length (slice s2 (e - s) e) = s) by (rewrite slice_length; lia).
    destruct (idx_get s ls (slice s1 (e - s) e) Hsl L1) as (-> & _ & _); [intros c Hc; apply Hb1; eapply slice_In; exact Hc|].
    destruct (idx_get s ls (slice s2 (e - s) e) Hsl L2) as (-> & _ & _); [intros c Hc; apply Hb2; eapply slice_In; exact Hc|].
    cbn [bind]. rewrite !firstn_length_le by lia.
    rewrite !slice_firstn, !firstn_firstn. replace (Nat.min (e - s) e) with (e - s)%nat by lia.
    cbv [byidx].
    destruct (eqb_spec (prod * m (idx ls (skipn (e - s) (firstn e s1))) (idx ls (skipn (e - s) (firstn e s2)))) 0) as [E|E].
    + f_equal. rewrite fmul_assoc, E. ring.
    + rewrite IH; auto; try lia. f_equal. exact (eq_sym (fmul_assoc _ _ _)).
Qed.

(** ** The raw vector *)
Lemma update_map (l : list pystr) (val : pystr -> F) x : forall i k, NoDup l -> nth_error l i = Some k ->
  firstn i (map val l) ++ x :: skipn (i + 1) (map val l) = map (fun s => if eqb s k then x else val s) l.
Proof.
  induction l as [|a l IH]; intros i k Hnd Hi; [destruct i; discriminate|].
  inversion Hnd as [|? ? Hni Hnd']; subst. destruct i as [|i]; cbn [nth_error] in Hi.
  - injection Hi as ->. cbn. rewrite eqb_refl. f_equal. apply map_ext_in. intros s Hs.
    destruct (eqb_spec s k) as [->|]; [contradiction | reflexivity].
  - cbn [map firstn app Nat.add skipn]. rewrite (IH i k Hnd' Hi).
    destruct (eqb_spec a k) as [->|]; [|reflexivity]. exfalso; apply Hni. eapply nth_error_In; exact Hi.
Qed.

Lemma int2_bits s : s <> [] -> is_bits s -> int2 s = Ok (binary_value 0 s).
Proof.
  intros Hne Hb. destruct s as [|c s]; [congruence|]. unfold int2.
  assert (Hg : forall t acc, is_bits t -> int2_acc acc t = Ok (binary_value acc t)).
  { induction t as [|a t IH]; intros acc Ht; [reflexivity|]. apply is_bits_cons in Ht. destruct Ht as [Ha Ht].
    cbn [int2_acc binary_value]. destruct Ha as [-> | ->].
    - change (eqb ch0 ch0) with true. cbn [Ascii.eqb Bool.eqb]. rewrite IH by exact Ht. rewrite Nat.add_0_r. reflexivity.
    - change (eqb ch1 ch0) with false. change (eqb ch1 ch1) with true. rewrite (IH (2 * acc + 1)%nat) by exact Ht. reflexivity. }
  apply Hg; exact Hb.
Qed.

Lemma raw_vector_closed n (d : dict pystr F) : (0 < n)%nat ->
  (forall k, In k (dkeys d) -> length k = n /\ is_bits k) -> NoDup (dkeys d) ->
  raw_vector n d = Ok (map (value_at d) (all_bits n)).
Proof.
  intros Hn Hk Hnd. unfold raw_vector.
  assert (Hgen : forall (d : dict pystr F) val, (forall k, In k (dkeys d) -> length k = n /\ is_bits k) -> NoDup (dkeys d) ->
     (forall k, In k (dkeys d) -> val k = 0) ->
     foldM (fun v kv => do i <- int2 (fst kv);
               if (i <? 2 ^ n)%nat then Ok (firstn i v ++ snd kv :: skipn (i + 1) v) else Err IndexError) d (map val (all_bits n))
     = Ok (map (fun y => val y + value_at d y) (all_bits n))).
  { clear d Hk Hnd. induction d as [|[k x] d IH]; intros val Hk Hnd Hv; cbn [foldM fst snd].
    - f_equal. apply map_ext. intros y. unfold value_at. cbn. rewrite fsum_nil. ring.
    - destruct (Hk k (or_introl eq_refl)) as [Hkl Hkb].
      rewrite int2_bits; [|intros ->; cbn in Hkl; lia | exact Hkb]. cbn [bind].
      pose proof (binary_value_lt k) as Hlt. rewrite Hkl in Hlt.
      destruct (Nat.ltb_spec (binary_value 0 k) (2 ^ n)) as [_|]; [|lia].
      assert (Hin : In k (all_bits n)) by (apply all_bits_In; auto).
      apply In_nth_error in Hin. destruct Hin as (i & Hi). pose proof (nth_all_bits_value _ _ _ Hi) as Hiv.
      rewrite Hiv. rewrite (update_map _ _ _ i k (all_bits_NoDup n) Hi). cbn [dkeys map fst] in Hnd.
      inversion Hnd as [|? ? Hni Hnd']; subst.
      cbn [bind]. rewrite IH.
      + f_equal. apply map_ext. intros y. unfold value_at. cbn [map fst snd]. rewrite fsum_cons.
        rewrite (eqb_sym y k).
        destruct (eqb_spec k y) as [->|]; [|ring].
        rewrite (Hv y) by (left; reflexivity).
        assert (Hz : fsum (map (fun kv : pystr * F => if eqb (fst kv) y then snd kv else 0) d) = 0).
        { apply fsum_map_zero'. intros [k' v'] Hin. cbn. destruct (eqb_spec k' y) as [->|]; [|reflexivity].
          exfalso; apply Hni. unfold dkeys. apply in_map_iff. exists (y, v'); auto. }
        rewrite Hz. ring.
      + intros k' Hk'. apply Hk. right; exact Hk'.
      + exact Hnd'.
      + intros k' Hk'. destruct (eqb_spec k' k) as [->|]; [contradiction|]. apply Hv; right; exact Hk'. }
  replace (repeat 0 (2 ^ n)) with (map (fun _ : pystr => (0 : F)) (all_bits n)).
  - rewrite Hgen; auto. f_equal. apply map_ext. intros; ring.
  - rewrite <- (all_bits_length n). clear Hgen; induction (all_bits n) as [|a l IH]; cbn; [reflexivity | rewrite IH; reflexivity].
Qed.

(** ** The whole filter *)
Variable pinv : (nat -> nat -> F) -> (nat -> nat -> F).

Definition pinv_kron (gs : list (cal_group F)) : pystr -> pystr -> F :=
  kron (map (fun g => (cg_size g, byidx (cg_labels g) (pinv (cg_matrix g)))) gs).

Lemma foldM_skip_zero (l : list (pystr * F)) (p : pystr -> F) acc (pe : pystr -> result F) :
  (forall y x, In (y, x) l -> pe y = Ok (p y)) ->
  foldM (fun acc sx => if eqb (snd sx) 0 then Ok acc else do q <- pe (fst sx); Ok (acc + q * snd sx)) l acc
  = Ok (acc + fsum (map (fun sx => p (fst sx) * snd sx) l)).
Proof.
  revert acc; induction l as [|[y x] l IH]; intros acc H; cbn [foldM map fst snd].
  - rewrite fsum_nil. f_equal; ring.
  - rewrite fsum_cons. destruct (eqb_spec x 0) as [->|Hx]; cbn [bind].
    + rewrite IH by (intros; eapply H; right; eassumption). f_equal; ring.
    + rewrite (H y x) by (left; reflexivity). cbn [bind].
      rewrite IH by (intros; eapply H; right; eassumption). f_equal; ring.
Qed.

Lemma groups_combine (gs : list (cal_group F)) :
  combine (map cg_size gs) (map (fun lm => byidx (fst lm) (snd lm)) (combine (map cg_labels gs) (map pinv (map cg_matrix gs))))
  = map (fun g => (cg_size g, byidx (cg_labels g) (pinv (cg_matrix g)))) gs.
Proof. induction gs as [|g gs IH]; cbn; [reflexivity | f_equal; exact IH]. Qed.

Lemma tf_closed gs (d : dict pystr F) :
  Forall group_ok gs -> (0 < groups_width gs)%nat ->
  NoDup (dkeys d) -> (forall k, In k (dkeys d) -> length k = groups_width gs /\ is_bits k) ->
  tf_apply_pinv pinv (map cg_labels gs) (map cg_matrix gs) d
  = Ok (filter (fun kv => negb (eqb (snd kv) 0))
         (map (fun y => (y, fsum (map (fun z => pinv_kron gs y z * value_at d z) (all_bits (groups_width gs))))) (all_bits (groups_width gs)))).
Proof.
  intros Hg Hw Hnd Hk. unfold tf_apply_pinv.
  assert (Hcl : Forall2 complete_labels (map cg_size gs) (map cg_labels gs)).
  { clear -Hg. induction Hg as [|g gs [Hc _] Hr IH]; cbn; constructor; assumption. }
  assert (Hs : map (fun l : list pystr => Nat.log2 (length l)) (map cg_labels gs) = map cg_size gs).
  { clear -Hg. induction Hg as [|g gs [Hc _] Hr IH]; cbn; [reflexivity|]. f_equal; [|exact IH].
    rewrite (complete_labels_length _ _ Hc). apply Nat.log2_pow2. lia. }
  rewrite Hs. fold (groups_width gs). set (n := groups_width gs) in *.
  rewrite count_keys_all_bits by exact Hw.
  rewrite raw_vector_closed by assumption. cbn [bind].
  rewrite (mapM_all_Ok _ (fun s1 => fsum (map (fun z => pinv_kron gs s1 z * value_at d z) (all_bits n)))).
  - cbn [bind]. rewrite combine_map_self. rewrite fold_dset_nonzero; [reflexivity|].
    cbn [map app]. rewrite map_fst_pair. apply all_bits_NoDup.
  - intros s1 Hs1. apply all_bits_In in Hs1. destruct Hs1 as [Hl1 Hb1].
    rewrite combine_map_self.
    rewrite (foldM_skip_zero _ (fun z => pinv_kron gs s1 z)
               0 (fun z => group_product (map cg_size gs) (map indices_of (map cg_labels gs)) (map pinv (map cg_matrix gs)) s1 z n 1)).
    + f_equal. rewrite map_map. cbn [fst snd]. ring.
    + intros y x Hin. apply in_map_iff in Hin. destruct Hin as (z & [= <- <-] & Hz).
      apply all_bits_In in Hz. destruct Hz as [Hlz Hbz].
      rewrite (group_product_closed _ _ Hcl) by (rewrite ?map_length; auto; unfold n in *; lia).
      rewrite groups_combine. rewrite !firstn_all2 by lia. unfold pinv_kron. f_equal; ring.
Qed.

Lemma sum_by_index s ls (f : nat -> F) : complete_labels s ls ->
  fsum (map (fun x => f (idx ls x)) (all_bits s)) = fsum (map f (seq 0 (2 ^ s))).
Proof.
  intros Hc. pose proof (complete_labels_length _ _ Hc) as Hl.
  rewrite (fsum_perm (map (fun x => f (idx ls x)) (all_bits s)) (map (fun x => f (idx ls x)) ls)).
  - rewrite <- (list_sum_named ls (fun x => f (idx ls x))), Hl. apply fsum_map_ext. intros i Hi. apply in_seq in Hi.
    f_equal. assert (Hin : In (nth i ls []) ls) by (apply nth_In; lia). pose proof Hin as Hin'.
    apply Hc in Hin'. destruct Hin' as [H1 H2].
    destruct (idx_get s ls (nth i ls []) Hc H1 H2) as (_ & Hlt & Hn).
    apply (NoDup_nth ls []); [apply Hc | lia | lia | exact Hn].
  - apply Permutation_map. apply NoDup_Permutation; [apply all_bits_NoDup | apply Hc|].
    intros x. rewrite all_bits_In. symmetry. apply Hc.
Qed.

Lemma named_idx g x y : group_ok g -> In x (all_bits (cg_size g)) -> In y (all_bits (cg_size g)) ->
  cg_named g x y = byidx (cg_labels g) (cg_matrix g) x y.
Proof.
  intros [Hc Hn] Hx Hy. apply all_bits_In in Hx, Hy. destruct Hx as [Hx1 Hx2], Hy as [Hy1 Hy2].
  destruct (idx_get _ _ x Hc Hx1 Hx2) as (_ & Hlx & Hnx). destruct (idx_get _ _ y Hc Hy1 Hy2) as (_ & Hly & Hny).
  unfold byidx. rewrite (Hn _ _) by (rewrite (complete_labels_length _ _ Hc); assumption). rewrite Hnx, Hny. reflexivity.
Qed.

Lemma group_inverse (g : cal_group F) (A B : nat -> nat -> F) : complete_labels (cg_size g) (cg_labels g) ->
  left_inverse (2 ^ cg_size g) A B ->
  forall x y, In x (all_bits (cg_size g)) -> In y (all_bits (cg_size g)) ->
  mmul (all_bits (cg_size g)) (byidx (cg_labels g) A) (byidx (cg_labels g) B) x y = delta x y.
Proof.
  intros Hc Hi x y Hx Hy. apply all_bits_In in Hx, Hy. destruct Hx as [Hx1 Hx2], Hy as [Hy1 Hy2].
  destruct (idx_get _ _ x Hc Hx1 Hx2) as (_ & Hlx & Hnx). destruct (idx_get _ _ y Hc Hy1 Hy2) as (_ & Hly & Hny).
  unfold mmul, byidx. rewrite (sum_by_index _ _ (fun k => A (idx (cg_labels g) x) k * B k (idx (cg_labels g) y)) Hc).
  rewrite Hi by assumption. unfold delta. rewrite (idx_eq _ _ x _ Hc) by assumption. rewrite Hny. reflexivity.
Qed.

Lemma kron_ext fs gs : Forall2 (fun f g => fst f = fst g /\
    forall x y, In x (all_bits (fst f)) -> In y (all_bits (fst f)) -> snd f x y = snd g x y) fs gs ->
  forall x y, In x (all_bits (width fs)) -> In y (all_bits (width fs)) -> kron fs x y = kron gs x y.
Proof.
  induction 1 as [|[s A] [s' B] fs gs [Hs Hm] Hr IH]; intros x y Hx Hy; [reflexivity|]. cbn [fst snd] in *. subst s'.
  cbn [width map fold_right fst] in Hx, Hy. fold (width fs) in Hx, Hy. cbn [kron].
  apply all_bits_In in Hx, Hy. destruct Hx as [Hx1 Hx2], Hy as [Hy1 Hy2]. rewrite Hx1, Hy1.
  replace (s + width fs - s)%nat with (width fs) by lia.
  rewrite Hm, IH; [reflexivity| | | |]; apply all_bits_In; split;
    rewrite ?firstn_length, ?skipn_length; try lia; auto using is_bits_firstn, is_bits_skipn.
Qed.

Lemma width_groups (gs : list (cal_group F)) (h : cal_group F -> pystr -> pystr -> F) :
  width (map (fun g => (cg_size g, h g)) gs) = groups_width gs.
Proof. unfold width, groups_width. rewrite map_map. reflexivity. Qed.

Lemma Forall2_map_both {A B C} (P : B -> C -> Prop) (f : A -> B) (g : A -> C) l :
  (forall a, In a l -> P (f a) (g a)) -> Forall2 P (map f l) (map g l).
Proof. induction l as [|a l IH]; cbn; intros H; constructor; [apply H; left; reflexivity | apply IH; intros; apply H; right; assumption]. Qed.

Lemma kron_inverse gs : Forall group_ok gs ->
  (forall g, In g gs -> left_inverse (2 ^ cg_size g) (pinv (cg_matrix g)) (cg_matrix g)) ->
  forall x y, In x (all_bits (groups_width gs)) -> In y (all_bits (groups_width gs)) ->
  mmul (all_bits (groups_width gs)) (pinv_kron gs) (kron (map (fun g => (cg_size g, cg_named g)) gs)) x y = delta x y.
Proof.
  intros Hg Hi x y Hx Hy. unfold pinv_kron. rewrite Forall_forall in Hg.
  set (fs := map (fun g => (cg_size g, byidx (cg_labels g) (pinv (cg_matrix g)))) gs).
  set (ms := map (fun g => (cg_size g, cg_named g)) gs).
  set (hs := map (fun g : cal_group F => (cg_size g, delta : pystr -> pystr -> F)) gs).
  assert (Hw : width hs = groups_width gs) by (unfold hs; apply (width_groups gs (fun _ => delta))).
  rewrite <- Hw in *. rewrite (kron_mul fs ms hs).
  - unfold hs. rewrite <- (map_map (@cg_size F) (fun s => (s, delta : pystr -> pystr -> F))).
    apply kron_delta; unfold groups_width in Hw; rewrite Hw in Hx, Hy; assumption.
  - unfold fs, ms. apply Forall2_map_both. reflexivity.
  - unfold fs, ms, hs.
    replace (combine _ _) with (map (fun g => ((cg_size g, byidx (cg_labels g) (pinv (cg_matrix g))), (cg_size g, cg_named g))) gs).
    + apply Forall2_map_both. intros g Hin. cbn [fst snd]. split; [reflexivity|]. intros a b Ha Hb.
      rewrite <- (group_inverse g (pinv (cg_matrix g)) (cg_matrix g) (proj1 (Hg g Hin)) (Hi g Hin) a b Ha Hb).
      unfold mmul. apply fsum_map_ext. intros k Hk. rewrite (named_idx g k b (Hg g Hin) Hk Hb). reflexivity.
    + clear. induction gs as [|g gs IH]; cbn; [reflexivity | f_equal; exact IH].
  - exact Hx.
  - exact Hy.
Qed.

Lemma C09_tf_lemma gs (d : dict pystr F) x :
  Forall group_ok gs -> (0 < groups_width gs)%nat ->
  NoDup (dkeys d) -> (forall k, In k (dkeys d) -> length k = groups_width gs /\ is_bits k) ->
  (forall g, In g gs -> left_inverse (2 ^ cg_size g) (pinv (cg_matrix g)) (cg_matrix g)) ->
  (forall y, length y = groups_width gs -> is_bits y ->
     value_at d y = fsum (map (fun z => kron (map (fun g => (cg_size g, cg_named g)) gs) y z * x z) (all_bits (groups_width gs)))) ->
  exists r, tf_apply_pinv pinv (map cg_labels gs) (map cg_matrix gs) d = Ok r /\
    lists_nonzero r (all_bits (groups_width gs)) x.
Proof.
  intros Hg Hw Hnd Hk Hi Hd. eexists; split; [apply tf_closed; assumption|].
  set (n := groups_width gs) in *.
  rewrite (map_ext_in _ (fun y => (y, x y))).
  - apply sparse_lists, all_bits_NoDup.
  - intros y Hy. f_equal.
    transitivity (mapply (all_bits n) (pinv_kron gs) (mapply (all_bits n) (kron (map (fun g => (cg_size g, cg_named g)) gs)) x) y).
    + apply fsum_map_ext. intros z Hz. apply all_bits_In in Hz. destruct Hz. rewrite Hd by assumption. reflexivity.
    + rewrite mapply_mmul. rewrite (mapply_ext _ _ delta x x).
      * apply mapply_delta; [apply all_bits_NoDup | exact Hy].
      * intros k Hk'. apply kron_inverse; assumption.
      * reflexivity.
Qed.

Lemma C09_tf_total_lemma gs (d : dict pystr F) :
  Forall group_ok gs -> (0 < groups_width gs)%nat ->
  NoDup (dkeys d) -> (forall k, In k (dkeys d) -> length k = groups_width gs /\ is_bits k) ->
  (forall g, In g gs -> left_inverse (2 ^ cg_size g) (cg_matrix g) (pinv (cg_matrix g))) ->
  (forall g, In g gs -> columns_sum_one (2 ^ cg_size g) (cg_matrix g)) ->
  exists r, tf_apply_pinv pinv (map cg_labels gs) (map cg_matrix gs) d = Ok r /\ total_value r = total_value d.
Proof.
  intros Hg Hw Hnd Hk Hi Hc. eexists; split; [apply tf_closed; assumption|].
  set (n := groups_width gs) in *. rewrite sparse_total, fsum_swap.
  rewrite <- (total_value_sum d (all_bits n) (all_bits_NoDup n)) by (intros k Hin; apply all_bits_In, Hk, Hin).
  apply fsum_map_ext. intros z Hz. rewrite fsum_map_mul_r.
  assert (Hs : fsum (map (fun a => pinv_kron gs a z) (all_bits n)) = 1); [|rewrite Hs; ring].
  unfold pinv_kron. set (fs := map (fun g => (cg_size g, byidx (cg_labels g) (pinv (cg_matrix g)))) gs).
  assert (Hwf : width fs = n) by (unfold fs; apply (width_groups gs (fun g => byidx (cg_labels g) (pinv (cg_matrix g))))).
  rewrite <- Hwf in *. apply kron_col_sum; [|exact Hz].
  unfold fs. apply Forall_forall. intros f Hf. apply in_map_iff in Hf. destruct Hf as (g & <- & Hin). cbn [fst snd].
  intros y Hy. rewrite Forall_forall in Hg. destruct (Hg g Hin) as [Hcl _].
  unfold byidx. rewrite (sum_by_index _ _ (fun i => pinv (cg_matrix g) i (idx (cg_labels g) y)) Hcl).
  apply all_bits_In in Hy. destruct Hy as [Hy1 Hy2].
  apply (stochastic_inverse pinv (fun _ v => v) _ _ _ (Hi g Hin) (Hc g Hin)). apply (idx_get _ _ y Hcl Hy1 Hy2).
Qed.
End Tensor.
