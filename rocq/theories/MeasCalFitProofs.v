(** Proofs about the calibration fitters. *)
From Coq Require Import QArith Lqa.
From Verif Require Import LinAlg Base CountsModel CountsSpec CountsProofs BasisSem MeasCalModel MeasCalSpec MeasCalCircProofs.
Open Scope nat_scope.

Lemma foldM_app {A B} (f : B -> A -> result B) l l' b :
  foldM f (l ++ l') b = do b' <- foldM f l b; foldM f l' b'.
Proof. revert b; induction l as [|a l IH]; intros b; cbn; [reflexivity|]. destruct (f b a); cbn; auto. Qed.

(** ** Recognising the prepared state in a circuit name *)
Lemma starts_with_length p s : starts_with p s = true -> length p <= length s.
Proof.
  revert s; induction p as [|a p IH]; intros [|b s]; cbn [starts_with length]; try lia; try discriminate.
  intros H. apply andb_true_iff in H. destruct H as [_ H]. apply IH in H. lia.
Qed.

Lemma starts_with_spec p s : starts_with p s = true <-> exists t, s = p ++ t.
Proof.
  revert s; induction p as [|a p IH]; intros s; cbn [starts_with].
  - split; [intros _; exists s; reflexivity | reflexivity].
  - destruct s as [|b s]; [split; [discriminate | intros (t & H); discriminate]|].
    rewrite andb_true_iff, IH. split.
    + intros [H (t & ->)]. apply eqb_true in H. subst. exists t; reflexivity.
    + intros (t & H). injection H as -> ->. split; [apply eqb_refl | exists t; reflexivity].
Qed.

Lemma bits_word b : is_bits b -> forall c, In c b -> is_word c = true.
Proof. intros H c Hc. destruct (H c Hc) as [-> | ->]; reflexivity. Qed.

Lemma take_while_all f s : (forall c, In c s -> f c = true) -> take_while f s = s.
Proof.
  induction s as [|c s IH]; cbn; intros H; [reflexivity|].
  rewrite H by (left; reflexivity). rewrite IH by (intros; apply H; right; assumption). reflexivity.
Qed.

Lemma search_label_skip L b : forall rest before,
  rev L = rev rest ++ before -> b <> [] -> (forall c, In c b -> is_word c = true) ->
  search_label (rev L) before (rest ++ b) = Some b.
Proof.
  induction rest as [|c rest IH]; intros before HL Hne Hb; cbn [app].
  - cbn in HL. subst before. destruct b as [|c b]; [congruence|]. cbn [search_label].
    replace (starts_with (rev L) (rev L)) with true
      by (symmetry; apply starts_with_spec; exists []; rewrite app_nil_r; reflexivity).
    rewrite (Hb c (or_introl eq_refl)). cbn [andb]. f_equal. apply (take_while_all is_word (c :: b)). exact Hb.
  - cbn [search_label].
    assert (Hs : starts_with (rev L) before = false).
    { destruct (starts_with (rev L) before) eqn:E; [|reflexivity]. apply starts_with_length in E.
      rewrite HL in E. cbn in E. rewrite !app_length in E. cbn in E. lia. }
    rewrite Hs. cbn [andb]. apply IH; auto. rewrite HL. cbn. rewrite <- app_assoc. reflexivity.
Qed.

Lemma prepared_state_cal lab b :
  b <> [] -> is_bits b -> prepared_state lab (lab ++ str "cal_" ++ b) = Some b.
Proof.
  intros Hne Hb. unfold prepared_state. rewrite app_assoc. apply search_label_skip; auto.
  - rewrite app_nil_r; reflexivity.
  - apply bits_word; exact Hb.
Qed.

Lemma search_label_None L : forall s before,
  (forall u v, rev before ++ s <> u ++ L ++ v) -> search_label (rev L) before s = None.
Proof.
  induction s as [|c s IH]; intros before H; [reflexivity|]. cbn [search_label].
  destruct (starts_with (rev L) before) eqn:E.
  - exfalso. apply starts_with_spec in E. destruct E as (t & ->).
    apply (H (rev t) (c :: s)). rewrite rev_app_distr, rev_involutive, <- app_assoc. reflexivity.
  - cbn [andb]. apply IH. intros u v. cbn. rewrite <- app_assoc. apply H.
Qed.

Lemma prepared_state_foreign lab name :
  (forall u v, name <> u ++ (lab ++ str "cal_") ++ v) -> prepared_state lab name = None.
Proof. intros H. unfold prepared_state. apply search_label_None. exact H. Qed.

(** ** Index dictionaries *)
Lemma indices_of_aux (ls : list pystr) : forall k d, NoDup ls -> (forall x, In x ls -> dget d x = None) ->
  forall x, dget (fold_left (fun d li => dset d (fst li) (snd li)) (combine ls (seq k (length ls))) d) x
  = match list_index ls x with Some i => Some (k + i) | None => dget d x end.
Proof.
  induction ls as [|a ls IH]; intros k d Hnd Hd x; cbn [combine length seq fold_left list_index fst snd]; [reflexivity|].
  inversion Hnd as [|? ? Hni Hnd']; subst.
  rewrite IH.
  - destruct (eqb_spec a x) as [->|Hn].
    + assert (E : list_index ls x = None) by (apply list_index_None; exact Hni).
      rewrite E, dget_dset, eqb_refl. f_equal; lia.
    + destruct (list_index ls x) as [i|]; cbn; [f_equal; lia|].
      rewrite dget_dset. destruct (eqb_spec x a); congruence.
  - exact Hnd'.
  - intros y Hy. rewrite dget_dset. destruct (eqb_spec y a) as [->|]; [contradiction|].
    apply Hd; right; exact Hy.
Qed.

Lemma indices_of_get ls x : NoDup ls -> dget (indices_of ls) x = list_index ls x.
Proof.
  intros Hnd. unfold indices_of. rewrite indices_of_aux by (auto; intros; reflexivity).
  destruct (list_index ls x); reflexivity.
Qed.

Definition idx (ls : list pystr) (x : pystr) : nat := match list_index ls x with Some i => i | None => 0 end.

Lemma complete_labels_length s ls : complete_labels s ls -> length ls = 2 ^ s.
Proof.
  intros [Hnd Hin]. rewrite <- (all_bits_length s). apply Permutation_length.
  apply NoDup_Permutation; [exact Hnd | apply all_bits_NoDup|].
  intros x. rewrite Hin, all_bits_In. reflexivity.
Qed.

Lemma idx_get s ls x : complete_labels s ls -> length x = s -> is_bits x ->
  dget_e (indices_of ls) x = Ok (idx ls x) /\ idx ls x < 2 ^ s /\ nth (idx ls x) ls [] = x.
Proof.
  intros H Hl Hb. pose proof (complete_labels_length s ls H) as Hlen. destruct H as [Hnd Hin].
  unfold dget_e. rewrite indices_of_get by exact Hnd. unfold idx.
  destruct (list_index_Some ls x) as (i & Hi & Hn & Hlt); [apply Hin; auto|].
  rewrite Hi. split; [reflexivity|]. split; [lia|]. apply nth_error_nth; exact Hn.
Qed.

Lemma idx_eq s ls x j : complete_labels s ls -> length x = s -> is_bits x -> j < 2 ^ s ->
  (idx ls x =? j) = eqb x (nth j ls []).
Proof.
  intros H Hl Hb Hj. destruct (idx_get s ls x H Hl Hb) as (_ & Hlt & Hn).
  pose proof (complete_labels_length s ls H) as Hlen. destruct H as [Hnd Hin].
  destruct (Nat.eqb_spec (idx ls x) j) as [<-|Hne].
  - rewrite Hn, eqb_refl; reflexivity.
  - symmetry; apply eqb_neq. intros E. apply Hne.
    apply (NoDup_nth ls []); auto; try lia. congruence.
Qed.

(** ** Slices and groups *)
Lemma slice_length {A} (l : list A) a e : e <= length l -> length (slice l a e) = e - a.
Proof. intros H. unfold slice. rewrite firstn_length, skipn_length. lia. Qed.

Lemma slice_In {A} (l : list A) a e x : In x (slice l a e) -> In x l.
Proof.
  unfold slice. intros H. rewrite <- (firstn_skipn a l). apply in_or_app; right.
  rewrite <- (firstn_skipn (e - a) (skipn a l)). apply in_or_app; left; exact H.
Qed.

Lemma slice_rev {A} (b : list A) off s : off + s <= length b ->
  slice b (length b - off - s) (length b - off) = rev (firstn s (skipn off (rev b))).
Proof.
  intros H. rewrite skipn_rev, firstn_rev, rev_involutive. unfold slice.
  rewrite firstn_length_le by lia. rewrite skipn_firstn_comm.
  reflexivity.
Qed.

Lemma group_part_slice sizes g b :
  g < length sizes -> fold_right Nat.add 0 sizes = length b ->
  group_part sizes g b
  = slice b (length b - group_offset sizes g - nth g sizes 0) (length b - group_offset sizes g).
Proof.
  intros Hg Hs. unfold group_part. symmetry. apply slice_rev. rewrite <- Hs. clear Hs b.
  unfold group_offset. revert g Hg; induction sizes as [|s sizes IH]; cbn [length]; [lia|].
  intros [|g] Hg; cbn [firstn fold_right nth]; [lia|]. specialize (IH g ltac:(lia)). lia.
Qed.

Lemma group_part_length sizes g b :
  g < length sizes -> fold_right Nat.add 0 sizes = length b -> length (group_part sizes g b) = nth g sizes 0.
Proof.
  intros Hg Hs. rewrite group_part_slice by assumption. rewrite slice_length by lia.
  assert (group_offset sizes g + nth g sizes 0 <= length b); [|lia].
  rewrite <- Hs. clear Hs b. unfold group_offset. revert g Hg; induction sizes as [|s sizes IH]; cbn [length]; [lia|].
  intros [|g] Hg; cbn [firstn fold_right nth]; [lia|]. specialize (IH g ltac:(lia)). lia.
Qed.

Lemma group_part_bits sizes g b : is_bits b -> is_bits (group_part sizes g b).
Proof.
  intros Hb c Hc. apply Hb. unfold group_part in Hc. apply in_rev in Hc. apply in_rev.
  rewrite <- (firstn_skipn (group_offset sizes g) (rev b)). apply in_or_app; right.
  rewrite <- (firstn_skipn (nth g sizes 0) (skipn (group_offset sizes g) (rev b))). apply in_or_app; left; exact Hc.
Qed.

(** ** Accumulation *)
Fixpoint acc_closed (sizes : list nat) (labels : list (list pystr)) (ms : list zmat)
  (p m : pystr) (cnt : Z) (e : nat) : list zmat :=
  match sizes, labels, ms with
  | s :: sizes', ls :: labels', x :: ms' =>
      zmat_add x (idx ls (slice m (e - s) e)) (idx ls (slice p (e - s) e)) cnt
      :: acc_closed sizes' labels' ms' p m cnt (e - s)
  | _, _, _ => []
  end.

Lemma accum_groups_closed sizes labels : Forall2 complete_labels sizes labels ->
  forall ms p m cnt e,
  length ms = length sizes -> fold_right Nat.add 0 sizes = e -> e <= length p -> e <= length m ->
  is_bits p -> is_bits m ->
  accum_groups sizes (map indices_of labels) ms p m cnt e = Ok (acc_closed sizes labels ms p m cnt e).
Proof.
  induction 1 as [|s ls sizes labels Hsl Hrest IH]; intros ms p m cnt e Hms He Hp Hm Hbp Hbm;
    [reflexivity|]. destruct ms as [|x ms]; [discriminate|]. cbn [accum_groups acc_closed map fold_right] in *.
  assert (Hlp : length (slice p (e - s) e) = s) by (rewrite slice_length; lia).
  assert (Hlm : length (slice m (e - s) e) = s) by (rewrite slice_length; lia).
  destruct (idx_get s ls (slice p (e - s) e) Hsl Hlp) as (-> & Hpj & _).
  { intros c Hc; apply Hbp; eapply slice_In; exact Hc. }
  destruct (idx_get s ls (slice m (e - s) e) Hsl Hlm) as (-> & Hmi & _).
  { intros c Hc; apply Hbm; eapply slice_In; exact Hc. }
  cbn [bind].
  replace ((idx ls (slice m (e - s) e) <? 2 ^ s) && (idx ls (slice p (e - s) e) <? 2 ^ s)) with true
    by (symmetry; apply andb_true_iff; split; apply Nat.ltb_lt; assumption).
  rewrite IH; auto; try lia.
Qed.

Lemma acc_closed_length sizes labels ms p m cnt e :
  length labels = length sizes -> length ms = length sizes ->
  length (acc_closed sizes labels ms p m cnt e) = length sizes.
Proof.
  revert labels ms e; induction sizes as [|s sizes IH]; intros [|ls labels] [|x ms] e; cbn; try lia.
  intros; f_equal; apply IH; lia.
Qed.

Definition zero_mat : zmat := fun _ _ => 0%Z.

Lemma acc_closed_nth sizes : forall labels ms p m cnt e g,
  length labels = length sizes -> length ms = length sizes -> g < length sizes ->
  nth g (acc_closed sizes labels ms p m cnt e) zero_mat
  = zmat_add (nth g ms zero_mat)
      (idx (nth g labels []) (slice m (e - group_offset sizes g - nth g sizes 0) (e - group_offset sizes g)))
      (idx (nth g labels []) (slice p (e - group_offset sizes g - nth g sizes 0) (e - group_offset sizes g))) cnt.
Proof.
  induction sizes as [|s sizes IH]; intros [|ls labels] [|x ms] p m cnt e [|g]; cbn [length acc_closed nth]; try lia.
  - intros _ _ _. unfold group_offset; cbn. rewrite Nat.sub_0_r. reflexivity.
  - intros H1 H2 H3. rewrite IH by lia. unfold group_offset; cbn [firstn fold_right].
    replace (e - s - fold_right Nat.add 0 (firstn g sizes)) with (e - (s + fold_right Nat.add 0 (firstn g sizes))) by lia.
    reflexivity.
Qed.

(** The matrices hold exactly the shots [sh]. *)
Definition holds (sizes : list nat) (labels : list (list pystr)) (ms : list zmat) (sh : list shot) : Prop :=
  length ms = length sizes /\
  forall g i j, g < length sizes -> i < 2 ^ nth g sizes 0 -> j < 2 ^ nth g sizes 0 ->
    nth g ms zero_mat i j = pooled sizes g sh (nth i (nth g labels []) []) (nth j (nth g labels []) []).

Lemma pooled_app sizes g a b y x : pooled sizes g (a ++ b) y x = (pooled sizes g a y x + pooled sizes g b y x)%Z.
Proof. unfold pooled. rewrite map_app, zsum_app; reflexivity. Qed.

Lemma Forall2_nth_labels sizes labels g : Forall2 complete_labels sizes labels -> g < length sizes ->
  complete_labels (nth g sizes 0) (nth g labels []).
Proof.
  intros H; revert g; induction H as [|s ls sizes labels Hs Hr IH]; cbn; [lia|].
  intros [|g] Hg; [exact Hs | apply IH; lia].
Qed.

Lemma accum_one sizes labels ms sh p m cnt :
  Forall2 complete_labels sizes labels -> holds sizes labels ms sh ->
  let n := fold_right Nat.add 0 sizes in
  (length p = n /\ is_bits p) -> (length m = n /\ is_bits m) ->
  exists ms', accum_groups sizes (map indices_of labels) ms p m cnt n = Ok ms' /\
    holds sizes labels ms' (sh ++ [(p, m, cnt)]).
Proof.
  intros Hl [Hlen Hh] n [Hp Hbp] [Hm Hbm].
  pose proof (Forall2_len _ _ _ Hl) as Hll.
  eexists; split; [apply accum_groups_closed; auto; lia|]. split.
  - rewrite acc_closed_length; auto.
  - intros g i j Hg Hi Hj. rewrite acc_closed_nth by auto.
    pose proof (Forall2_nth_labels _ _ _ Hl Hg) as Hc.
    replace n with (length m) at 1 2 by exact Hm.
    replace n with (length p) by exact Hp.
    rewrite <- !group_part_slice by (auto; congruence).
    unfold zmat_add. rewrite (Hh g i j Hg Hi Hj), pooled_app.
    assert (Hone : pooled sizes g [(p, m, cnt)] (nth i (nth g labels []) []) (nth j (nth g labels []) [])
      = if eqb (group_part sizes g p) (nth j (nth g labels []) []) && eqb (group_part sizes g m) (nth i (nth g labels []) [])
        then cnt else 0%Z) by (unfold pooled; cbn; lia).
    rewrite Hone.
    rewrite <- (idx_eq (nth g sizes 0)) by (auto using group_part_bits; apply group_part_length; auto; congruence).
    rewrite <- (idx_eq (nth g sizes 0)) by (auto using group_part_bits; apply group_part_length; auto; congruence).
    rewrite (Nat.eqb_sym i), (Nat.eqb_sym j), andb_comm.
    destruct (idx (nth g labels []) (group_part sizes g p) =? j), (idx (nth g labels []) (group_part sizes g m) =? i); cbn [andb]; lia.
Qed.

Lemma accum_counts sizes labels p (c : counts) : forall ms sh,
  Forall2 complete_labels sizes labels -> holds sizes labels ms sh ->
  let n := fold_right Nat.add 0 sizes in
  (length p = n /\ is_bits p) -> (forall k v, In (k, v) c -> length k = n /\ is_bits k) ->
  exists ms', foldM (fun ms kv => accum_groups sizes (map indices_of labels) ms p (fst kv) (snd kv) n) c ms = Ok ms' /\
    holds sizes labels ms' (sh ++ map (fun kv => (p, fst kv, snd kv)) c).
Proof.
  induction c as [|[k v] c IH]; intros ms sh Hl Hh n Hp Hc; cbn [foldM map].
  - exists ms. rewrite app_nil_r. auto.
  - destruct (accum_one sizes labels ms sh p k v Hl Hh Hp (Hc k v (or_introl eq_refl))) as (ms1 & E & Hh1).
    fold n in E. cbn [fst snd]. rewrite E. cbn [bind].
    destruct (IH ms1 _ Hl Hh1 Hp) as (ms2 & E2 & Hh2); [intros k0 v0 Hk0; apply (Hc k0 v0); right; exact Hk0|].
    exists ms2. fold n in E2. split; [exact E2|]. rewrite <- app_assoc in Hh2. exact Hh2.
Qed.


Lemma get_counts_distinct (r : qresult) e : NoDup (map e_name r) -> In e r -> get_counts r (e_name e) = Ok (e_counts e).
Proof.
  unfold get_counts. induction r as [|x r IH]; cbn; [intros _ []|].
  intros Hnd Hin; inversion Hnd as [|? ? Hni Hnd']; subst.
  destruct (eqb_spec (e_name x) (e_name e)) as [Heq|Hne].
  - destruct Hin as [->|Hin]; [reflexivity|]. exfalso; apply Hni. rewrite Heq. apply in_map; exact Hin.
  - destruct Hin as [->|Hin]; [congruence|]. apply IH; assumption.
Qed.

Lemma accum_exps lab sizes labels r : forall l ss ms sh,
  Forall2 complete_labels sizes labels -> holds sizes labels ms sh ->
  NoDup (map e_name r) -> incl l r ->
  exps_shots lab l ss -> well_formed_shots (fold_right Nat.add 0 sizes) (concat ss) ->
  (forall e, In e l -> e_counts e <> [] \/ prepared_state lab (e_name e) = None) ->
  exists ms', foldM (accum_experiment lab sizes (map indices_of labels) r) l ms = Ok ms' /\
    holds sizes labels ms' (sh ++ concat ss).
Proof.
  intros l ss ms sh Hl Hh Hnd Hincl Hs. revert ms sh Hh.
  induction Hs as [|e s l ss He Hs IH]; intros ms sh Hh Hwf Hne; cbn [foldM concat].
  - exists ms. rewrite app_nil_r. auto.
  - assert (Hone : exists ms1, accum_experiment lab sizes (map indices_of labels) r ms e = Ok ms1
                    /\ holds sizes labels ms1 (sh ++ s)).
    { unfold accum_experiment.
      pose proof (get_counts_distinct r e Hnd (Hincl e (or_introl eq_refl))) as Hgc.
      specialize (Hne e (or_introl eq_refl)).
      remember (e_name e) as nm eqn:Enm. remember (e_counts e) as cc eqn:Ecc.
      destruct He as [b c Hb1 Hb2 | nm c Hf].
      - rewrite prepared_state_cal in * by assumption.
        rewrite Hgc. cbn [bind].
        assert (Hcb : c <> []) by (destruct Hne as [H|H]; [exact H | discriminate]).
        apply accum_counts; auto.
        + destruct c as [|[k v] c']; [congruence|].
          apply (Hwf b k v). cbn. left; reflexivity.
        + intros k v Hkv. apply (Hwf b k v). cbn [concat]. apply in_or_app; left.
          apply in_map_iff. exists (k, v); auto.
      - rewrite prepared_state_foreign by assumption. exists ms. rewrite app_nil_r; auto. }
    destruct Hone as (ms1 & -> & Hh1). cbn [bind].
    destruct (IH ltac:(intros x Hx; apply Hincl; right; exact Hx) ms1 (sh ++ s) Hh1) as (ms2 & E2 & Hh2).
    + intros p m c Hin. apply (Hwf p m c). cbn [concat]. apply in_or_app; right; exact Hin.
    + intros x Hx; apply Hne; right; exact Hx.
    + exists ms2. split; [exact E2|]. rewrite <- app_assoc in Hh2. exact Hh2.
Qed.


Lemma accum_results lab sizes labels : forall rs ss ms sh,
  Forall2 complete_labels sizes labels -> holds sizes labels ms sh ->
  (forall r, In r rs -> NoDup (map e_name r)) -> (forall r e, In r rs -> In e r -> e_counts e <> []) ->
  exps_shots lab (concat rs) ss -> well_formed_shots (fold_right Nat.add 0 sizes) (concat ss) ->
  exists ms', foldM (fun ms r => foldM (accum_experiment lab sizes (map indices_of labels) r) r ms) rs ms = Ok ms'
    /\ holds sizes labels ms' (sh ++ concat ss).
Proof.
  induction rs as [|r rs IH]; intros ss ms sh Hl Hh Hnd Hc Hs Hwf; cbn [foldM concat] in *.
  - inversion Hs; subst. exists ms. cbn. rewrite app_nil_r; auto.
  - unfold exps_shots in Hs. apply Forall2_app_inv_l in Hs. destruct Hs as (s1 & s2 & H1 & H2 & ->).
    rewrite concat_app in Hwf.
    destruct (accum_exps lab sizes labels r r s1 ms sh) as (ms1 & E1 & Hh1); auto.
    + apply Hnd; left; reflexivity.
    + intros x Hx; exact Hx.
    + intros p m c Hin; apply (Hwf p m c); apply in_or_app; left; exact Hin.
    + intros e He. left. apply (Hc r e); [left; reflexivity | exact He].
    + rewrite E1. cbn [bind].
      destruct (IH s2 ms1 (sh ++ concat s1)) as (ms2 & E2 & Hh2); auto.
      * intros; apply Hnd; right; assumption.
      * intros; apply (Hc r0); [right|]; assumption.
      * intros p m c Hin; apply (Hwf p m c); apply in_or_app; right; exact Hin.
      * exists ms2. split; [exact E2|]. rewrite concat_app, app_assoc. exact Hh2.
Qed.

Lemma pooled_prepared sizes labels g sh x :
  Forall2 complete_labels sizes labels -> g < length sizes ->
  well_formed_shots (fold_right Nat.add 0 sizes) sh ->
  zsum (map (fun i => pooled sizes g sh (nth i (nth g labels []) []) x) (seq 0 (2 ^ nth g sizes 0)))
  = prepared_shots sizes g sh x.
Proof.
  intros Hl Hg Hwf. unfold pooled, prepared_shots.
  rewrite <- zsum_swap. apply zsum_map_ext. intros [[p m] c] Hin.
  destruct (Hwf p m c Hin) as [[Hp Hbp] [Hm Hbm]].
  pose proof (Forall2_nth_labels _ _ _ Hl Hg) as Hc. pose proof (complete_labels_length _ _ Hc) as Hcl.
  destruct (eqb (group_part sizes g p) x); cbn [andb].
  - rewrite <- Hcl.
    rewrite <- (map_map (fun i => nth i (nth g labels []) []) (fun y => if eqb (group_part sizes g m) y then c else 0%Z)).
    rewrite map_nth_seq. apply (zsum_pick (nth g labels []) (group_part sizes g m) (fun _ => c)).
    + apply Hc.
    + apply Hc. split; [apply group_part_length; auto; congruence | apply group_part_bits; exact Hbm].
  - rewrite zsum_map_zero. reflexivity.
Qed.

Lemma build_matrices_spec lab sizes labels rs sh :
  Forall2 complete_labels sizes labels ->
  data_ok lab (fold_right Nat.add 0 sizes) rs sh ->
  exists ms, build_matrices lab sizes labels rs = Ok ms /\ length ms = length sizes /\
    forall g i j, g < length sizes -> i < 2 ^ nth g sizes 0 -> j < 2 ^ nth g sizes 0 ->
      nth g ms (fun _ _ => 0%Q) i j
      = frequency (pooled sizes g sh (nth i (nth g labels []) []) (nth j (nth g labels []) []))
                  (prepared_shots sizes g sh (nth j (nth g labels []) [])).
Proof.
  intros Hl (Hnd & Hc & ss & Hs & -> & Hwf). unfold build_matrices.
  destruct (accum_results lab sizes labels rs ss (map (fun _ => zero_mat) sizes) []) as (ms & E & Hlen & Hh); auto.
  { split; [apply map_length|]. intros g i j Hg _ _.
    pose proof (map_nth (fun _ : nat => zero_mat) sizes 0 g) as Hn. cbv beta in Hn. rewrite Hn. reflexivity. }
  change (fun _ : nat => (fun _ _ => 0%Z) : zmat) with (fun _ : nat => zero_mat).
  unfold zero_mat in E |- *. rewrite E. cbn [bind]. eexists; split; [reflexivity|].
  rewrite map_length, combine_length, Hlen, Nat.min_id. split; [reflexivity|].
  intros g i j Hg Hi Hj. cbn [app] in Hh.
  set (f := fun sm : nat * zmat => normalise (fst sm) (snd sm)).
  assert (Hn : nth g (map f (combine sizes ms)) (fun _ _ => 0%Q) = normalise (nth g sizes 0) (nth g ms zero_mat)).
  { rewrite nth_indep with (d' := f (0, zero_mat)) by (rewrite map_length, combine_length; lia).
    rewrite map_nth, combine_nth by congruence. reflexivity. }
  rewrite Hn. unfold normalise, frequency.
  assert (Hcs : zcol_sum (2 ^ nth g sizes 0) (nth g ms zero_mat) j
    = prepared_shots sizes g (concat ss) (nth j (nth g labels []) [])).
  { unfold zcol_sum. rewrite <- (pooled_prepared sizes labels) by auto.
    apply zsum_map_ext. intros k Hk. apply in_seq in Hk. apply Hh; auto; lia. }
  rewrite Hcs, Hh by auto. reflexivity.
Qed.

Lemma snapshot_None_add {R} all snap ops (rs : list R) b :
  snapshot all snap ((Some rs, b) :: ops) = if b then snapshot (all ++ rs) (Some (all ++ rs)) ops else snapshot (all ++ rs) snap ops.
Proof. destruct b; reflexivity. Qed.


Lemma run_history_snapshot ops : forall f f',
  run_history f ops = Ok f' ->
  forall snap, match snap with
               | None => ft_cal f = None
               | Some rs => exists ms, ft_cal f = Some ms /\ build_matrices (ft_label f) (ft_sizes f) (ft_labels f) rs = Ok ms
               end ->
  ft_label f' = ft_label f /\ ft_sizes f' = ft_sizes f /\ ft_labels f' = ft_labels f /\
  match snapshot (ft_results f) snap ops with
  | None => ft_cal f' = None
  | Some rs => exists ms, ft_cal f' = Some ms /\ build_matrices (ft_label f) (ft_sizes f) (ft_labels f) rs = Ok ms
  end.
Proof.
  unfold run_history. induction ops as [|[[rs|] b] ops IH]; intros f f' H snap Hs; cbn [foldM fst snd add_data] in H.
  - injection H as <-. cbn. auto.
  - rewrite snapshot_None_add. destruct b.
    + apply bind_Ok in H. destruct H as (f1 & H1 & H). apply bind_Ok in H1. destruct H1 as (ms & Hms & H1).
      injection H1 as <-. eapply (IH _ _ H (Some (ft_results f ++ rs))). cbn. eauto.
    + cbn [bind] in H. eapply (IH _ _ H snap). exact Hs.
  - cbn [bind] in H. exact (IH _ _ H snap Hs).
Qed.

Lemma default_labels_complete (pat : list (list nat)) :
  (forall g, In g pat -> g <> []) ->
  Forall2 complete_labels (map (@length nat) pat) (map count_keys (map (@length nat) pat)).
Proof.
  induction pat as [|g pat IH]; intros H; cbn; constructor.
  - rewrite count_keys_all_bits by (specialize (H g (or_introl eq_refl)); destruct g; [congruence | cbn; lia]).
    split; [apply all_bits_NoDup | intros y; apply all_bits_In].
  - apply IH. intros; apply H; right; assumption.
Qed.

Lemma C08_history_lemma r0 pat sub lab f0' ops f :
  tensored_fitter r0 pat sub lab = Ok f0' -> run_history f0' ops = Ok f ->
  let sizes := map (@length nat) pat in
  let labels := match sub with Some l => l | None => map count_keys sizes end in
  Forall2 complete_labels sizes labels ->
  match snapshot [] None ((r0, true) :: ops) with
  | None => ft_cal f = None
  | Some rs => exists ms, ft_cal f = Some ms /\ length ms = length pat /\
      forall sh, data_ok lab (fold_right Nat.add 0 sizes) rs sh ->
      forall g i j, g < length pat -> i < 2 ^ nth g sizes 0 -> j < 2 ^ nth g sizes 0 ->
        nth g ms (fun _ _ => 0%Q) i j
        = frequency (pooled sizes g sh (nth i (nth g labels []) []) (nth j (nth g labels []) []))
                    (prepared_shots sizes g sh (nth j (nth g labels []) []))
  end.
Proof.
  intros H0 H sizes labels Hl. unfold tensored_fitter in H0. fold sizes in H0.
  assert (Hlab : match sub with Some l => if length sizes =? length l then Ok l else Err ValueError
                 | None => Ok (map count_keys sizes) end = Ok labels).
  { unfold labels in *. destruct sub as [l|]; [|reflexivity]. rewrite (Forall2_len _ _ _ Hl), Nat.eqb_refl. reflexivity. }
  replace (match sub with None => Ok (map count_keys sizes)
           | Some l => if length sizes =? length l then Ok l else Err ValueError end) with (Ok labels) in H0
    by (rewrite <- Hlab; destruct sub; reflexivity).
  cbn [bind] in H0.
  set (fi := {| ft_label := lab; ft_sizes := sizes; ft_labels := labels; ft_results := []; ft_cal := None |}) in *.
  assert (Hrun : run_history fi ((r0, true) :: ops) = Ok f).
  { unfold run_history. cbn [foldM fst snd]. rewrite H0. exact H. }
  pose proof (run_history_snapshot _ _ _ Hrun None eq_refl) as (_ & _ & _ & Hsn).
  cbn [ft_results fi ft_label ft_sizes ft_labels] in Hsn.
  destruct (snapshot [] None ((r0, true) :: ops)) as [rs|]; [|exact Hsn].
  destruct Hsn as (ms & Hms & Hb). exists ms. split; [exact Hms|].
  assert (Hlen : length ms = length pat).
  { unfold build_matrices in Hb. apply bind_Ok in Hb. destruct Hb as (zs & Hz & Hb). injection Hb as <-.
    rewrite map_length, combine_length.
    assert (Hzl : length zs = length sizes); [|unfold sizes in *; rewrite map_length in *; lia].
    assert (Hpres : forall ss is ms p m c e ms', length is = length ss -> length ms = length ss ->
        accum_groups ss is ms p m c e = Ok ms' -> length ms' = length ss).
    { clear. induction ss as [|s ss IH]; intros [|i is] [|x ms] p m c e ms' H1 H2 H; cbn in *; try lia.
      - injection H as <-; reflexivity.
      - apply bind_Ok in H. destruct H as (a & _ & H). apply bind_Ok in H. destruct H as (b & _ & H).
        destruct (_ && _); [|discriminate]. apply bind_Ok in H. destruct H as (r & Hr & H). injection H as <-.
        cbn. f_equal. eapply IH; [| |exact Hr]; lia. }
    assert (Hfold : forall (A : Type) (f : list zmat -> A -> result (list zmat)) l,
       (forall ms a ms', length ms = length sizes -> f ms a = Ok ms' -> length ms' = length sizes) ->
       forall ms ms', length ms = length sizes -> foldM f l ms = Ok ms' -> length ms' = length sizes).
    { clear. intros A f l Hf. induction l as [|a l IH]; intros ms ms' H1 H; cbn in H.
      - injection H as <-; exact H1.
      - apply bind_Ok in H. destruct H as (m1 & Hm1 & H). eapply IH; [|exact H]. eapply Hf; eauto. }
    assert (Hil : length (map indices_of labels) = length sizes) by (rewrite map_length; symmetry; exact (Forall2_len _ _ _ Hl)).
    revert Hz. apply Hfold; [|rewrite map_length; reflexivity].
    intros m1 r m2 Hm1. apply Hfold; [|exact Hm1].
    intros m3 e m4 Hm3. unfold accum_experiment. destruct (prepared_state _ _); [|intros [= <-]; exact Hm3].
    intros Hx. apply bind_Ok in Hx. destruct Hx as (cn & _ & Hx). revert Hx. apply Hfold; [|exact Hm3].
    intros m5 kv m6 Hm5 Hx. eapply Hpres; [exact Hil | exact Hm5 | exact Hx]. }
  split; [exact Hlen|].
  intros sh Hd g i j Hg Hi Hj.
  destruct (build_matrices_spec lab sizes labels rs sh Hl Hd) as (ms' & Hb' & _ & Hspec).
  rewrite Hb in Hb'. injection Hb' as <-. apply Hspec; auto. unfold sizes; rewrite map_length; exact Hg.
Qed.

(** Well-formed data never raises. *)
Lemma C08_no_error_lemma rs pat lab sh :
  (forall g, In g pat -> g <> []) ->
  data_ok lab (fold_right Nat.add 0 (map (@length nat) pat)) rs sh ->
  exists f, tensored_fitter (Some rs) pat None lab = Ok f.
Proof.
  intros Hg Hd. unfold tensored_fitter. cbn [bind add_data ft_results ft_label ft_sizes ft_labels app].
  destruct (build_matrices_spec lab _ _ rs sh (default_labels_complete pat Hg) Hd) as (ms & -> & _).
  eexists; reflexivity.
Qed.

(** ** Columns *)
Lemma qsum_map_div l (f : nat -> Z) (s : Z) : (s <> 0)%Z ->
  (qsum (map (fun i => inject_Z (f i) / inject_Z s)%Q l) == inject_Z (zsum (map f l)) / inject_Z s)%Q.
Proof.
  intros Hs. assert (Hq : ~ (inject_Z s == 0)%Q).
  { unfold Qeq, inject_Z; cbn. lia. }
  induction l as [|a l IH]; cbn [map qsum fold_right zsum].
  - change (inject_Z 0) with 0%Q. field. exact Hq.
  - rewrite IH. rewrite inject_Z_plus. field. exact Hq.
Qed.

Lemma frequency_columns sizes labels g sh x :
  Forall2 complete_labels sizes labels -> g < length sizes ->
  well_formed_shots (fold_right Nat.add 0 sizes) sh ->
  let col i := frequency (pooled sizes g sh (nth i (nth g labels []) []) x) (prepared_shots sizes g sh x) in
  (prepared_shots sizes g sh x <> 0%Z -> (qsum (map col (seq 0%nat (2 ^ nth g sizes 0)%nat)) == 1)%Q) /\
  (prepared_shots sizes g sh x = 0%Z -> forall i, col i = 0%Q) /\
  ((forall p m c, In (p, m, c) sh -> (0 <= c)%Z) -> forall i, (0 <= col i)%Q).
Proof.
  intros Hl Hg Hwf col. split; [|split].
  - intros Hne. unfold col, frequency. destruct (Z.eqb_spec (prepared_shots sizes g sh x) 0) as [|_]; [contradiction|].
    rewrite qsum_map_div by exact Hne.
    rewrite (pooled_prepared sizes labels) by auto.
    assert (~ (inject_Z (prepared_shots sizes g sh x) == 0)%Q) by (unfold Qeq, inject_Z; cbn; lia).
    field. exact H.
  - intros H i. unfold col, frequency. rewrite H. reflexivity.
  - intros Hpos i. unfold col, frequency. destruct (Z.eqb_spec (prepared_shots sizes g sh x) 0) as [|Hne]; [apply Qle_refl|].
    assert (Hnn : forall (f : shot -> Z), (forall s, In s sh -> (0 <= f s)%Z) -> (0 <= zsum (map f sh))%Z).
    { intros f Hf. apply zsum_nonneg. intros z Hz. apply in_map_iff in Hz. destruct Hz as (s & <- & Hs). auto. }
    assert (H1 : (0 <= pooled sizes g sh (nth i (nth g labels []) []) x)%Z).
    { apply Hnn. intros [[p m] c] Hs. specialize (Hpos p m c Hs). destruct (_ && _); lia. }
    assert (H2 : (0 <= prepared_shots sizes g sh x)%Z).
    { apply Hnn. intros [[p m] c] Hs. specialize (Hpos p m c Hs). destruct (eqb _ _); lia. }
    apply Qle_shift_div_l.
    + unfold Qlt, inject_Z; cbn. lia.
    + unfold Qle, inject_Z; cbn. lia.
Qed.

(** ** Order and batching *)
Lemma pooled_perm sizes g sh sh' y x : Permutation sh sh' -> pooled sizes g sh y x = pooled sizes g sh' y x.
Proof. intros H. unfold pooled. apply zsum_perm, Permutation_map, H. Qed.
Lemma prepared_perm sizes g sh sh' x : Permutation sh sh' -> prepared_shots sizes g sh x = prepared_shots sizes g sh' x.
Proof. intros H. unfold prepared_shots. apply zsum_perm, Permutation_map, H. Qed.

Lemma exps_shots_perm lab l l' ss : Permutation l l' -> exps_shots lab l ss ->
  exists ss', exps_shots lab l' ss' /\ Permutation ss ss'.
Proof.
  intros Hp; revert ss. induction Hp as [|e l l' Hp IH|e1 e2 l|l1 l2 l3 H1 IH1 H2 IH2]; intros ss Hs.
  - inversion Hs; subst. exists []; split; constructor.
  - inversion Hs as [|? s ? ss0 He Hr]; subst. destruct (IH _ Hr) as (ss' & Hs' & Hp').
    exists (s :: ss'). split; [constructor; assumption | constructor; assumption].
  - inversion Hs as [|? s ? ss0 He Hr]; subst. inversion Hr as [|? s2 ? ss1 He2 Hr2]; subst.
    exists (s2 :: s :: ss1). split; [repeat constructor; assumption | apply perm_swap].
  - destruct (IH1 _ Hs) as (s2 & Hs2 & Hp2). destruct (IH2 _ Hs2) as (s3 & Hs3 & Hp3).
    exists s3. split; [exact Hs3 | eapply perm_trans; eauto].
Qed.

Lemma concat_perm {A} (l l' : list (list A)) : Permutation l l' -> Permutation (concat l) (concat l').
Proof.
  induction 1; cbn; auto.
  - apply Permutation_app_head; assumption.
  - rewrite !app_assoc. apply Permutation_app_tail, Permutation_app_comm.
  - eapply perm_trans; eauto.
Qed.

Lemma data_ok_perm lab n rs rs' sh :
  data_ok lab n rs sh -> Permutation (concat rs) (concat rs') ->
  (forall r, In r rs' -> NoDup (map e_name r)) ->
  exists sh', data_ok lab n rs' sh' /\ Permutation sh sh'.
Proof.
  intros (Hnd & Hc & ss & Hs & -> & Hwf) Hp Hnd'.
  destruct (exps_shots_perm lab _ _ ss Hp Hs) as (ss' & Hs' & Hp').
  pose proof (concat_perm _ _ Hp') as Hcp.
  exists (concat ss'). split; [|exact Hcp]. split; [exact Hnd'|]. split.
  - intros r e Hr He.
    assert (Hin : In e (concat rs)).
    { eapply Permutation_in; [apply Permutation_sym; exact Hp|]. apply in_concat. exists r; auto. }
    apply in_concat in Hin. destruct Hin as (r' & Hr' & He'). eapply Hc; eauto.
  - exists ss'. split; [exact Hs'|]. split; [reflexivity|].
    intros p m c Hin. apply (Hwf p m c). eapply Permutation_in; [apply Permutation_sym; exact Hcp | exact Hin].
Qed.
