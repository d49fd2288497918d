(** The log files: rotation and their order. *)
From Coq Require Import Sorted.
From Verif Require Import Base PyStr ResultFacts LogModel LogSpec LogTimeProofs LogReadProofs.
Local Open Scope string_scope.
Local Open Scope list_scope.
Local Open Scope nat_scope.

(** ** Names *)
Lemma backup_gen base j : backup base (S j) = generation base (S j).
Proof. reflexivity. Qed.
Lemma gen_inj base i j : generation base i = generation base j -> i = j.
Proof.
  destruct i as [|i], j as [|j]; cbn [generation]; intros E; try reflexivity.
  - apply (f_equal (@length ascii)) in E. rewrite !app_length in E. cbn in E. lia.
  - apply (f_equal (@length ascii)) in E. rewrite !app_length in E. cbn in E. lia.
  - apply app_inv_head in E. cbn [app str list_ascii_of_string] in E. injection E as E. apply dec_inj in E. exact E.
Qed.
Lemma starts_app p s : starts p (p ++ s) = true.
Proof. induction p as [|a p IH]; [reflexivity|]. cbn [app starts]. rewrite eqb_refl. exact IH. Qed.
Lemma starts_self p : starts p p = true.
Proof. rewrite <- (app_nil_r p) at 2. apply starts_app. Qed.
Lemma gen_is_log base j : is_log_file base (generation base j) = true.
Proof.
  unfold is_log_file. destruct j as [|j]; cbn [generation].
  - rewrite starts_self, skipn_all. reflexivity.
  - rewrite starts_app. rewrite skipn_app, skipn_all, Nat.sub_diag. cbn [skipn app andb str list_ascii_of_string].
    assert (H1 : mem "/"%char ("."%char :: dec (S j)) = false).
    { apply mem_not_In. intros [E|HI]; [discriminate|]. revert HI. apply dec_not_digit. reflexivity. }
    rewrite H1. cbn [negb andb]. unfold dollar, suffix_ok at 1. destruct (eqb_spec (dec (S j)) []) as [E|_]; [destruct (dec_nonempty _ E)|].
    replace (forallb is_dec_digit (dec (S j))) with true by (symmetry; apply forallb_forall; intros c Hc; pose proof (dec_digits (S j)) as D; rewrite Forall_forall in D; exact (D c Hc)).
    reflexivity.
Qed.

(** ** Renaming *)
Lemma dget_filter {V} (f : pystr -> bool) (d : dict pystr V) p : dget (filter (fun e => f (fst e)) d) p = if f p then dget d p else None.
Proof.
  induction d as [|[k v] d IH]; [destruct (f p); reflexivity|]. cbn [filter fst]. destruct (f k) eqn:E; cbn [dget]; destruct (eqb_spec p k) as [->|]; rewrite ?E; try reflexivity; try exact IH.
  rewrite IH, E. reflexivity.
Qed.
Lemma NoDup_filter_keys {V} (f : pystr * V -> bool) (d : dict pystr V) : NoDup (dkeys d) -> NoDup (dkeys (filter f d)).
Proof.
  unfold dkeys. induction d as [|[k v] d IH]; [constructor|]. cbn [map filter fst]. intros H. inversion H as [|? ? Hn Hd]; subst.
  destruct (f (k, v)); [|exact (IH Hd)]. cbn [map fst]. constructor; [|exact (IH Hd)]. intros HI. apply Hn. apply in_map_iff in HI. destruct HI as (e & E & HI).
  apply filter_In in HI. apply in_map_iff. exists e. split; [exact E|apply HI].
Qed.
Lemma rename_get fs a b p : a <> b -> dget (f_names (f_rename fs a b)) p =
  match dget (f_names fs) a with
  | Some i => if eqb p b then Some i else if eqb p a then None else dget (f_names fs) p
  | None => dget (f_names fs) p
  end.
Proof.
  intros Hab. unfold f_rename. destruct (dget (f_names fs) a) as [i|] eqn:E; [|reflexivity]. cbn [f_names]. rewrite dget_app.
  rewrite (dget_filter (fun k => negb (eqb k a) && negb (eqb k b)) (f_names fs) p). cbn [dget].
  destruct (eqb_spec p a) as [->|Ha].
  - cbn [negb andb]. destruct (eqb_spec a b); [congruence|]. reflexivity.
  - destruct (eqb_spec p b) as [->|Hb]; cbn [negb andb]; [reflexivity|]. destruct (dget (f_names fs) p); reflexivity.
Qed.
Lemma NoDup_snoc {A} (l : list A) x : NoDup l -> ~ In x l -> NoDup (l ++ [x]).
Proof.
  induction l as [|a l IH]; intros H Hx; cbn [app]; [constructor; [intros []|constructor]|]. inversion H; subst. constructor.
  - rewrite in_app_iff. cbn [In]. intros [HI|[->|[]]]; [contradiction|apply Hx; left; reflexivity].
  - apply IH; [assumption|]. intros HI. apply Hx. right. exact HI.
Qed.
Lemma rename_nodup fs a b : NoDup (dkeys (f_names fs)) -> NoDup (dkeys (f_names (f_rename fs a b))).
Proof.
  intros H. unfold f_rename. destruct (dget (f_names fs) a) as [i|]; [|exact H]. cbn [f_names]. unfold dkeys. rewrite map_app. cbn [map fst].
  apply NoDup_snoc; [apply NoDup_filter_keys, H|]. intros HI. apply in_map_iff in HI. destruct HI as (e & E & HI). apply filter_In in HI. destruct HI as [_ HI].
  apply andb_true_iff in HI. destruct HI as [_ HI]. rewrite E, eqb_refl in HI. discriminate.
Qed.
Lemma rename_rest fs a b : f_data (f_rename fs a b) = f_data fs /\ f_clock (f_rename fs a b) = f_clock fs.
Proof. unfold f_rename. destruct (dget (f_names fs) a); split; reflexivity. Qed.

(** ** Rotation: the generations move up by one *)
Definition look (base : pystr) (fs : fsys) (j : nat) : option nat := dget (f_names fs) (generation base j).
Definition same_others (base : pystr) (fs fs' : fsys) : Prop :=
  (forall p, (exists j, p = generation base j) \/ dget (f_names fs') p = dget (f_names fs) p) /\ f_data fs' = f_data fs /\ f_clock fs' = f_clock fs /\
  (NoDup (dkeys (f_names fs)) -> NoDup (dkeys (f_names fs'))).
Lemma same_refl base fs : same_others base fs fs.
Proof. split; [right; reflexivity|]. repeat split; auto. Qed.
Lemma same_trans base a b c : same_others base a b -> same_others base b c -> same_others base a c.
Proof.
  intros (A & B & C & D) (A' & B' & C' & D'). repeat split; try congruence; [|auto]. intros p. destruct (A' p) as [H| ->]; [left; exact H|apply A].
Qed.
Lemma rename_same base fs i j : generation base i <> generation base j -> same_others base fs (f_rename fs (generation base i) (generation base j)).
Proof.
  intros Hne. destruct (rename_rest fs (generation base i) (generation base j)) as [D C]. repeat split; try assumption; [|apply rename_nodup].
  intros p. rewrite rename_get by exact Hne. destruct (dget (f_names fs) (generation base i)); [|right; reflexivity].
  destruct (eqb_spec p (generation base j)) as [E|_]; [left; exists j; exact E|]. destruct (eqb_spec p (generation base i)) as [E|_]; [left; exists i; exact E|]. right. reflexivity.
Qed.
Lemma gen_neq base i j : i <> j -> generation base i <> generation base j.
Proof. intros H E. apply H, (gen_inj base), E. Qed.
Lemma gen_eqb base i j : eqb (generation base i) (generation base j) = (i =? j).
Proof.
  destruct (Nat.eqb_spec i j) as [->|H]; [apply eqb_refl|]. apply eqb_neq, gen_neq, H.
Qed.
Lemma roll_step_look base fs i : forall j, look base (roll_step base fs (S i)) j =
    match look base fs (S i) with
    | Some x => if j =? S (S i) then Some x else if j =? S i then None else look base fs j
    | None => look base fs j
    end.
Proof.
  intros j. unfold roll_step, f_exists, look. rewrite !backup_gen, dmem_dget.
  destruct (dget (f_names fs) (generation base (S i))) as [x|] eqn:E; [|reflexivity].
  rewrite rename_get by (apply gen_neq; lia). rewrite E, !gen_eqb. reflexivity.
Qed.
Lemma roll_step_same base fs i : same_others base fs (roll_step base fs (S i)).
Proof.
  unfold roll_step. rewrite !backup_gen. destruct (f_exists fs (generation base (S i))); [|apply same_refl]. apply rename_same, gen_neq. lia.
Qed.
Lemma roll_loop base n : forall fs, (forall i, 1 <= i <= n -> look base fs i = None -> look base fs (S i) = None) ->
  let fs' := fold_left (roll_step base) (rev (seq 1 n)) fs in
  same_others base fs fs' /\
  forall j, look base fs' j = if (2 <=? j) && (j <=? S n) then look base fs (j - 1) else if (j =? 1) && (1 <=? n) then None else look base fs j.
Proof.
  induction n as [|n IH]; intros fs H; cbn zeta.
  - cbn [seq rev fold_left]. split; [apply same_refl|]. intros j. destruct (Nat.leb_spec 2 j), (Nat.leb_spec j 1); cbn [andb]; try lia; rewrite ?andb_false_r; reflexivity.
  - rewrite seq_S, rev_app_distr. cbn [rev app fold_left]. change (1 + n) with (S n). set (fs1 := roll_step base fs (S n)).
    pose proof (roll_step_look base fs n) as L1. fold fs1 in L1.
    assert (N1 : look base fs1 (S n) = None).
    { rewrite L1. destruct (look base fs (S n)) eqn:E; [|reflexivity]. replace (S n =? S (S n)) with false by (symmetry; apply Nat.eqb_neq; lia). rewrite Nat.eqb_refl. reflexivity. }
    assert (U1 : forall i, i <= n -> look base fs1 i = look base fs i).
    { intros i Hi. rewrite L1. destruct (look base fs (S n)); [|reflexivity]. replace (i =? S (S n)) with false by (symmetry; apply Nat.eqb_neq; lia).
      replace (i =? S n) with false by (symmetry; apply Nat.eqb_neq; lia). reflexivity. }
    assert (M1 : look base fs1 (S (S n)) = look base fs (S n)).
    { rewrite L1. destruct (look base fs (S n)) eqn:E; [rewrite Nat.eqb_refl; reflexivity|]. apply H; [lia|exact E]. }
    assert (V1 : forall j, S (S n) < j -> look base fs1 j = look base fs j).
    { intros j Hj. rewrite L1. destruct (look base fs (S n)); [|reflexivity]. replace (j =? S (S n)) with false by (symmetry; apply Nat.eqb_neq; lia).
      replace (j =? S n) with false by (symmetry; apply Nat.eqb_neq; lia). reflexivity. }
    destruct (IH fs1) as [S2 L2].
    { intros i Hi E. destruct (Nat.eq_dec i n) as [->|Hne]; [exact N1|]. rewrite U1 in E by lia. rewrite U1 by lia. apply H; [lia|exact E]. }
    split; [eapply same_trans; [apply roll_step_same|exact S2]|]. intros j. rewrite L2.
    destruct (Nat.leb_spec 2 j) as [H2|H2]; cbn [andb].
    + destruct (Nat.leb_spec j (S n)) as [H3|H3].
      * replace (j <=? S (S n)) with true by (symmetry; apply Nat.leb_le; lia). apply U1. lia.
      * replace (j =? 1) with false by (symmetry; apply Nat.eqb_neq; lia). cbn [andb]. destruct (Nat.leb_spec j (S (S n))) as [H4|H4]; [|apply V1; lia].
        replace j with (S (S n)) by lia. rewrite M1. f_equal.
    + destruct (Nat.eqb_spec j 1) as [->|H3]; cbn [andb].
      * destruct n as [|n]; [cbn [Nat.leb]; exact N1|reflexivity].
      * apply U1. lia.
Qed.

(** ** States *)
(** The generations, newest first: the file and its entries. *)
Record good (base : pystr) (fs : fsys) (gens : list (nat * list entry)) : Prop := {
  g_nodup : NoDup (dkeys (f_names fs));
  g_look : forall j, look base fs j = option_map fst (nth_error gens j);
  g_only : forall p, is_log_file base p = true -> dget (f_names fs) p <> None -> exists j, p = generation base j;
  g_content : Forall (fun g => f_content fs (fst g) = file_of (snd g)) gens;
  g_clock : Forall (fun g => fst g < f_clock fs /\ f_mtime fs (fst g) < f_clock fs) gens;
  g_times : StronglySorted (fun g h => f_mtime fs (fst h) < f_mtime fs (fst g)) gens }.

Lemma good_empty base fs : NoDup (dkeys (f_names fs)) -> (forall p, is_log_file base p = true -> ~ In p (dkeys (f_names fs))) -> good base fs [].
Proof.
  intros Hn H. constructor; try constructor; try exact Hn.
  - intros j. unfold look. rewrite (proj2 (dget_None _ _) (H _ (gen_is_log base j))). destruct j; reflexivity.
  - intros p Hp E. destruct E. apply dget_None, H, Hp.
Qed.
Lemma sorted_in {A} (R R' : A -> A -> Prop) l : (forall x y, In x l -> In y l -> R x y -> R' x y) -> StronglySorted R l -> StronglySorted R' l.
Proof.
  intros H S. induction S as [|a l S IH Hf]; [constructor|]. constructor.
  - apply IH. intros x y Hx Hy. apply H; right; assumption.
  - rewrite Forall_forall in *. intros x Hx. apply H; [left; reflexivity|right; exact Hx|apply Hf, Hx].
Qed.

(** A new newest generation, when the path is free and the others have moved. *)
Lemma open_new base fs gens : NoDup (dkeys (f_names fs)) -> look base fs 0 = None -> (forall j, look base fs (S j) = option_map fst (nth_error gens j)) ->
  (forall p, is_log_file base p = true -> dget (f_names fs) p <> None -> exists j, p = generation base j) ->
  Forall (fun g => f_content fs (fst g) = file_of (snd g)) gens -> Forall (fun g => fst g < f_clock fs /\ f_mtime fs (fst g) < f_clock fs) gens ->
  StronglySorted (fun g h => f_mtime fs (fst h) < f_mtime fs (fst g)) gens ->
  exists fs' i, f_open fs base = (fs', i) /\ good base fs' ((i, []) :: gens).
Proof.
  intros Hn H0 Hl Ho Hc Hk Ht. unfold f_open. unfold look in H0. cbn [generation] in H0. rewrite H0. eexists _, _. split; [reflexivity|].
  set (c := f_clock fs).
  assert (Hne : forall g, In g gens -> fst g <> c) by (intros g Hg; rewrite Forall_forall in Hk; destruct (Hk g Hg); subst c; lia).
  assert (Hmt : forall g, In g gens -> f_mtime {| f_names := dset (f_names fs) base c; f_data := dset (f_data fs) c (c, []); f_clock := S c |} (fst g) = f_mtime fs (fst g)).
  { intros g Hg. unfold f_mtime. cbn [f_data]. rewrite dget_dset. destruct (eqb_spec (fst g) c); [destruct (Hne g Hg); assumption|reflexivity]. }
  assert (Hmc : f_mtime {| f_names := dset (f_names fs) base c; f_data := dset (f_data fs) c (c, []); f_clock := S c |} c = c).
  { unfold f_mtime. cbn [f_data]. rewrite dget_dset, eqb_refl. reflexivity. }
  constructor.
  - cbn [f_names]. apply NoDup_dset, Hn.
  - intros j. unfold look. cbn [f_names]. rewrite dget_dset. destruct j as [|j].
    + cbn [generation nth_error option_map fst]. rewrite eqb_refl. reflexivity.
    + change base with (generation base 0) at 2. rewrite gen_eqb. cbn [Nat.eqb nth_error]. apply Hl.
  - intros p Hp. cbn [f_names]. rewrite dget_dset. destruct (eqb_spec p base) as [->|_]; [intros _; exists 0; reflexivity|]. apply Ho, Hp.
  - constructor; [unfold f_content; cbn [f_data fst snd]; rewrite dget_dset, eqb_refl; reflexivity|]. apply Forall_forall. intros g Hg. rewrite Forall_forall in Hc.
    rewrite <- (Hc g Hg). unfold f_content. cbn [f_data]. rewrite dget_dset. destruct (eqb_spec (fst g) c); [destruct (Hne g Hg); assumption|reflexivity].
  - constructor; [cbn [fst f_clock]; rewrite Hmc; lia|]. apply Forall_forall. intros g Hg. rewrite Hmt by exact Hg. cbn [f_clock]. rewrite Forall_forall in Hk. destruct (Hk g Hg). subst c. lia.
  - constructor.
    + eapply sorted_in; [|exact Ht]. cbn beta. intros g h Hg Hh. rewrite !Hmt by assumption. trivial.
    + apply Forall_forall. intros g Hg. cbn [fst]. rewrite Hmc, Hmt by exact Hg. rewrite Forall_forall in Hk. destruct (Hk g Hg). subst c. lia.
Qed.

Lemma open_ok base fs gens : good base fs gens ->
  exists fs' i, f_open fs base = (fs', i) /\ match gens with [] => good base fs' [(i, [])] | g :: _ => i = fst g /\ fs' = fs end.
Proof.
  intros G. destruct gens as [|g gens].
  - destruct G as [Hn Hl Ho Hc Hk Ht]. destruct (open_new base fs []) as (fs' & i & E & G'); try assumption.
    + apply (Hl 0).
    + intros j. rewrite (Hl (S j)). destruct j; reflexivity.
    + exists fs', i. split; assumption.
  - pose proof (g_look _ _ _ G 0) as E. unfold look in E. cbn in E. unfold f_open. rewrite E. eexists _, _. split; [reflexivity|]. split; reflexivity.
Qed.
Lemma good_distinct base fs i es gens : good base fs ((i, es) :: gens) -> forall g, In g gens -> fst g <> i.
Proof.
  intros G g Hg E. pose proof (g_times _ _ _ G) as S. inversion S as [|? ? _ Hf]; subst. rewrite Forall_forall in Hf. specialize (Hf g Hg). cbn [fst] in Hf. lia.
Qed.
Lemma write_ok base fs i es gens e : good base fs ((i, es) :: gens) -> good base (f_write fs i (line_of e)) ((i, es ++ [e]) :: gens).
Proof.
  intros G. pose proof (good_distinct _ _ _ _ _ G) as Hd. destruct G as [Hn Hl Ho Hc Hk Ht].
  assert (Hmt : forall g, In g gens -> f_mtime (f_write fs i (line_of e)) (fst g) = f_mtime fs (fst g)).
  { intros g Hg. unfold f_mtime, f_write. cbn [f_data]. rewrite dget_dset. destruct (eqb_spec (fst g) i); [destruct (Hd g Hg); assumption|reflexivity]. }
  assert (Hmi : f_mtime (f_write fs i (line_of e)) i = f_clock fs) by (unfold f_mtime, f_write; cbn [f_data]; rewrite dget_dset, eqb_refl; reflexivity).
  constructor.
  - exact Hn.
  - intros j. change (look base (f_write fs i (line_of e)) j) with (look base fs j). rewrite Hl. destruct j; reflexivity.
  - exact Ho.
  - inversion Hc as [|? ? Hc1 Hc2]; subst. cbn [fst snd] in Hc1. constructor.
    + cbn [fst snd]. unfold f_content at 1, f_write. cbn [f_data]. rewrite dget_dset, eqb_refl, Hc1. unfold file_of. rewrite map_app, concat_app. cbn [map concat]. rewrite app_nil_r. reflexivity.
    + apply Forall_forall. intros g Hg. rewrite Forall_forall in Hc2. rewrite <- (Hc2 g Hg). unfold f_content at 1, f_write. cbn [f_data]. rewrite dget_dset.
      destruct (eqb_spec (fst g) i); [destruct (Hd g Hg); assumption|reflexivity].
  - inversion Hk as [|? ? Hk1 Hk2]; subst. cbn [fst] in Hk1. constructor; [cbn [fst]; rewrite Hmi; unfold f_write; cbn [f_clock]; lia|]. apply Forall_forall. intros g Hg.
    rewrite Hmt by exact Hg. rewrite Forall_forall in Hk2. destruct (Hk2 g Hg). unfold f_write. cbn [f_clock]. lia.
  - inversion Ht as [|? ? Ht1 Ht2]; subst. inversion Hk as [|? ? Hk1 Hk2]; subst. constructor.
    + eapply sorted_in; [|exact Ht1]. cbn beta. intros g h Hg Hh. rewrite !Hmt by assumption. trivial.
    + apply Forall_forall. intros g Hg. cbn [fst]. rewrite Hmi, Hmt by exact Hg. rewrite Forall_forall in Hk2. destruct (Hk2 g Hg). lia.
Qed.

Lemma nth_error_firstn {A} (l : list A) n j : nth_error (firstn n l) j = if j <? n then nth_error l j else None.
Proof.
  revert n j. induction l as [|a l IH]; intros n j; [rewrite firstn_nil; destruct (j <? n), j; reflexivity|].
  destruct n as [|n]; [destruct j; reflexivity|]. destruct j as [|j]; [reflexivity|]. cbn [firstn nth_error]. rewrite IH. reflexivity.
Qed.
Lemma firstn_In {A} n (l : list A) x : In x (firstn n l) -> In x l.
Proof. intros H. rewrite <- (firstn_skipn n l). apply in_app_iff. left. exact H. Qed.
Lemma sorted_firstn {A} (R : A -> A -> Prop) n l : StronglySorted R l -> StronglySorted R (firstn n l).
Proof.
  intros S. revert n. induction S as [|a l S IH Hf]; intros n; [rewrite firstn_nil; constructor|]. destruct n as [|n]; [constructor|]. cbn [firstn]. constructor; [apply IH|].
  apply Forall_forall. intros x Hx. rewrite Forall_forall in Hf. apply Hf, (firstn_In n), Hx.
Qed.
Lemma rollover_ok base count fs gens : 0 < count -> good base fs gens -> length gens <= S count ->
  exists fs' i, rollover base count fs = (fs', i) /\ good base fs' ((i, []) :: firstn count gens).
Proof.
  intros Hc G Hlen. destruct G as [Hn Hl Ho Hct Hk Ht]. unfold rollover. destruct (Nat.eqb_spec count 0) as [|_]; [lia|].
  destruct (roll_loop base (count - 1) fs) as [S1 L1].
  { intros i Hi E. rewrite Hl in *. destruct (nth_error gens i) as [g|] eqn:E1; [discriminate|]. apply nth_error_None in E1. rewrite (proj2 (nth_error_None gens (S i))) by lia. reflexivity. }
  set (fs1 := fold_left (roll_step base) (rev (seq 1 (count - 1))) fs) in *. change (backup base 1) with (generation base 1).
  change (f_rename fs1 base (generation base 1)) with (f_rename fs1 (generation base 0) (generation base 1)).
  assert (Hne : generation base 0 <> generation base 1) by (apply gen_neq; lia).
  assert (S2 : same_others base fs (f_rename fs1 (generation base 0) (generation base 1))) by (eapply same_trans; [exact S1|apply rename_same, Hne]).
  set (fs2 := f_rename fs1 (generation base 0) (generation base 1)) in *.
  assert (L10 : look base fs1 0 = option_map fst (nth_error gens 0)) by (rewrite L1; cbn [Nat.leb andb Nat.eqb]; apply Hl).
  assert (L2 : forall j, look base fs2 j = match j with 0 => None | S j' => option_map fst (nth_error (firstn count gens) j') end).
  { intros j. unfold look at 1, fs2. rewrite rename_get by exact Hne. fold (look base fs1 0) (look base fs1 j). rewrite L10, !gen_eqb.
    destruct gens as [|g0 gens].
    - cbn [nth_error option_map]. rewrite firstn_nil. rewrite L1. rewrite !Hl. destruct j as [|j]; [reflexivity|].
      replace (nth_error [] j) with (@None (nat * list entry)) by (destruct j; reflexivity). destruct (_ && _); [|destruct (_ && _)]; try reflexivity; cbn [nth_error]; try (destruct (S j - 1)); reflexivity.
    - cbn [nth_error option_map]. destruct j as [|[|j]]; cbn [Nat.eqb]; [reflexivity| |].
      + destruct count; [lia|]. reflexivity.
      + rewrite L1, !Hl, nth_error_firstn. replace (S (S j) - 1) with (S j) by lia. replace (2 <=? S (S j)) with true by reflexivity. replace (S (S j) =? 1) with false by reflexivity. cbn [andb].
        destruct (Nat.leb_spec (S (S j)) (S (count - 1))) as [H1|H1]; destruct (Nat.ltb_spec (S j) count) as [H2|H2]; try lia; [reflexivity|].
        rewrite (proj2 (nth_error_None _ _)); [reflexivity|]. cbn [length] in *. lia. }
  destruct S2 as (So & Sd & Sc & Sn).
  assert (Hfc : forall i, f_content fs2 i = f_content fs i) by (intros i; unfold f_content; rewrite Sd; reflexivity).
  assert (Hfm : forall i, f_mtime fs2 i = f_mtime fs i) by (intros i; unfold f_mtime; rewrite Sd; reflexivity).
  apply open_new.
  - apply Sn, Hn.
  - apply (L2 0).
  - intros j. apply (L2 (S j)).
  - intros p Hp Hne2. destruct (So p) as [H|H]; [exact H|]. rewrite H in Hne2. apply Ho; assumption.
  - apply Forall_forall. intros g Hg. rewrite Hfc. rewrite Forall_forall in Hct. apply Hct, (firstn_In count), Hg.
  - apply Forall_forall. intros g Hg. rewrite Hfm, Sc. rewrite Forall_forall in Hk. apply Hk, (firstn_In count), Hg.
  - eapply sorted_in; [|apply sorted_firstn, Ht]. cbn beta. intros g h _ _. rewrite !Hfm. trivial.
Qed.

(** ** Listing *)
Section Sorting.
Variable key : nat -> nat.
Let le (x y : pystr * nat) : Prop := key (snd x) <= key (snd y).
Let lt (x y : pystr * nat) : Prop := key (snd x) < key (snd y).
Lemma insert_perm e l : Permutation (insert_by key e l) (e :: l).
Proof.
  induction l as [|a l IH]; [reflexivity|]. cbn [insert_by]. destruct (_ <? _); [reflexivity|]. etransitivity; [apply perm_skip, IH|apply perm_swap].
Qed.
Lemma insert_sorted e l : StronglySorted le l -> StronglySorted le (insert_by key e l).
Proof.
  induction 1 as [|a l S IH Hf]; [repeat constructor|]. cbn [insert_by]. destruct (Nat.ltb_spec (key (snd e)) (key (snd a))) as [H|H].
  - constructor; [constructor; assumption|]. constructor; [unfold le; lia|]. eapply Forall_impl; [|exact Hf]. unfold le. intros x Hx. lia.
  - constructor; [exact IH|]. apply Forall_forall. intros x Hx. apply (Permutation_in _ (insert_perm e l)) in Hx. destruct Hx as [<-|Hx]; [exact H|].
    rewrite Forall_forall in Hf. apply Hf, Hx.
Qed.
Lemma sort_by_ok l : Permutation (sort_by key l) l /\ StronglySorted le (sort_by key l).
Proof.
  unfold sort_by. assert (A : forall acc, StronglySorted le acc -> Permutation (fold_left (fun acc e => insert_by key e acc) l acc) (l ++ acc) /\ StronglySorted le (fold_left (fun acc e => insert_by key e acc) l acc)).
  { induction l as [|e l IH]; intros acc S; [split; [reflexivity|exact S]|]. cbn [fold_left app]. destruct (IH (insert_by key e acc) (insert_sorted e acc S)) as [P S']. split; [|exact S'].
    etransitivity; [exact P|]. etransitivity; [apply Permutation_app_head, insert_perm|]. symmetry. apply Permutation_middle. }
  destruct (A [] ltac:(constructor)) as [P S]. rewrite app_nil_r in P. split; assumption.
Qed.
Lemma sorted_unique l : forall l', StronglySorted le l -> StronglySorted lt l' -> Permutation l l' -> l = l'.
Proof.
  induction l as [|a l IH]; intros l' S S' P; [symmetry; apply Permutation_nil, P|]. destruct l' as [|b l']; [destruct (Permutation_nil_cons (Permutation_sym P))|].
  inversion S as [|? ? Sl Hf]; subst. inversion S' as [|? ? Sl' Hf']; subst. rewrite Forall_forall in Hf, Hf'.
  assert (E : a = b).
  { pose proof (Permutation_in a P ltac:(left; reflexivity)) as Ha. pose proof (Permutation_in b (Permutation_sym P) ltac:(left; reflexivity)) as Hb.
    destruct Ha as [|Ha]; [congruence|]. destruct Hb as [|Hb]; [congruence|]. specialize (Hf b Hb). specialize (Hf' a Ha). unfold le, lt in *. lia. }
  subst b. f_equal. apply IH; [assumption|assumption|]. eapply Permutation_cons_inv, P.
Qed.
Lemma sort_by_unique l l' : Permutation l l' -> StronglySorted lt l' -> sort_by key l = l'.
Proof. intros P S. destruct (sort_by_ok l) as [P1 S1]. apply sorted_unique; [exact S1|exact S|]. etransitivity; [exact P1|exact P]. Qed.
End Sorting.

Lemma sorted_rev {A} (R : A -> A -> Prop) l : StronglySorted R l -> StronglySorted (fun x y => R y x) (rev l).
Proof.
  assert (App : forall (Q : A -> A -> Prop) l1 l2, StronglySorted Q l1 -> StronglySorted Q l2 -> (forall x y, In x l1 -> In y l2 -> Q x y) -> StronglySorted Q (l1 ++ l2)).
  { intros Q l1 l2 S1 S2. induction S1 as [|a l1 S1 IH Hf]; intros H; [exact S2|]. cbn [app]. constructor; [apply IH; intros x y Hx Hy; apply H; [right|]; assumption|].
    apply Forall_app. split; [exact Hf|]. apply Forall_forall. intros y Hy. apply H; [left; reflexivity|exact Hy]. }
  induction 1 as [|a l S IH Hf]; [constructor|]. cbn [rev]. apply App; [exact IH|repeat constructor|]. intros x y Hx [<-|[]]. rewrite Forall_forall in Hf. apply Hf, in_rev, Hx.
Qed.
(** The listed files, oldest first. *)
Definition listed (base : pystr) (gens : list (nat * list entry)) : list (pystr * nat) :=
  rev (map (fun j => (generation base j, fst (nth j gens (0, [])))) (seq 0 (length gens))).
Lemma seq_sorted {A} (f : nat -> A) (R : A -> A -> Prop) n : forall a, (forall i j, a <= i -> i < j -> j < a + n -> R (f i) (f j)) -> StronglySorted R (map f (seq a n)).
Proof.
  induction n as [|n IH]; intros a H; [constructor|]. cbn [seq map]. constructor; [apply IH; intros i j Hi Hij Hj; apply H; lia|].
  apply Forall_map, Forall_forall. intros j Hj. apply in_seq in Hj. apply H; lia.
Qed.
Lemma sorted_nth {A} (R : A -> A -> Prop) l d : StronglySorted R l -> forall i j, i < j -> j < length l -> R (nth i l d) (nth j l d).
Proof.
  induction 1 as [|a l S IH Hf]; intros i j Hij Hj; [cbn in Hj; lia|]. destruct j as [|j]; [lia|]. cbn [length] in Hj. destruct i as [|i]; cbn [nth].
  - rewrite Forall_forall in Hf. apply Hf, nth_In. lia.
  - apply IH; lia.
Qed.
Lemma list_files base fs gens : good base fs gens -> get_log_files base fs = listed base gens.
Proof.
  intros G. pose proof G as [Hn Hl Ho Hc Hk Ht]. unfold get_log_files. apply sort_by_unique.
  - apply NoDup_Permutation.
    + pose proof (NoDup_filter_keys (fun e => is_log_file base (fst e)) (f_names fs) Hn) as H. exact (NoDup_map_inv _ _ H).
    + unfold listed. apply NoDup_rev. apply (NoDup_map_inv fst). rewrite map_map. cbn [fst].
      assert (A : forall l, NoDup l -> NoDup (map (generation base) l)).
      { intros l. induction 1 as [|x l Hx _ IH]; [constructor|]. cbn [map]. constructor; [|exact IH]. intros HI. apply in_map_iff in HI. destruct HI as (y & E & Hy). apply gen_inj in E. subst y. contradiction. }
      apply A, seq_NoDup.
    + intros [p i]. unfold listed. rewrite <- in_rev, filter_In, in_map_iff. cbn [fst]. split.
      * intros [HI Hp]. apply dget_In_NoDup in HI; [|exact Hn]. destruct (Ho p Hp ltac:(congruence)) as [j ->]. pose proof (Hl j) as E. unfold look in E. rewrite HI in E.
        destruct (nth_error gens j) as [g|] eqn:Eg; [|discriminate]. cbn in E. injection E as ->. exists j. split; [rewrite (nth_error_nth _ _ _ Eg); reflexivity|].
        apply in_seq. split; [lia|]. apply nth_error_Some. rewrite Eg. discriminate.
      * intros (j & E & Hj). injection E as <- <-. apply in_seq in Hj. split; [|apply gen_is_log]. apply dget_Some_In. pose proof (Hl j) as E. unfold look in E. rewrite E.
        rewrite (nth_error_nth' gens (0, [])) by lia. reflexivity.
  - unfold listed. apply (sorted_rev (fun x y : pystr * nat => f_mtime fs (snd y) < f_mtime fs (snd x))). apply seq_sorted. intros i j _ Hij Hj. cbn [snd].
    apply (sorted_nth _ _ _ Ht); lia.
Qed.
Lemma listed_contents base fs gens : good base fs gens -> map (fun e => f_content fs (snd e)) (get_log_files base fs) = map file_of (rev (map snd gens)).
Proof.
  intros G. rewrite (list_files _ _ _ G). unfold listed. rewrite map_rev, map_rev. f_equal. rewrite !map_map. cbn [snd].
  pose proof (g_content _ _ _ G) as Hc. rewrite Forall_forall in Hc.
  transitivity (map (fun j => file_of (snd (nth j gens (0, [])))) (seq 0 (length gens))).
  - apply map_ext_in. intros j Hj. apply in_seq in Hj. apply Hc, nth_In. lia.
  - clear. rewrite <- (map_map (fun j => nth j gens (0, [])) (fun g => file_of (snd g))). f_equal.
    induction gens as [|g gens IH]; [reflexivity|]. cbn [length seq map nth]. f_equal. rewrite <- seq_shift, map_map. exact IH.
Qed.
