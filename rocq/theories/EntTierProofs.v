(** The tiers of a coupling map (C41). *)
From Coq Require Import QArith Lqa Permutation.
From Verif Require Import LinAlg Base CountsModel ResultFacts EntModel EntSpec.
Open Scope nat_scope.

(** ** The dictionary of neighbours *)
Lemma insert_stable_perm {A} (le : A -> A -> bool) a l : Permutation (a :: l) (insert_stable le a l).
Proof. induction l as [|b l IH]; [reflexivity|]. cbn. destruct (le a b); [reflexivity|]. rewrite perm_swap. constructor. exact IH. Qed.
Lemma stable_sort_perm {A} (le : A -> A -> bool) l : Permutation l (stable_sort le l).
Proof. induction l as [|a l IH]; [reflexivity|]. cbn. rewrite <- insert_stable_perm. constructor. exact IH. Qed.

Lemma calib_in cmap a b : In (a, b) (cmap_calib cmap) <-> coupled cmap a b.
Proof.
  unfold cmap_calib, coupled. split; intros H.
  - eapply Permutation_in in H; [|symmetry; apply stable_sort_perm]. apply in_app_iff in H. destruct H as [H|H]; [auto|]. apply in_flat_map in H. destruct H as ([x y] & H1 & H2). cbn [fst snd] in H2.
    destruct (mem (y, x) cmap); [destruct H2|]. destruct H2 as [E|[]]. injection E as <- <-. auto.
  - eapply Permutation_in; [apply stable_sort_perm|]. apply in_app_iff. destruct H as [H|H]; [auto|]. destruct (mem (a, b) cmap) eqn:E; [left; apply mem_In, E|]. right. apply in_flat_map. exists (b, a). split; [exact H|]. cbn [fst snd]. rewrite E. left. reflexivity.
Qed.
Lemma calib_nodup cmap : NoDup cmap -> NoDup (cmap_calib cmap).
Proof.
  intros H. eapply Permutation_NoDup; [apply stable_sort_perm|].
  set (g := fun a : nat * nat => if mem (snd a, fst a) cmap then [] else [(snd a, fst a)]).
  assert (Hg : forall l, NoDup l -> NoDup (flat_map g l)).
  { induction l as [|a l IH]; intros Hl; [constructor|]. apply NoDup_cons_iff in Hl. destruct Hl as [Ha Hl]. cbn [flat_map]. unfold g at 1. destruct (mem (snd a, fst a) cmap); [exact (IH Hl)|].
    cbn. constructor; [|exact (IH Hl)]. intros Hin. apply in_flat_map in Hin. destruct Hin as (b & Hb & Hin). unfold g in Hin. destruct (mem (snd b, fst b) cmap); [destruct Hin|]. destruct Hin as [E|[]]. destruct a, b. cbn in E. injection E as -> ->. contradiction. }
  assert (D : forall l : list (nat * nat), (forall x, In x l -> ~ In x cmap) -> NoDup l -> NoDup (cmap ++ l)).
  { clear Hg. revert H. generalize cmap as c. clear. induction c as [|a c IH]; intros Hc l Hd Hl; [exact Hl|]. apply NoDup_cons_iff in Hc. cbn. constructor.
    - rewrite in_app_iff. intros [Hi|Hi]; [tauto|]. apply (Hd a Hi). left. reflexivity.
    - apply IH; try tauto. intros x Hx Hi. apply (Hd x Hx). right. exact Hi. }
  apply D; [|apply Hg, H]. intros x Hx Hin. apply in_flat_map in Hx. destruct Hx as (a & Ha & Hx). unfold g in Hx. destruct (mem (snd a, fst a) cmap) eqn:E; [destruct Hx|]. destruct Hx as [<-|[]]. apply mem_not_In in E. contradiction.
Qed.

Lemma empty_nodes (cal : list (nat * nat)) : forall d : list (nat * list nat), NoDup (dkeys d) -> (forall v l, dget d v = Some l -> l = []) ->
  let d' := fold_left (fun d a => dset d (fst a) []) cal d in
  NoDup (dkeys d') /\ (forall v l, dget d' v = Some l -> l = []) /\ (forall v, In v (dkeys d') <-> In v (dkeys d) \/ In v (map fst cal)).
Proof.
  induction cal as [|a cal IH]; intros d Hd He; cbn [fold_left map In].
  - split; [exact Hd|]. split; [exact He|]. intros v. tauto.
  - destruct (IH (dset d (fst a) [])) as (H1 & H2 & H3).
    + apply NoDup_dset, Hd.
    + intros v l. rewrite dget_dset. destruct (eqb v (fst a)); [congruence|apply He].
    + split; [exact H1|]. split; [exact H2|]. intros v. rewrite H3, In_dkeys_dset. intuition (subst; auto).
Qed.
Lemma fill_nodes (cal : list (nat * nat)) : forall d : list (nat * list nat), (forall a, In a cal -> In (fst a) (dkeys d)) ->
  let d' := fold_left (fun d a => dset d (fst a) (match dget d (fst a) with Some l => l ++ [snd a] | None => [snd a] end)) cal d in
  dkeys d' = dkeys d /\ (forall v l, dget d v = Some l -> dget d' v = Some (l ++ map snd (filter (fun a => fst a =? v) cal))).
Proof.
  induction cal as [|a cal IH]; intros d Hd; cbn [fold_left].
  - split; [reflexivity|]. intros v l H. cbn. rewrite app_nil_r. exact H.
  - assert (Ha : In (fst a) (dkeys d)) by (apply Hd; left; reflexivity).
    destruct (IH (dset d (fst a) (match dget d (fst a) with Some l => l ++ [snd a] | None => [snd a] end))) as (H1 & H2).
    + intros b Hb. rewrite dkeys_dset_In by exact Ha. apply Hd. right. exact Hb.
    + split; [rewrite H1; apply dkeys_dset_In, Ha|]. intros v l Hv. specialize (H2 v). rewrite dget_dset in H2. cbn [filter].
      destruct (eqb_spec v (fst a)) as [Ev|Hn].
      * rewrite <- Ev in *. rewrite Hv in H2 |- *. rewrite (H2 _ eq_refl), Nat.eqb_refl. cbn [map]. rewrite <- app_assoc. reflexivity.
      * rewrite (H2 _ Hv). destruct (Nat.eqb_spec (fst a) v); [congruence|reflexivity].
Qed.
Lemma nodup_filter {A} (P : A -> bool) l : NoDup l -> NoDup (filter P l).
Proof. apply NoDup_filter. Qed.
Lemma nodup_children cal v : NoDup cal -> NoDup (map (@snd nat nat) (filter (fun a => fst a =? v) cal)).
Proof.
  induction cal as [|[a b] cal IH]; intros H; [constructor|]. apply NoDup_cons_iff in H. destruct H as [Ha H]. cbn. destruct (Nat.eqb_spec a v) as [->|]; [|apply IH, H]. cbn. constructor; [|apply IH, H].
  intros Hin. apply in_map_iff in Hin. destruct Hin as ([x y] & E & Hin). apply filter_In in Hin. destruct Hin as [Hin Ex]. cbn in *. apply Nat.eqb_eq in Ex. subst. contradiction.
Qed.
Lemma nodes_spec cmap : NoDup (dkeys (nodes_of cmap)) /\
  (forall v, In v (dkeys (nodes_of cmap)) <-> exists b, coupled cmap v b) /\
  (forall v, In v (dkeys (nodes_of cmap)) -> exists l, dget (nodes_of cmap) v = Some l /\ (NoDup cmap -> NoDup l) /\ forall b, In b l <-> coupled cmap v b).
Proof.
  unfold nodes_of. set (cal := cmap_calib cmap). destruct (empty_nodes cal []) as (E1 & E2 & E3); [constructor|discriminate|]. set (d0 := fold_left (fun d a => dset d (fst a) []) cal []) in *.
  destruct (fill_nodes cal d0) as (F1 & F2). { intros a Ha. apply E3. right. apply in_map, Ha. }
  rewrite F1. split; [exact E1|]. split.
  - intros v. rewrite E3. split.
    + intros [[]|H]. apply in_map_iff in H. destruct H as ([a b] & <- & H). exists b. apply calib_in, H.
    + intros [b H]. right. apply calib_in in H. apply (in_map fst) in H. exact H.
  - intros v Hv. destruct (dget d0 v) as [l|] eqn:El; [|apply dget_None in El; contradiction]. rewrite (E2 v l El) in El. exists (map snd (filter (fun a => fst a =? v) cal)). split; [apply (F2 v [] El)|]. split.
    + intros Hn. apply nodup_children, calib_nodup, Hn.
    + intros b. rewrite <- calib_in. fold cal. rewrite in_map_iff. split.
      * intros ([x y] & E & H). apply filter_In in H. destruct H as [H Ex]. cbn in *. apply Nat.eqb_eq in Ex. subst. exact H.
      * intros H. exists (v, b). split; [reflexivity|]. apply filter_In. split; [exact H|]. cbn. apply Nat.eqb_refl.
Qed.
Lemma coupled_sym cmap a b : coupled cmap a b -> coupled cmap b a.
Proof. unfold coupled. tauto. Qed.

(** The best node. *)
Lemma best_spec nodes : In 0 (dkeys nodes) -> exists best, get_best_node nodes = Ok best /\ In best (dkeys nodes).
Proof.
  intros H0. unfold get_best_node. assert (G : forall ks best, incl ks (dkeys nodes) -> In best (dkeys nodes) ->
    exists best', foldM (fun best i => do li <- dget_e nodes i; do lb <- dget_e nodes best; Ok (if length lb <? length li then i else best)) ks best = Ok best' /\ In best' (dkeys nodes)).
  { induction ks as [|k ks IH]; intros best Hk Hb; [exists best; auto|]. assert (Hk0 : In k (dkeys nodes)) by (apply Hk; left; reflexivity). cbn [foldM].
    assert (A : forall v, In v (dkeys nodes) -> exists l, dget_e nodes v = Ok l).
    { intros v Hv. unfold dget_e. destruct (dget nodes v) as [l|] eqn:E; [eauto|]. apply dget_None in E. contradiction. }
    destruct (A k Hk0) as [lk ->]. destruct (A best Hb) as [lb ->]. cbn [bind]. apply IH; [intros x Hx; apply Hk; right; exact Hx|]. destruct (_ <? _); assumption. }
  apply G; [intros x Hx; exact Hx|exact H0].
Qed.

(** ** The loop *)
Section Loop.
Variable cmap : list (nat * nat).
Variable nodes : list (nat * list nat).
Variable sorter : list nat -> nat -> result (list nat).
Variable best : nat.
Hypothesis Hkeys : NoDup (dkeys nodes).
Hypothesis Hnode : forall v, In v (dkeys nodes) <-> exists b, coupled cmap v b.
Hypothesis Hch : forall v, In v (dkeys nodes) -> exists l, dget nodes v = Some l /\ NoDup l /\ forall b, In b l <-> coupled cmap v b.
Hypothesis Hsort : forall v l, dget nodes v = Some l -> exists l', sorter l v = Ok l' /\ Permutation l l'.
Hypothesis Hbest : In best (dkeys nodes).
Local Notation N := (length (dkeys nodes)).

(** Edges with their tiers, in the order in which they are found. *)
Definition log := list (nat * (nat * nat)).
Definition tier_of (E : log) (j : nat) : list (nat * nat) := map snd (filter (fun x => fst x =? j) E).
Definition tiers_of (E : log) : list (list (nat * nat)) := map (tier_of E) (seq 0 N).
Definition targets (E : log) : list nat := map (fun x => snd (snd x)) E.
Definition depth (E : log) (v d : nat) : Prop := (v = best /\ d = 0) \/ exists d' p, d = S d' /\ In (d', (p, v)) E.
Record good (E : log) : Prop := {
  g_nodup : NoDup (best :: targets E);
  g_edge : forall j p t, In (j, (p, t)) E -> coupled cmap p t /\ j < N /\ exists d, depth E p d /\ d <= j;
  g_controls : NoDup (map (fun x => (fst x, fst (snd x))) E);
  g_done : forall j p t c, In (j, (p, t)) E -> coupled cmap p c -> In c (best :: targets E);
  g_bound : forall v d, depth E v d -> d <= length E }.
Definition is_state (s : tstate) (E : log) : Prop :=
  t_tier s = tiers_of E /\ t_trash s = best :: targets E /\ forall v d, dget (t_dm s) v = Some d <-> depth E v d.

Lemma tier_of_app E x j : tier_of (E ++ [x]) j = if fst x =? j then tier_of E j ++ [snd x] else tier_of E j.
Proof. unfold tier_of. rewrite filter_app, map_app. cbn. destruct (fst x =? j); cbn; [reflexivity|apply app_nil_r]. Qed.
Lemma add_edge_map (f g : nat -> list (nat * nat)) e : forall m k j, j < m -> (forall i, g i = if k + j =? i then f i ++ [e] else f i) ->
  add_edge (map f (seq k m)) j e = Ok (map g (seq k m)).
Proof.
  induction m as [|m IH]; intros k j Hj Hg; [lia|]. cbn [seq map]. destruct j as [|j]; cbn [add_edge].
  - rewrite (Hg k), Nat.add_0_r, Nat.eqb_refl. f_equal. f_equal. apply map_ext_in. intros i Hi. apply in_seq in Hi. rewrite Hg. destruct (Nat.eqb_spec (k + 0) i); [lia|reflexivity].
  - rewrite (IH (S k) j); [|lia|intros i; rewrite Hg, <- Nat.add_succ_comm; reflexivity]. cbn [bind]. f_equal. f_equal. rewrite Hg. destruct (Nat.eqb_spec (k + S j) k); [lia|reflexivity].
Qed.
Lemma add_edge_state E j e : j < N -> add_edge (tiers_of E) j e = Ok (tiers_of (E ++ [(j, e)])).
Proof. intros Hj. apply add_edge_map; [exact Hj|]. intros i. rewrite tier_of_app. reflexivity. Qed.

Lemma depth_snoc E j p t v d : depth (E ++ [(j, (p, t))]) v d <-> depth E v d \/ (v = t /\ d = S j).
Proof.
  unfold depth. split.
  - intros [H|(d' & p' & -> & H)]; [auto|]. apply in_app_iff in H. destruct H as [H|[H|[]]]; [left; right; eauto|]. injection H as <- <- <-. auto.
  - intros [[H|(d' & p' & -> & H)]|[-> ->]]; [auto|right; exists d', p'; rewrite in_app_iff; auto|right; exists j, p; rewrite in_app_iff; cbn; auto].
Qed.
(** The new children of one parent. *)
Definition batch (j p : nat) (ns : list nat) : log := combine (seq j (length ns)) (map (pair p) ns).
Lemma batch_cons j p t ns : batch j p (t :: ns) = (j, (p, t)) :: batch (S j) p ns.
Proof. reflexivity. Qed.
Lemma add_children p : forall ns E j s, is_state s E -> (forall t, In t ns -> ~ In t (best :: targets E)) -> NoDup ns -> j + length ns <= N ->
  exists s', foldM (add_child p) ns (s, j) = Ok (s', j + length ns) /\ is_state s' (E ++ batch j p ns).
Proof.
  induction ns as [|t ns IH]; intros E j s Hs Ht Hn Hj.
  - exists s. cbn. rewrite Nat.add_0_r, app_nil_r. auto.
  - cbn [foldM length] in *. unfold add_child at 1. destruct Hs as (S1 & S2 & S3). rewrite S1, add_edge_state by lia. cbn [bind]. apply NoDup_cons_iff in Hn. destruct Hn as [Hn1 Hn2].
    destruct (IH (E ++ [(j, (p, t))]) (j + 1) {| t_tier := tiers_of (E ++ [(j, (p, t))]); t_dm := dset (t_dm s) t (j + 1); t_trash := t_trash s ++ [t] |}) as (s' & R & R').
    + split; [reflexivity|]. cbn [t_trash t_dm]. split; [rewrite S2; unfold targets; rewrite map_app; reflexivity|].
      intros v d. rewrite dget_dset, depth_snoc, <- S3. destruct (eqb_spec v t) as [->|Hne].
      * assert (En : dget (t_dm s) t = None). { destruct (dget (t_dm s) t) as [d0|] eqn:E0; [|reflexivity]. apply S3 in E0. exfalso. apply (Ht t); [left; reflexivity|]. destruct E0 as [[-> _]|(d' & p' & _ & Hi)]; [left; reflexivity|]. right. apply (in_map (fun x => snd (snd x))) in Hi. exact Hi. }
        rewrite En. split; [intros H; injection H as <-; right; split; [reflexivity|lia]|]. intros [H|[_ ->]]; [discriminate|]. f_equal. lia.
      * split; [auto|]. intros [H|[H _]]; [exact H|contradiction].
    + intros t' Hi Hi'. unfold targets in Hi'. rewrite map_app, app_comm_cons, in_app_iff in Hi'. cbn [map snd] in Hi'. destruct Hi' as [Hi'|[<-|[]]]; [|contradiction]. apply (Ht t'); [right; exact Hi|exact Hi'].
    + exact Hn2.
    + lia.
    + exists s'. split; [rewrite R; do 2 f_equal; lia|]. rewrite batch_cons. rewrite <- app_assoc in R'. rewrite (Nat.add_1_r j) in R'. exact R'.
Qed.

(** One parent. *)
Lemma targets_app E E' : targets (E ++ E') = targets E ++ targets E'.
Proof. apply map_app. Qed.
Lemma batch_length j p ns : length (batch j p ns) = length ns.
Proof. unfold batch. rewrite combine_length, seq_length, map_length. lia. Qed.
Lemma batch_targets p : forall ns j, targets (batch j p ns) = ns.
Proof. induction ns as [|t ns IH]; intros j; [reflexivity|]. rewrite batch_cons. unfold targets in *. cbn. rewrite IH. reflexivity. Qed.
Lemma batch_in p : forall ns j x, In x (batch j p ns) <-> exists i t, nth_error ns i = Some t /\ x = (j + i, (p, t)).
Proof.
  induction ns as [|t ns IH]; intros j x.
  - split; [intros []|]. intros (i & t & H & _). destruct i; discriminate.
  - rewrite batch_cons. cbn [In]. rewrite IH. split.
    + intros [<-|(i & t' & H & ->)]; [exists 0, t; rewrite Nat.add_0_r; auto|exists (S i), t'; split; [exact H|f_equal; lia]].
    + intros ([|i] & t' & H & ->); [left; cbn in H; injection H as ->; rewrite Nat.add_0_r; reflexivity|right; exists i, t'; split; [exact H|f_equal; lia]].
Qed.
Lemma depth_app E E' v d : depth E v d -> depth (E ++ E') v d.
Proof. intros [H|(d' & p & -> & H)]; [left; exact H|right; exists d', p; rewrite in_app_iff; auto]. Qed.
Lemma depth_in E v d : depth E v d -> In v (best :: targets E).
Proof. intros [[-> _]|(d' & p & _ & H)]; [left; reflexivity|right]. apply (in_map (fun x => snd (snd x))) in H. exact H. Qed.
Lemma in_depth E v : In v (best :: targets E) -> exists d, depth E v d.
Proof. intros [<-|H]; [exists 0; left; auto|]. apply in_map_iff in H. destruct H as ([j [p t]] & <- & H). exists (S j). right. eauto. Qed.
Lemma good_nodes E : good E -> incl (best :: targets E) (dkeys nodes).
Proof.
  intros G v [<-|H]; [exact Hbest|]. apply in_map_iff in H. destruct H as ([j [p t]] & <- & H). destruct (g_edge E G j p t H) as (Hc & _). apply Hnode. exists p. apply coupled_sym, Hc.
Qed.
Lemma good_batch E p d ns : good E -> depth E p d -> NoDup ns -> (forall t, In t ns <-> coupled cmap p t /\ ~ In t (best :: targets E)) -> good (E ++ batch d p ns) /\ d + length ns <= N.
Proof.
  intros G Hd Hn Hns. destruct ns as [|t0 ns0] eqn:Ens.
  { cbn. rewrite app_nil_r. split; [exact G|]. pose proof (g_bound E G p d Hd). pose proof (good_nodes E G) as Hi. apply (NoDup_incl_length (g_nodup E G)) in Hi. cbn in Hi. unfold targets in Hi. rewrite map_length in Hi. lia. }
  rewrite <- Ens in *. assert (Hne : ns <> []) by (rewrite Ens; discriminate). clear Ens t0 ns0.
  assert (Hfresh : forall j t, ~ In (j, (p, t)) E). { intros j t Hi. destruct ns as [|t1 ns]; [contradiction|]. destruct (proj1 (Hns t1) (or_introl eq_refl)) as [H1 H2]. apply H2. apply (g_done E G j p t t1 Hi H1). }
  assert (Hnd : NoDup (best :: targets (E ++ batch d p ns))).
  { rewrite targets_app, batch_targets, app_comm_cons. pose proof (g_nodup E G) as Hb. revert Hb Hn. assert (Hd' : forall t, In t ns -> ~ In t (best :: targets E)) by (intros t Ht; apply Hns, Ht). revert Hd'. clear. generalize (best :: targets E) as l.
    induction l as [|a l IH]; intros H1 H2 H3; [exact H3|]. apply NoDup_cons_iff in H2. cbn. constructor; [|apply IH; [|tauto|exact H3]; intros t Ht Hi; apply (H1 t Ht); right; exact Hi]. rewrite in_app_iff. intros [H|H]; [tauto|]. apply (H1 a H). left. reflexivity. }
  assert (Hlen : d + length ns < N).
  { assert (Hi : incl (best :: targets (E ++ batch d p ns)) (dkeys nodes)).
    { rewrite targets_app, batch_targets. intros v [<-|Hv]; [exact Hbest|]. apply in_app_iff in Hv. destruct Hv as [Hv|Hv]; [apply (good_nodes E G); right; exact Hv|]. apply Hns in Hv. apply Hnode. exists p. apply coupled_sym, Hv. }
    apply (NoDup_incl_length Hnd) in Hi. cbn in Hi. rewrite targets_app, batch_targets, app_length in Hi. unfold targets in Hi. rewrite map_length in Hi. pose proof (g_bound E G p d Hd). lia. }
  split; [|lia]. constructor.
  - exact Hnd.
  - intros j q t Hi. apply in_app_iff in Hi. destruct Hi as [Hi|Hi].
    + destruct (g_edge E G j q t Hi) as (H1 & H2 & d' & H3 & H4). split; [exact H1|]. split; [exact H2|]. exists d'. split; [apply depth_app, H3|exact H4].
    + apply batch_in in Hi. destruct Hi as (i & t' & Ht & E'). injection E' as -> -> ->. assert (Hin : In t' ns) by (eapply nth_error_In; exact Ht). split; [apply Hns, Hin|].
      assert (i < length ns) by (apply nth_error_Some; rewrite Ht; discriminate). split; [lia|]. exists d. split; [apply depth_app, Hd|lia].
  - rewrite map_app. pose proof (g_controls E G) as Hc. assert (Hd' : forall x, In x (map (fun x => (fst x, fst (snd x))) (batch d p ns)) -> ~ In x (map (fun x => (fst x, fst (snd x))) E)).
    { intros x Hx Hi. apply in_map_iff in Hx. destruct Hx as ([j [q t]] & <- & Hx). apply batch_in in Hx. destruct Hx as (i & t' & _ & E'). injection E' as -> -> ->. cbn in Hi. apply in_map_iff in Hi. destruct Hi as ([j' [q' t'']] & E' & Hi). cbn in E'. injection E' as -> ->. apply (Hfresh _ _ Hi). }
    assert (Hb : NoDup (map (fun x => (fst x, fst (snd x))) (batch d p ns))).
    { clear - Hkeys Hnode Hch Hsort Hbest. revert d. induction ns as [|t ns IH]; intros d; [constructor|]. rewrite batch_cons. cbn. constructor; [|apply IH]. intros Hi. apply in_map_iff in Hi. destruct Hi as (x & E' & Hi). apply batch_in in Hi. destruct Hi as (i & t' & _ & ->). cbn in E'. injection E' as E'. lia. }
    revert Hd' Hc Hb. clear. generalize (map (fun x => (fst x, fst (snd x))) E) as l. generalize (map (fun x => (fst x, fst (snd x))) (batch d p ns)) as m. intros m. induction l as [|a l IH]; intros H1 H2 H3; [exact H3|]. apply NoDup_cons_iff in H2. cbn. constructor; [|apply IH; [|tauto|exact H3]; intros t Ht Hi; apply (H1 t Ht); right; exact Hi]. rewrite in_app_iff. intros [H|H]; [tauto|]. apply (H1 a H). left. reflexivity.
  - intros j q t c Hi Hc. rewrite targets_app, batch_targets, app_comm_cons. apply in_app_iff. apply in_app_iff in Hi. destruct Hi as [Hi|Hi]; [left; apply (g_done E G j q t c Hi Hc)|].
    apply batch_in in Hi. destruct Hi as (i & t' & _ & E'). injection E' as -> -> ->. destruct (in_dec Nat.eq_dec c (best :: targets E)) as [Hy|Hy]; [left; exact Hy|]. right. apply Hns. auto.
  - intros v d' [[-> ->]|(d0 & q & -> & Hi)]; [lia|]. rewrite app_length, batch_length. apply in_app_iff in Hi. destruct Hi as [Hi|Hi].
    + assert (S d0 <= length E) by (apply (g_bound E G v); right; eauto). lia.
    + apply batch_in in Hi. destruct Hi as (i & t' & Ht & E'). injection E' as -> -> ->. assert (i < length ns) by (apply nth_error_Some; rewrite Ht; discriminate). pose proof (g_bound E G p d Hd). lia.
Qed.
Lemma one_parent_spec s E total p : is_state s E -> good E -> In p (best :: targets E) ->
  exists s' E' cs, one_parent nodes sorter (s, total) p = Ok (s', total ++ cs) /\ is_state s' E' /\ good E' /\
    (forall c, In c cs <-> coupled cmap p c) /\ (forall v, In v (best :: targets E') <-> In v (best :: targets E) \/ coupled cmap p v).
Proof.
  intros Hs G Hp. assert (Hk : In p (dkeys nodes)) by (apply (good_nodes E G), Hp). destruct (Hch p Hk) as (l & El & Hl & Hlc). destruct (Hsort p l El) as (cs & Ec & Pc).
  destruct (in_depth E p Hp) as (d & Hd). pose proof Hs as (S1 & S2 & S3). set (ns := filter (fun a => negb (mem a (t_trash s))) cs).
  assert (Hns : forall t, In t ns <-> coupled cmap p t /\ ~ In t (best :: targets E)).
  { intros t. unfold ns. rewrite filter_In, S2, Bool.negb_true_iff. rewrite <- Hlc. assert (Hpc : In t cs <-> In t l) by (split; intros H; [apply (Permutation_in _ (Permutation_sym Pc) H)|apply (Permutation_in _ Pc H)]). rewrite Hpc, mem_not_In. tauto. }
  assert (Hnn : NoDup ns) by (apply NoDup_filter; apply (Permutation_NoDup Pc Hl)).
  destruct (good_batch E p d ns G Hd Hnn Hns) as (G' & HN).
  destruct (add_children p ns E d s Hs) as (s' & R & R'); [intros t Ht; apply Hns, Ht|exact Hnn|exact HN|].
  exists s', (E ++ batch d p ns), cs. unfold one_parent. unfold dget_e. rewrite El. cbn [bind]. rewrite Ec. cbn [bind]. rewrite (proj2 (S3 p d) Hd). cbn [bind]. fold ns. rewrite R. cbn [bind fst].
  split; [reflexivity|]. split; [exact R'|]. split; [exact G'|]. split.
  - intros c. rewrite <- Hlc. split; intros H; [apply (Permutation_in _ (Permutation_sym Pc) H)|apply (Permutation_in _ Pc H)].
  - intros v. rewrite targets_app, batch_targets, app_comm_cons, in_app_iff, Hns. destruct (in_dec Nat.eq_dec v (best :: targets E)); tauto.
Qed.
Lemma parents_spec ps : forall s E total, is_state s E -> good E -> incl ps (best :: targets E) ->
  exists s' E' cs, foldM (one_parent nodes sorter) ps (s, total) = Ok (s', total ++ cs) /\ is_state s' E' /\ good E' /\
    (forall c, In c cs <-> exists p, In p ps /\ coupled cmap p c) /\ (forall v, In v (best :: targets E') <-> In v (best :: targets E) \/ In v cs).
Proof.
  induction ps as [|p ps IH]; intros s E total Hs G Hp.
  - exists s, E, []. cbn [foldM]. rewrite app_nil_r. split; [reflexivity|]. split; [exact Hs|]. split; [exact G|]. split; [intros c; split; [intros []|intros (p & [] & _)]|]. intros v. cbn [In]. tauto.
  - destruct (one_parent_spec s E total p Hs G) as (s1 & E1 & cs1 & R1 & I1 & G1 & C1 & X1); [apply Hp; left; reflexivity|].
    destruct (IH s1 E1 (total ++ cs1) I1 G1) as (s2 & E2 & cs2 & R2 & I2 & G2 & C2 & X2). { intros v Hv. apply X1. left. apply Hp. right. exact Hv. }
    exists s2, E2, (cs1 ++ cs2). cbn [foldM]. rewrite R1. cbn [bind]. rewrite R2, app_assoc. split; [reflexivity|]. split; [exact I2|]. split; [exact G2|]. split.
    + intros c. rewrite in_app_iff, C1, C2. split.
      * intros [H|(q & Hq & H)]; [exists p; split; [left; reflexivity|exact H]|exists q; split; [right; exact Hq|exact H]].
      * intros (q & [<-|Hq] & H); [left; exact H|right; exists q; auto].
    + intros v. rewrite X2, X1, in_app_iff, C1. tauto.
Qed.
(** The loop reaches the qubits at distance at most the number of rounds. *)
Lemma loop_spec fuel : forall k s E parents, is_state s E -> good E -> (forall v, In v parents <-> walk cmap k best v) -> (forall v, In v (best :: targets E) <-> exists i, i <= k /\ walk cmap i best v) ->
  exists s' E', tier_loop nodes sorter fuel s parents = Ok s' /\ is_state s' E' /\ good E' /\ (forall v, In v (best :: targets E') <-> exists i, i <= S (fuel + k) /\ walk cmap i best v).
Proof.
  induction fuel as [|fuel IH]; intros k s E parents Hs G Hpar HX.
  all: destruct (parents_spec parents s E [] Hs G) as (s1 & E1 & cs & R & I1 & G1 & C1 & X1); [intros v Hv; apply HX; exists k; split; [lia|apply Hpar, Hv]|].
  all: assert (Hcs : forall v, In v cs <-> walk cmap (S k) best v) by (intros v; rewrite C1; split; [intros (p & Hp & Hc); apply Hpar in Hp; econstructor; eassumption|intros H; inversion H; subst; eexists; split; [apply Hpar; eassumption|assumption]]).
  all: assert (HX1 : forall v, In v (best :: targets E1) <-> exists i, i <= S k /\ walk cmap i best v) by (intros v; rewrite X1, HX, Hcs; split;
    [intros [(i & Hi & H)|H]; [exists i; split; [lia|exact H]|exists (S k); auto]|intros (i & Hi & H); destruct (Nat.eq_dec i (S k)) as [->|]; [right; exact H|left; exists i; split; [lia|exact H]]]).
  all: cbn [tier_loop]; rewrite R; cbn [bind app].
  - destruct (_ =? _); (exists s1, E1; split; [reflexivity|]; split; [exact I1|]; split; [exact G1|]; exact HX1).
  - pose proof I1 as (_ & T1 & _). rewrite T1. destruct (Nat.eqb_spec (length (best :: targets E1)) N) as [EN|EN].
    + exists s1, E1. split; [reflexivity|]. split; [exact I1|]. split; [exact G1|]. intros v. rewrite HX1. split; [intros (i & Hi & H); exists i; split; [lia|exact H]|].
      intros (i & Hi & H). apply HX1. assert (Hall : incl (dkeys nodes) (best :: targets E1)) by (apply (NoDup_length_incl (g_nodup E1 G1)); [rewrite EN; apply le_n|apply good_nodes, G1]).
      inversion H; subst; [left; reflexivity|]. apply Hall, Hnode. eexists. apply coupled_sym. eassumption.
    + destruct (IH (S k) s1 E1 cs I1 G1 Hcs HX1) as (s2 & E2 & R2 & I2 & G2 & X2). exists s2, E2. split; [exact R2|]. split; [exact I2|]. split; [exact G2|]. intros v. rewrite X2. replace (S (fuel + S k)) with (S (S fuel + k)) by lia. reflexivity.
Qed.
Lemma start_good : good [].
Proof.
  constructor.
  - constructor; [intros []|constructor].
  - intros j p t [].
  - constructor.
  - intros j p t c [].
  - intros v d [[_ ->]|(d' & p & _ & [])]. cbn. lia.
Qed.
Lemma tiers_spec : exists E, tiers_from nodes sorter best = Ok (tiers_of E) /\ good E /\ (forall v, In v (best :: targets E) <-> exists i, i <= 51 /\ walk cmap i best v).
Proof.
  destruct (loop_spec 50 0 {| t_tier := repeat [] N; t_dm := [(best, 0)]; t_trash := [best] |} [] [best]) as (s & E & R & (T & _ & _) & G & X).
  - split; [|split; [reflexivity|]].
    + cbn [t_tier]. unfold tiers_of, tier_of. generalize (dkeys nodes) as l. intros l. cbn [filter map]. generalize 0 as k. induction l as [|a l IH]; intros k; [reflexivity|]. cbn. f_equal. apply IH.
    + intros v d. cbn [t_dm dget]. destruct (eqb_spec v best) as [->|Hn]; (split; [|intros [[? ?]|(d' & p & _ & [])]; subst; auto; try contradiction]).
      * intros H. injection H as <-. left. auto.
      * discriminate.
  - apply start_good.
  - intros v. split; [intros [<-|[]]; constructor|]. intros H. inversion H; subst. left. reflexivity.
  - intros v. split; [intros [<-|[]]; exists 0; split; [lia|constructor]|]. intros (i & Hi & H). assert (i = 0) by lia. subst. inversion H; subst. left. reflexivity.
  - exists E. unfold tiers_from. rewrite R. cbn [bind]. rewrite T. split; [reflexivity|]. split; [exact G|]. exact X.
Qed.
End Loop.
