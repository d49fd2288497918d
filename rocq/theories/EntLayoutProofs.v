(** Schedules and layouts (C41). *)
From Coq Require Import QArith Lqa Permutation.
From Verif Require Import LinAlg Base CountsModel ResultFacts QSem DihedralModel RBSeqModel RBSeqSpec StdGates AccSpec AccLayerProofs EntModel EntSpec EntGhzProofs EntTierProofs.
Open Scope nat_scope.

(** ** From the log to the schedule *)
Lemma concat_filter_nil (l : list (nat * list (nat * nat))) : concat (map snd (filter (fun kt => match snd kt with [] => false | _ => true end) l)) = concat (map snd l).
Proof. induction l as [|[k t] l IH]; [reflexivity|]. cbn [filter map concat]. destruct t as [|e t]; cbn [snd]; [exact IH|]. cbn [map concat snd]. rewrite IH. reflexivity. Qed.
Lemma combine_numbered {A} (l : list A) : forall k j x, In (j, x) (combine (seq k (length l)) l) <-> k <= j /\ nth_error l (j - k) = Some x.
Proof.
  induction l as [|a l IH]; intros k j x; cbn.
  - split; [intros []|]. intros [_ H]. destruct (j - k); discriminate.
  - rewrite IH. split.
    + intros [E|[Hk H]]; [injection E as -> ->; split; [lia|rewrite Nat.sub_diag; reflexivity]|]. split; [lia|]. replace (j - k) with (S (j - S k)) by lia. exact H.
    + intros [Hk H]. destruct (Nat.eq_dec j k) as [->|Hn]; [left; rewrite Nat.sub_diag in H; injection H as ->; reflexivity|]. right. split; [lia|]. replace (j - k) with (S (j - S k)) in H by lia. exact H.
Qed.
Lemma tiers_count (E : log) n f : (forall x, In x E -> f <= fst x < f + n) -> Permutation (concat (map (tier_of E) (seq f n))) (map snd E).
Proof.
  revert E. induction n as [|n IH]; intros E HE.
  - destruct E as [|x E]; [constructor|]. specialize (HE x (or_introl eq_refl)). lia.
  - rewrite seq_S, map_app, concat_app. cbn [map concat]. rewrite app_nil_r. set (E' := filter (fun x => negb (fst x =? f + n)) E).
    assert (X : map (tier_of E) (seq f n) = map (tier_of E') (seq f n)).
    { apply map_ext_in. intros j Hj. apply in_seq in Hj. unfold tier_of, E'. f_equal. clear -Hj. induction E as [|x E IH]; [reflexivity|]. cbn [filter]. destruct (Nat.eqb_spec (fst x) (f + n)) as [Ex|Ex]; cbn [negb].
      - rewrite <- IH. destruct (Nat.eqb_spec (fst x) j); [lia|reflexivity].
      - cbn [filter]. destruct (fst x =? j); rewrite IH; reflexivity. }
    rewrite X, (IH E').
    + unfold tier_of, E'. clear. rewrite <- map_app. apply Permutation_map. induction E as [|x E IH]; [constructor|]. cbn [filter]. destruct (fst x =? f + n); cbn [negb].
      * rewrite <- Permutation_middle. constructor. exact IH.
      * cbn. constructor. exact IH.
    + intros x Hx. apply filter_In in Hx. destruct Hx as [Hx Hn]. apply HE in Hx. destruct (Nat.eqb_spec (fst x) (f + n)); [discriminate|lia].
Qed.
Lemma filter_sorted_order {A} (P : nat * A -> bool) : forall (l : list A) k i j a b,
  nth_error (map fst (filter P (combine (seq k (length l)) l))) i = Some a -> nth_error (map fst (filter P (combine (seq k (length l)) l))) j = Some b -> i < j -> a < b.
Proof.
  assert (G : forall (l : list A) k i a, nth_error (map fst (filter P (combine (seq k (length l)) l))) i = Some a -> k <= a).
  { intros l k i a H. apply nth_error_In in H. apply in_map_iff in H. destruct H as ([j x] & <- & H). apply filter_In in H. destruct H as [H _]. apply combine_numbered in H. cbn. lia. }
  induction l as [|x l IH]; intros k i j a b Hi Hj Hij; cbn [length seq combine filter] in *; [destruct i; discriminate|]. destruct (P (k, x)); [|apply (IH (S k) i j); assumption].
  cbn [map] in *. destruct j as [|j]; [lia|]. cbn in Hj. destruct i as [|i]; [cbn in Hi; injection Hi as <-; apply G in Hj; lia|]. cbn in Hi. apply (IH (S k) i j); try assumption. lia.
Qed.

Definition cleaned (tiers : list (list (nat * nat))) : list (nat * list (nat * nat)) :=
  filter (fun kt => match snd kt with [] => false | _ => true end) (combine (seq 0 (length tiers)) tiers).
Lemma cleaned_in tiers j t : In (j, t) (cleaned tiers) <-> nth_error tiers j = Some t /\ t <> [].
Proof.
  unfold cleaned. rewrite filter_In, combine_numbered, Nat.sub_0_r. cbn [snd]. split.
  - intros [[_ H] Ht]. split; [exact H|]. intros ->. discriminate.
  - intros [H Ht]. split; [split; [lia|exact H]|]. destruct t; [contradiction|reflexivity].
Qed.
Lemma cleaned_edges tiers : edges_of (cleaned tiers) = concat tiers.
Proof.
  unfold edges_of, cleaned. rewrite concat_filter_nil. f_equal. generalize 0 as k. induction tiers as [|t tiers IH]; intros k; [reflexivity|]. cbn. rewrite IH. reflexivity.
Qed.
Lemma tier_in E j c v : In (c, v) (tier_of E j) <-> In (j, (c, v)) E.
Proof.
  unfold tier_of. rewrite in_map_iff. split.
  - intros ([j' e] & Ee & H). apply filter_In in H. destruct H as [H Ej]. cbn in *. apply Nat.eqb_eq in Ej. subst. exact H.
  - intros H. exists (j, (c, v)). split; [reflexivity|]. apply filter_In. split; [exact H|]. cbn. apply Nat.eqb_refl.
Qed.
Section Sched.
Variable cmap : list (nat * nat).
Variable nodes : list (nat * list nat).
Variable best : nat.
Variable E : log.
Hypothesis G : good cmap nodes best E.
Local Notation T := (tiers_of nodes E).
Lemma tiers_nth j t : nth_error T j = Some t -> t = tier_of E j.
Proof.
  unfold tiers_of. rewrite nth_error_map. destruct (nth_error (seq 0 (length (dkeys nodes))) j) as [k|] eqn:Ek; [|discriminate]. cbn. intros H. injection H as <-.
  assert (Hj : j < length (seq 0 (length (dkeys nodes)))) by (apply nth_error_Some; rewrite Ek; discriminate). apply nth_error_nth with (d := 0) in Ek. rewrite seq_length in Hj. rewrite seq_nth in Ek by exact Hj. cbn in Ek. subst. reflexivity.
Qed.
Lemma tiers_at j : j < length (dkeys nodes) -> nth_error T j = Some (tier_of E j).
Proof.
  intros Hj. unfold tiers_of. rewrite nth_error_map. rewrite (nth_error_nth' _ 0) by (rewrite seq_length; exact Hj). rewrite seq_nth by exact Hj. reflexivity.
Qed.
Lemma tiers_perm : Permutation (concat T) (map snd E).
Proof. apply tiers_count. intros [j [p t]] Hx. destruct (g_edge _ _ _ E G j p t Hx) as (_ & H & _). cbn. lia. Qed.
Lemma tier_disjoint j : NoDup (flat_map touched (tier_of E j)).
Proof.
  assert (NC : NoDup (map fst (tier_of E j))).
  { pose proof (g_controls _ _ _ E G) as H. unfold tier_of. revert H. clear. induction E as [|[k e] l IH]; intros H; [constructor|]. cbn [map filter] in *. apply NoDup_cons_iff in H. destruct H as [H1 H2]. cbn [fst snd] in *. destruct (Nat.eqb_spec k j) as [->|]; [|apply IH, H2]. cbn. constructor; [|apply IH, H2].
    intros Hi. apply H1. apply in_map_iff in Hi. destruct Hi as (e' & Ee & Hi). apply in_map_iff in Hi. destruct Hi as ([k' e''] & <- & Hi). apply filter_In in Hi. destruct Hi as [Hi Ek]. cbn in Ek. apply Nat.eqb_eq in Ek. subst k'. apply in_map_iff. exists (j, e''). split; [cbn; cbn in Ee; rewrite Ee; reflexivity|exact Hi]. }
  assert (NT : NoDup (map snd (tier_of E j))).
  { pose proof (g_nodup _ _ _ E G) as H. apply NoDup_cons_iff in H. destruct H as [_ H]. unfold tier_of. unfold targets in H. revert H. clear. induction E as [|[k e] l IH]; intros H; [constructor|]. cbn [map filter] in *. apply NoDup_cons_iff in H. destruct H as [H1 H2]. cbn [fst snd] in *. destruct (Nat.eqb_spec k j) as [->|]; [|apply IH, H2]. cbn. constructor; [|apply IH, H2].
    intros Hi. apply H1. apply in_map_iff in Hi. destruct Hi as (e' & Ee & Hi). apply in_map_iff in Hi. destruct Hi as ([k' e''] & <- & Hi). apply filter_In in Hi. destruct Hi as [Hi Ek]. apply in_map_iff. exists (k', e''). split; [exact Ee|exact Hi]. }
  assert (X : forall c v c' v', In (c, v) (tier_of E j) -> In (c', v') (tier_of E j) -> c <> v').
  { intros c v c' v' H1 H2 Ec. subst c. apply tier_in in H1, H2. destruct (g_edge _ _ _ E G j v' v H1) as (_ & _ & d & Hd & Hle).
    pose proof (g_nodup _ _ _ E G) as Hn. apply NoDup_cons_iff in Hn. destruct Hn as [Hb Hn]. destruct Hd as [[-> _]|(d' & p & -> & Hi)].
    - apply Hb. apply (in_map (fun x => snd (snd x))) in H2. exact H2.
    - assert (Ex : (d', (p, v')) = (j, (c', v'))); [|injection Ex as -> ->; lia]. revert Hn Hi H2. unfold targets. clear. induction E as [|x l IH]; intros Hn Hi H2; [destruct Hi|]. cbn in Hn. apply NoDup_cons_iff in Hn. destruct Hn as [Hx Hn]. destruct Hi as [->|Hi], H2 as [H2|H2].
      + exact H2.
      + exfalso. apply Hx. apply (in_map (fun x => snd (snd x))) in H2. exact H2.
      + subst x. exfalso. apply Hx. apply (in_map (fun x => snd (snd x))) in Hi. exact Hi.
      + apply IH; assumption. }
  revert NC NT X. generalize (tier_of E j) as t. clear. induction t as [|[c v] t IH]; intros NC NT X; [constructor|]. cbn [map flat_map touched app fst snd] in *. apply NoDup_cons_iff in NC, NT. destruct NC as [C1 C2], NT as [T1 T2].
  assert (IH' : NoDup (flat_map touched t)) by (apply IH; [exact C2|exact T2|intros a b a' b' H1 H2; apply (X a b a' b'); right; assumption]).
  assert (NotIn : forall w, In w (flat_map touched t) -> In w (map fst t) \/ In w (map snd t)).
  { intros w Hw. apply in_flat_map in Hw. destruct Hw as ([a b] & Hab & [<-|[<-|[]]]); [left; apply (in_map fst) in Hab; exact Hab|right; apply (in_map snd) in Hab; exact Hab]. }
  constructor; [|constructor; [|exact IH']].
  - intros [Ev|Hi]; [subst; apply (X c c c c (or_introl eq_refl) (or_introl eq_refl)); reflexivity|]. apply NotIn in Hi. destruct Hi as [Hi|Hi]; [contradiction|]. apply in_map_iff in Hi. destruct Hi as ([a b] & <- & Hab). apply (X b v a b); [left; reflexivity|right; exact Hab|reflexivity].
  - intros Hi. apply NotIn in Hi. destruct Hi as [Hi|Hi]; [|contradiction]. apply in_map_iff in Hi. destruct Hi as ([a b] & <- & Hab). apply (X a b c a); [right; exact Hab|left; reflexivity|reflexivity].
Qed.
Lemma cleaned_schedule : schedule cmap best (cleaned T) /\ forall v, In v (map snd (edges_of (cleaned T))) <-> In v (targets E).
Proof.
  assert (PT : Permutation (map snd (edges_of (cleaned T))) (targets E)).
  { rewrite cleaned_edges. unfold targets. rewrite <- (map_map snd snd E). apply Permutation_map, tiers_perm. }
  split; [constructor|].
  - intros i j a b. unfold cleaned. apply filter_sorted_order.
  - intros j t H. apply cleaned_in in H. apply H.
  - eapply Permutation_NoDup; [|exact (g_nodup _ _ _ E G)]. constructor. symmetry. exact PT.
  - intros j t c v H Hc. apply cleaned_in in H. destruct H as [H Hne]. pose proof (tiers_nth j t H) as ->. apply tier_in in Hc. destruct (g_edge _ _ _ E G j c v Hc) as (H1 & H2 & d & Hd & Hle). split; [exact H1|].
    destruct Hd as [[-> _]|(d' & p & -> & Hi)]; [left; reflexivity|]. right. exists d', (tier_of E d'), p. split; [apply cleaned_in; split; [apply tiers_at; lia|]|split; [lia|apply tier_in, Hi]].
    intros En. apply tier_in in Hi. rewrite En in Hi. destruct Hi.
  - intros j t H. apply cleaned_in in H. destruct H as [H _]. rewrite (tiers_nth j t H). apply tier_disjoint.
  - intros v. split; intros H; [apply (Permutation_in _ PT H)|apply (Permutation_in _ (Permutation_sym PT) H)].
Qed.
End Sched.

(** ** The top level *)
Lemma error_keys gates a b : In [a; b] (map fst gates) \/ In [b; a] (map fst gates) -> In (a, b) (dkeys (get_cx_error gates)).
Proof.
  intros H. unfold get_cx_error. set (f := fun (d : dict (nat * nat) Q) (g : list nat * Q) => match fst g with [a; b] => _ | _ => d end).
  assert (Fk : forall d g x, In x (dkeys d) -> In x (dkeys (f d g))).
  { intros d [qs v] x Hx. unfold f. cbn [fst snd]. destruct qs as [|q1 [|q2 [|]]]; auto. cbv zeta. destruct (dmem _ _); rewrite ?In_dkeys_dset; auto. }
  assert (Fm : forall gs d x, In x (dkeys d) -> In x (dkeys (fold_left f gs d))).
  { induction gs as [|g gs IH]; intros d x Hx; [exact Hx|]. cbn [fold_left]. apply IH, Fk, Hx. }
  assert (Fa : forall d v, In (a, b) (dkeys (f d ([a; b], v))) /\ In (a, b) (dkeys (f d ([b; a], v)))).
  { intros d v. unfold f. cbn [fst snd]. cbv zeta. split.
    - destruct (dmem _ _); rewrite ?In_dkeys_dset; auto.
    - destruct (dmem _ (a, b)) eqn:Em; [apply dmem_spec, Em|]. rewrite In_dkeys_dset. auto. }
  generalize (@nil ((nat * nat) * Q)) as d. revert H. induction gates as [|[qs v] gs IH]; intros H d; cbn [map fst In fold_left] in *; [tauto|].
  destruct H as [[->|H]|[->|H]]; [apply Fm, Fa|apply IH; auto|apply Fm, Fa|apply IH; auto].
Qed.
Definition has_errors (b : bconfig) : Prop :=
  b_indicator b = true -> forall x y, coupled (b_cmap b) x y -> In [x; y] (map fst (b_gates b)) \/ In [y; x] (map fst (b_gates b)).
Lemma sorter_ok b v l : has_errors b -> dget (nodes_of (b_cmap b)) v = Some l ->
  exists l', (if b_indicator b then child_sorter (get_cx_error (b_gates b)) l v else Ok l) = Ok l' /\ Permutation l l'.
Proof.
  intros He Hl. destruct (b_indicator b) eqn:Ei; [|exists l; auto]. unfold child_sorter.
  assert (Hv : In v (dkeys (nodes_of (b_cmap b)))) by (apply dget_Some_In in Hl; eapply In_dkeys; exact Hl). destruct (nodes_spec (b_cmap b)) as (_ & _ & H3). destruct (H3 v Hv) as (l0 & E0 & _ & Hc). rewrite Hl in E0. injection E0 as <-.
  destruct (mapM_total (fun child => do e <- dget_e (get_cx_error (b_gates b)) (child, v); Ok (e, child)) (fun c x => snd x = c) l) as (ks & Ek & Fk).
  { intros c Hin. apply Hc in Hin. assert (Hk : In (c, v) (dkeys (get_cx_error (b_gates b)))) by (apply error_keys; apply coupled_sym in Hin; apply (He Ei) in Hin; tauto).
    unfold dget_e. destruct (dget _ (c, v)) as [e|] eqn:Eg; [|apply dget_None in Eg; contradiction]. cbn [bind]. eauto. }
  rewrite Ek. cbn [bind]. eexists. split; [reflexivity|]. assert (El : map snd ks = l) by (clear -Fk; induction Fk; cbn; congruence). rewrite <- El. apply Permutation_map, stable_sort_perm.
Qed.
Lemma best_max cmap best : NoDup cmap -> In 0 (dkeys (nodes_of cmap)) -> get_best_node (nodes_of cmap) = Ok best -> forall v l l', neighbours cmap best l -> neighbours cmap v l' -> l' <> [] -> length l' <= length l.
Proof.
  intros Hn H0 Hb. destruct (nodes_spec cmap) as (K1 & K2 & K3).
  assert (Len : forall v l' l, dget (nodes_of cmap) v = Some l -> neighbours cmap v l' -> length l' = length l).
  { intros v l' l Hg [N1 N2]. assert (Hv : In v (dkeys (nodes_of cmap))) by (apply dget_Some_In in Hg; eapply In_dkeys; exact Hg). destruct (K3 v Hv) as (l0 & E0 & N0 & C0). rewrite Hg in E0. injection E0 as <-.
    apply Permutation_length, NoDup_Permutation; [exact N1|apply N0, Hn|]. intros b. rewrite N2, C0. tauto. }
  unfold get_best_node in Hb.
  assert (G : forall ks b0 b1, foldM (fun best i => do li <- dget_e (nodes_of cmap) i; do lb <- dget_e (nodes_of cmap) best; Ok (if length lb <? length li then i else best)) ks b0 = Ok b1 ->
    forall l1, dget (nodes_of cmap) b1 = Some l1 -> (forall l0, dget (nodes_of cmap) b0 = Some l0 -> length l0 <= length l1) /\ forall k lk, In k ks -> dget (nodes_of cmap) k = Some lk -> length lk <= length l1).
  { induction ks as [|k ks IH]; intros b0 b1 H l1 H1; cbn [foldM] in H.
    - injection H as ->. split; [intros l0 E; rewrite H1 in E; injection E as ->; lia|intros k lk []].
    - inv_bind H. inv_bind E. inv_bind E. injection E as <-. unfold dget_e in E0, E1. destruct (dget _ k) as [lk|] eqn:Ek; [|discriminate]. destruct (dget _ b0) as [l0|] eqn:Eb; [|discriminate]. injection E0 as ->. injection E1 as ->.
      destruct (IH _ _ H l1 H1) as [A B]. destruct (Nat.ltb_spec (length v1) (length v0)) as [L|L]; pose proof (A _ ltac:(eassumption)) as A'.
      + split; [intros l' E; injection E as <-; lia|]. intros k' lk' [<-|Hk'] Hg; [rewrite Ek in Hg; injection Hg as <-; lia|apply (B k' lk' Hk' Hg)].
      + split; [intros l' E; injection E as <-; lia|]. intros k' lk' [<-|Hk'] Hg; [rewrite Ek in Hg; injection Hg as <-; lia|apply (B k' lk' Hk' Hg)]. }
  intros v l l' Nb Nv Hne. assert (Hv : In v (dkeys (nodes_of cmap))). { apply K2. destruct l' as [|b l']; [contradiction|]. exists b. apply Nv. left. reflexivity. }
  assert (Hbk : In best (dkeys (nodes_of cmap))). { destruct (best_spec (nodes_of cmap) H0) as (b' & E' & Hin). unfold get_best_node in E'. rewrite Hb in E'. injection E' as <-. exact Hin. }
  destruct (K3 best Hbk) as (l1 & E1 & _). destruct (K3 v Hv) as (l2 & E2 & _). rewrite (Len v l' l2 E2 Nv), (Len best l l1 E1 Nb). apply (proj2 (G _ _ _ Hb l1 E1) v l2 Hv E2).
Qed.
Theorem tier_dict_spec b : NoDup (b_cmap b) -> (exists q, coupled (b_cmap b) 0 q) -> has_errors b ->
  exists root td, get_tier_dict b = Ok td /\ get_best_node (nodes_of (b_cmap b)) = Ok root /\ schedule (b_cmap b) root td /\
    (forall v l l', neighbours (b_cmap b) root l -> neighbours (b_cmap b) v l' -> l' <> [] -> length l' <= length l) /\
    (forall v, In v (map snd (edges_of td)) <-> v <> root /\ exists k, k <= 51 /\ walk (b_cmap b) k root v).
Proof.
  intros Hn H0 He. destruct (nodes_spec (b_cmap b)) as (K1 & K2 & K3). apply K2 in H0. destruct (best_spec (nodes_of (b_cmap b)) H0) as (root & Er & Hr).
  destruct (tiers_spec (b_cmap b) (nodes_of (b_cmap b)) (fun ch p => if b_indicator b then child_sorter (get_cx_error (b_gates b)) ch p else Ok ch) root) as (E & RE & GE & XE); auto.
  - intros v Hv. destruct (K3 v Hv) as (l & El & Nl & Cl). exists l. auto.
  - intros v l Hl. apply sorter_ok; assumption.
  - exists root, (cleaned (tiers_of (nodes_of (b_cmap b)) E)). split; [|split; [exact Er|]].
    + unfold get_tier_dict, get_tiers. rewrite Er. cbn [bind]. rewrite RE. cbn [bind]. reflexivity.
    + destruct (cleaned_schedule _ _ _ E GE) as (S1 & S2). split; [exact S1|]. split; [apply best_max; assumption|]. intros v. rewrite S2, <- XE. cbn [In]. pose proof (g_nodup _ _ _ E GE) as Hnd. apply NoDup_cons_iff in Hnd. split; [intros H; split; [intros ->; tauto|auto]|]. intros [H1 [H2|H2]]; [congruence|exact H2].
Qed.

(** ** Growing from the root *)
Lemma nodup_app {A} (l m : list A) : NoDup (l ++ m) -> NoDup l /\ NoDup m /\ forall x, In x l -> ~ In x m.
Proof.
  induction l as [|a l IH]; intros H; [split; [constructor|]; split; [exact H|intros x []]|]. cbn in H. apply NoDup_cons_iff in H. destruct H as [H1 H2]. destruct (IH H2) as (A1 & A2 & A3). rewrite in_app_iff in H1.
  split; [constructor; tauto|]. split; [exact A2|]. intros x [<-|Hx]; [tauto|apply A3, Hx].
Qed.
Lemma grows_app l : forall s m, grows s (l ++ m) <-> grows s l /\ grows (s ++ map snd l) m.
Proof.
  induction l as [|[c t] l IH]; intros s m; cbn [app grows map snd]; [rewrite app_nil_r; tauto|]. rewrite IH, <- app_assoc. cbn [app]. tauto.
Qed.
Lemma grows_tier t : forall s, (forall e, In e t -> In (fst e) s) -> NoDup (map snd t) -> (forall e, In e t -> ~ In (snd e) s) -> grows s t.
Proof.
  induction t as [|[c v] t IH]; intros s H1 H2 H3; [exact I|]. cbn [map snd] in H2. apply NoDup_cons_iff in H2. destruct H2 as [Hv H2]. cbn [grows]. split; [apply (H1 (c, v)); left; reflexivity|]. split; [apply (H3 (c, v)); left; reflexivity|]. apply IH; [|exact H2|].
  - intros e He. apply in_app_iff. left. apply H1. right. exact He.
  - intros e He Hi. apply in_app_iff in Hi. destruct Hi as [Hi|[Hi|[]]]; [apply (H3 e); [right; exact He|exact Hi]|]. apply Hv. rewrite Hi. apply in_map, He.
Qed.
Lemma schedule_grows cmap root td : schedule cmap root td -> grows [root] (edges_of td).
Proof.
  intros Sc. assert (G : forall post pre, td = pre ++ post -> grows (root :: map snd (edges_of pre)) (edges_of post)).
  { induction post as [|[j t] post IH]; intros pre Etd; [exact I|]. unfold edges_of. cbn [map snd concat]. fold (edges_of post). apply grows_app.
    assert (EP : edges_of (pre ++ [(j, t)]) = edges_of pre ++ t) by (unfold edges_of; rewrite map_app, concat_app; cbn; rewrite app_nil_r; reflexivity).
    assert (ET : edges_of td = edges_of pre ++ t ++ edges_of post) by (rewrite Etd; unfold edges_of; rewrite map_app, concat_app; reflexivity).
    assert (Hj : In (j, t) td) by (rewrite Etd; apply in_app_iff; right; left; reflexivity).
    pose proof (sc_targets _ _ _ Sc) as Hnd. rewrite ET, !map_app in Hnd. split.
    - apply grows_tier.
      + intros [c v] He. cbn [fst]. destruct (sc_edges _ _ _ Sc j t c v Hj He) as (_ & [->|(j' & t' & c' & H1 & H2 & H3)]); [left; reflexivity|]. right. assert (Hpre : In (j', t') pre).
        { rewrite Etd in H1. apply in_app_iff in H1. destruct H1 as [H1|H1]; [exact H1|exfalso]. destruct H1 as [H1|H1]; [injection H1 as <- <-; lia|]. apply In_nth_error in H1. destruct H1 as [i Hi].
          assert (j < j'); [|lia]. apply (sc_order _ _ _ Sc (length pre) (length pre + S i)); [| |lia]; rewrite Etd, map_app.
          - rewrite nth_error_app2 by (rewrite map_length; lia). rewrite map_length, Nat.sub_diag. reflexivity.
          - rewrite nth_error_app2 by (rewrite map_length; lia). rewrite map_length. replace (length pre + S i - length pre) with (S i) by lia. cbn. rewrite nth_error_map, Hi. reflexivity. }
        apply in_map_iff. exists (c', c). split; [reflexivity|]. unfold edges_of. apply in_concat. exists t'. split; [apply in_map_iff; exists (j', t'); auto|exact H3].
      + rewrite app_comm_cons in Hnd. apply nodup_app in Hnd. destruct Hnd as (_ & Hnd & _). apply nodup_app in Hnd. apply Hnd.
      + intros e He Hi. rewrite app_comm_cons in Hnd. apply nodup_app in Hnd. destruct Hnd as (_ & _ & Hnd). apply (Hnd (snd e) Hi). apply in_app_iff. left. apply in_map, He.
    - specialize (IH (pre ++ [(j, t)])). rewrite EP, map_app in IH. apply IH. rewrite Etd, <- app_assoc. reflexivity. }
  apply (G td []). reflexivity.
Qed.

(** ** The layout *)
Lemma list_index_app {A} `{Eqb A} (l m : list A) x : In x l -> list_index (l ++ m) x = list_index l x.
Proof. induction l as [|a l IH]; intros Hx; [destruct Hx|]. cbn. destruct (eqb_spec a x) as [->|Hn]; [reflexivity|]. destruct Hx as [Hx|Hx]; [contradiction|]. rewrite IH by exact Hx. reflexivity. Qed.
Lemma list_index_new {A} `{Eqb A} (l m : list A) x : ~ In x l -> list_index (l ++ x :: m) x = Some (length l).
Proof. induction l as [|a l IH]; intros Hx; cbn; [rewrite eqb_refl; reflexivity|]. destruct (eqb_spec a x) as [->|Hn]; [exfalso; apply Hx; left; reflexivity|]. rewrite IH by (intros Hi; apply Hx; right; exact Hi). reflexivity. Qed.
Lemma list_index_in {A} `{Eqb A} (l : list A) x : In x l -> exists i, list_index l x = Some i /\ nth_error l i = Some x.
Proof.
  induction l as [|a l IH]; intros Hx; [destruct Hx|]. cbn. destruct (eqb_spec a x) as [->|Hn]; [exists 0; auto|]. destruct Hx as [Hx|Hx]; [contradiction|]. destruct (IH Hx) as (i & E & Hi). exists (S i). rewrite E. auto.
Qed.
Section Layout.
Variable root : nat.
Variable L : list (nat * nat).
Variable n : nat.
Hypothesis HL : grows [root] L.
Hypothesis Hn : 2 <= n.
Definition all_qubits : list nat := root :: map snd L.
Definition idx (v : nat) : nat := match list_index all_qubits v with Some i => i | None => 0 end.
Definition rel (e : nat * nat) : nat * nat := (idx (fst e), idx (snd e)).
Definition trash_of (P : list (nat * nat)) : list nat := match P with [] => [] | _ => root :: map snd P end.
Lemma trash_snoc P e : trash_of (P ++ [e]) = (root :: map snd P) ++ [snd e].
Proof. destruct P as [|a P]; [reflexivity|]. cbn. rewrite map_app. reflexivity. Qed.

Lemma step_facts P c v rest : L = P ++ (c, v) :: rest -> In c (root :: map snd P) /\ ~ In v (root :: map snd P) /\
  list_index ((root :: map snd P) ++ [v]) c = Some (idx c) /\ list_index ((root :: map snd P) ++ [v]) v = Some (idx v) /\ list_index (root :: map snd P) c = Some (idx c) /\ idx v = S (length P) /\ idx c < S (length P) /\ nth_error (root :: map snd P) (idx c) = Some c.
Proof.
  intros E. pose proof HL as H. rewrite E in H. apply grows_app in H. destruct H as [_ (H1 & H2 & _)]. cbn [app] in H1, H2.
  assert (EA : all_qubits = (root :: map snd P) ++ v :: map snd rest) by (unfold all_qubits; rewrite E, map_app; reflexivity).
  destruct (list_index_in _ c H1) as (i & Ei & Hi). assert (Hic : idx c = i) by (unfold idx; rewrite EA, list_index_app, Ei by exact H1; reflexivity).
  assert (Hiv : idx v = S (length P)) by (unfold idx; rewrite EA, list_index_new by exact H2; cbn; rewrite map_length; reflexivity).
  split; [exact H1|]. split; [exact H2|]. split; [rewrite list_index_app, Ei by exact H1; congruence|]. split; [rewrite list_index_new by exact H2; cbn [length]; rewrite map_length; congruence|]. split; [congruence|]. split; [exact Hiv|].
  rewrite Hic. split; [|exact Hi]. assert (Hlt : i < length (root :: map snd P)) by (apply nth_error_Some; rewrite Hi; discriminate). cbn in Hlt. rewrite map_length in Hlt. lia.
Qed.
Lemma layout_edges_spec edges : forall P rest circ, L = P ++ edges ++ rest -> length P < n - 1 ->
  layout_edges n edges circ (trash_of P) = Ok (circ ++ cxs (map rel (firstn (n - 1 - length P) edges)), trash_of (P ++ firstn (n - 1 - length P) edges)).
Proof.
  induction edges as [|[c v] edges IH]; intros P rest circ E HP.
  - rewrite firstn_nil. cbn. rewrite !app_nil_r. reflexivity.
  - destruct (step_facts P c v (edges ++ rest) E) as (F1 & F2 & F3 & F4 & F5 & F6 & F7 & F8). cbn [layout_edges fst snd].
    assert (T1 : layout_add (trash_of P) c = root :: map snd P).
    { unfold layout_add. destruct P as [|e P]; [cbn in *; destruct F1 as [<-|[]]; reflexivity|]. change (trash_of (e :: P)) with (root :: map snd (e :: P)). rewrite (proj2 (mem_In _ _) F1). reflexivity. }
    rewrite T1. unfold qubit_e at 1. rewrite F5. destruct (Nat.ltb_spec (idx c) n); [|lia]. cbn [bind].
    assert (T2 : layout_add (root :: map snd P) v = (root :: map snd P) ++ [v]). { unfold layout_add. rewrite (proj2 (mem_not_In _ _) F2). reflexivity. }
    rewrite T2. unfold qubit_e. rewrite F3, F4. destruct (Nat.ltb_spec (idx c) n); [|lia]. destruct (Nat.ltb_spec (idx v) n); [|lia]. cbn [bind].
    replace (n - 1 - length P) with (S (n - 1 - length (P ++ [(c, v)]))) by (rewrite app_length; cbn; lia). cbn [firstn map cxs].
    assert (T3 : trash_of (P ++ [(c, v)]) = (root :: map snd P) ++ [v]) by apply trash_snoc. rewrite <- T3.
    assert (T4 : length (trash_of (P ++ [(c, v)])) = S (S (length P))) by (rewrite T3, app_length; cbn; rewrite map_length; lia). rewrite T4.
    destruct (Nat.eqb_spec (S (S (length P))) n) as [En|En].
    + replace (n - 1 - length (P ++ [(c, v)])) with 0 by (rewrite app_length; cbn; lia). cbn [firstn map]. reflexivity.
    + rewrite (IH (P ++ [(c, v)]) rest); [|rewrite <- app_assoc; exact E|rewrite app_length; cbn; lia]. rewrite <- !app_assoc. reflexivity.
Qed.
Lemma layout_tiers_spec barriered ts : forall P rest circ, L = P ++ concat ts ++ rest -> length P < n - 1 ->
  exists circ', layout_tiers n barriered ts circ (trash_of P) = Ok (circ', trash_of (P ++ firstn (n - 1 - length P) (concat ts))) /\
    gates circ' = gates circ ++ gates (cxs (map rel (firstn (n - 1 - length P) (concat ts)))).
Proof.
  induction ts as [|t ts IH]; intros P rest circ E HP.
  - exists circ. cbn [layout_tiers concat]. rewrite firstn_nil. cbn. rewrite !app_nil_r. auto.
  - cbn [layout_tiers concat] in *. rewrite (layout_edges_spec t P (concat ts ++ rest)); [|rewrite E, <- app_assoc; reflexivity|exact HP]. cbn [bind].
    set (Q := firstn (n - 1 - length P) t). set (circ1 := if barriered then _ else _).
    assert (G1 : gates circ1 = gates circ ++ gates (cxs (map rel Q))). { unfold circ1. destruct barriered; rewrite !gates_app; [rewrite app_nil_r|]; reflexivity. }
    rewrite firstn_app. fold Q. destruct (Nat.eqb_spec (length (trash_of (P ++ Q))) n) as [En|En].
    + assert (LQ : length (P ++ Q) = n - 1). { destruct (P ++ Q) as [|e l] eqn:Epq; [cbn in En; lia|]. cbn in En. rewrite map_length in En. cbn. lia. }
      replace (n - 1 - length P - length t) with 0. 2: { rewrite app_length in LQ. assert (length Q <= length t) by (unfold Q; rewrite firstn_length; lia). lia. }
      cbn [firstn]. rewrite app_nil_r. exists circ1. auto.
    + assert (LQ : length Q = length t /\ length P + length t < n - 1).
      { unfold Q. rewrite firstn_length. destruct (Nat.le_gt_cases (n - 1 - length P) (length t)) as [Hc|Hc]; [exfalso|lia]. apply En. assert (LQ : length (P ++ Q) = n - 1) by (rewrite app_length; unfold Q; rewrite firstn_length; lia). destruct (P ++ Q) as [|e l] eqn:Epq; [cbn in LQ; lia|]. cbn. rewrite map_length. cbn in LQ. lia. }
      assert (EQ : Q = t) by (unfold Q; apply firstn_all2; lia). rewrite EQ in *. destruct (IH (P ++ t) rest circ1) as (circ' & R & GR); [rewrite E, <- !app_assoc; reflexivity|rewrite app_length; lia|].
      exists circ'. rewrite R, GR, G1. replace (n - 1 - length (P ++ t)) with (n - 1 - length P - length t) by (rewrite app_length; lia). split; [rewrite <- app_assoc; reflexivity|]. rewrite map_app. unfold cxs. rewrite map_app, gates_app, <- app_assoc. reflexivity.
Qed.
(** The relabelled edges. *)
Lemma idx_root : idx root = 0.
Proof. unfold idx, all_qubits. cbn. rewrite eqb_refl. reflexivity. Qed.
Lemma rel_tree Q rest : L = Q ++ rest -> length Q = n - 1 -> tree n (map rel Q) /\ NoDup (root :: map snd Q) /\
  forall e, In e Q -> nth (idx (fst e)) (root :: map snd Q) 0 = fst e /\ nth (idx (snd e)) (root :: map snd Q) 0 = snd e /\ idx (fst e) < n /\ idx (snd e) < n.
Proof.
  intros E HQ. assert (G : forall post pre, Q = pre ++ post ->
    Forall (proper n) (map rel post) /\ grows (map idx (root :: map snd pre)) (map rel post) /\ map snd (map rel post) = seq (S (length pre)) (length post) /\
    forall e, In e post -> nth (idx (fst e)) (root :: map snd Q) 0 = fst e /\ nth (idx (snd e)) (root :: map snd Q) 0 = snd e /\ idx (fst e) < n /\ idx (snd e) < n).
  { induction post as [|[c v] post IH]; intros pre EQ; [split; [constructor|]; split; [exact I|]; split; [reflexivity|intros e []]|].
    destruct (IH (pre ++ [(c, v)])) as (I1 & I2 & I3 & I4); [rewrite EQ, <- app_assoc; reflexivity|].
    destruct (step_facts pre c v (post ++ rest)) as (F1 & F2 & _ & _ & _ & F6 & F7 & F8). { rewrite E, EQ, <- app_assoc. reflexivity. }
    assert (Hlen : length pre < n - 1) by (rewrite <- HQ, EQ, app_length; cbn; lia).
    assert (HA : forall w, In w (root :: map snd pre) -> idx w <= length pre).
    { intros w Hw. unfold idx. assert (EA : all_qubits = (root :: map snd pre) ++ v :: map snd (post ++ rest)) by (unfold all_qubits; rewrite E, EQ, <- app_assoc, map_app; reflexivity). rewrite EA, list_index_app by exact Hw.
      destruct (list_index_in _ w Hw) as (i & -> & Hi). assert (Hlt : i < length (root :: map snd pre)) by (apply nth_error_Some; rewrite Hi; discriminate). cbn in Hlt. rewrite map_length in Hlt. lia. }
    cbn [map]. split; [constructor; [unfold proper, rel; cbn [fst snd]; lia|exact I1]|]. split; [|split].
    - unfold rel at 1. cbn [grows fst snd]. change (idx root :: map idx (map snd pre)) with (map idx (root :: map snd pre)). split; [apply in_map, F1|]. split; [intros Hi; apply in_map_iff in Hi; destruct Hi as (w & Ew & Hw); apply HA in Hw; lia|]. rewrite map_app, app_comm_cons, map_app in I2. exact I2.
    - cbn [map]. rewrite I3. cbn [length seq]. rewrite app_length, Nat.add_1_r. cbn [rel snd]. f_equal. exact F6.
    - intros e [<-|He]; [|apply I4, He]. cbn [fst snd]. split; [|split; [|lia]].
      + rewrite EQ, map_app, app_comm_cons, app_nth1 by (cbn; rewrite map_length; lia). apply nth_error_nth, F8.
      + rewrite F6, EQ, map_app, app_comm_cons, app_nth2 by (cbn; rewrite map_length; lia). cbn [length]. rewrite map_length, Nat.sub_diag. reflexivity. }
  destruct (G Q [] eq_refl) as (G1 & G2 & G3 & G4). split; [constructor|split; [|exact G4]].
  - exact G1.
  - cbn in G2. rewrite idx_root in G2. exact G2.
  - intros j Hj. rewrite G3, HQ. destruct j as [|j]; [left; reflexivity|right]. apply in_seq. cbn. lia.
  - assert (ND : forall l s, grows s l -> NoDup s -> NoDup (s ++ map snd l)).
    { induction l as [|[c t] l IHl]; intros s H Hs; cbn; [rewrite app_nil_r; exact Hs|]. destruct H as (_ & H2 & H3). specialize (IHl (s ++ [t]) H3). rewrite <- app_assoc in IHl. cbn in IHl. apply IHl. clear -Hs H2. induction s as [|a s IHs]; cbn; [constructor; [intros []|constructor]|]. apply NoDup_cons_iff in Hs. constructor; [rewrite in_app_iff; intros [H|[H|[]]]; [tauto|subst; apply H2; left; reflexivity]|apply IHs; [intros Hi; apply H2; right; exact Hi|tauto]]. }
    pose proof HL as H. rewrite E in H. apply grows_app in H. destruct H as [H _]. apply (ND Q [root] H). constructor; [intros []|constructor].
Qed.
End Layout.

(** A controlled-not gate of the circuit, on the physical qubits of the layout. *)
Lemma gates_cxs_in l g : In g (gates (cxs l)) -> exists e, In e l /\ gname g = str "cx" /\ gqubits g = [fst e; snd e].
Proof.
  unfold cxs. induction l as [|e l IH]; intros H; [destruct H|]. destruct H as [<-|H]; [exists e; cbn; auto|]. destruct (IH H) as (e' & H1 & H2). exists e'. cbn. auto.
Qed.
Theorem layout_spec {F} {HF : Fld F} (gmat : pystr -> list Q -> bits -> bits -> F) r i (Hstd : std_gates gmat r i) b n barriered qs :
  NoDup (b_cmap b) -> (exists q, coupled (b_cmap b) 0 q) -> has_errors b -> 2 <= n ->
  (forall root, get_best_node (nodes_of (b_cmap b)) = Ok root -> NoDup qs /\ length qs = n /\ forall v, In v qs -> exists k, k <= 51 /\ walk (b_cmap b) k root v) ->
  exists root circ layout, get_best_node (nodes_of (b_cmap b)) = Ok root /\ get_ghz_layout b n barriered = Ok (circ, layout) /\
    length layout = n /\ NoDup layout /\ nth 0 layout 0 = root /\ (forall v, In v layout -> exists k, k <= 51 /\ walk (b_cmap b) k root v) /\
    (forall g, In g (gates circ) -> g = {| gname := str "h"; gparams := []; gqubits := [0] |} \/
       (exists c t, gname g = str "cx" /\ gqubits g = [c; t] /\ c < n /\ t < n /\ coupled (b_cmap b) (nth c layout 0) (nth t layout 0))) /\
    eqa n (final gmat n circ) (ghz r n).
Proof.
  intros Hnd H0 He Hn Hqs. destruct (tier_dict_spec b Hnd H0 He) as (root & td & Htd & Er & Sc & _ & HT). destruct (Hqs root Er) as (Q1 & Q2 & Q3).
  set (L := edges_of td). assert (HLn : n - 1 <= length L).
  { assert (Hi : incl qs (root :: map snd L)). { intros v Hv. destruct (Nat.eq_dec v root) as [->|Hne]; [left; reflexivity|right]. apply HT. split; [exact Hne|apply Q3, Hv]. }
    apply (NoDup_incl_length Q1) in Hi. cbn in Hi. rewrite map_length in Hi. lia. }
  pose proof (schedule_grows _ _ _ Sc) as HG. fold L in HG.
  destruct (layout_tiers_spec root L n HG Hn barriered (map snd td) [] [] [had 0]) as (circ & R & GR); [cbn; rewrite app_nil_r; reflexivity|cbn; lia|].
  cbn [length] in R, GR. rewrite Nat.sub_0_r in R, GR. fold (edges_of td) in R, GR. fold L in R, GR. cbn [app] in R.
  set (Q := firstn (n - 1) L) in *. assert (LQ : length Q = n - 1) by (unfold Q; rewrite firstn_length; lia).
  assert (EL : L = Q ++ skipn (n - 1) L) by (unfold Q; symmetry; apply firstn_skipn).
  destruct (rel_tree root L n HG Hn Q _ EL LQ) as (TR & ND & NTH).
  assert (TQ : trash_of root Q = root :: map snd Q) by (destruct Q; [cbn in LQ; lia|reflexivity]).
  exists root, circ, (root :: map snd Q). split; [exact Er|]. split.
  { unfold get_ghz_layout. rewrite Htd. cbn [bind]. unfold register. destruct (Nat.eqb_spec n 0); [lia|]. cbn [bind]. rewrite TQ in R. exact R. }
  split; [cbn; rewrite map_length; lia|]. split; [exact ND|]. split; [reflexivity|]. split.
  { intros v [<-|Hv]; [exists 0; split; [lia|constructor]|]. apply HT. fold L. rewrite EL, map_app. apply in_app_iff. left. exact Hv. }
  split.
  { intros g Hg. rewrite GR in Hg. apply in_app_iff in Hg. destruct Hg as [[<-|[]]|Hg]; [left; reflexivity|right]. apply gates_cxs_in in Hg. destruct Hg as (e & Hin & G1 & G2). apply in_map_iff in Hin. destruct Hin as (e0 & <- & Hin). destruct (NTH e0 Hin) as (N1 & N2 & N3 & N4).
    exists (idx root L (fst e0)), (idx root L (snd e0)). split; [exact G1|]. split; [exact G2|]. split; [exact N3|]. split; [exact N4|]. rewrite N1, N2.
    assert (Hl : In e0 L) by (rewrite EL; apply in_app_iff; left; exact Hin). unfold L, edges_of in Hl. apply in_concat in Hl. destruct Hl as (t & Ht & Hl). apply in_map_iff in Ht. destruct Ht as ([j t'] & <- & Ht). destruct e0 as [c v]. apply (sc_edges _ _ _ Sc j t' c v Ht Hl). }
  intros x Hx. unfold final. rewrite GR. change (gates [had 0] ++ gates (cxs (map (rel root L) Q))) with (gates (had 0 :: cxs (map (rel root L) Q))). apply (tree_ghz gmat r i Hstd); [lia|exact TR|exact Hx].
Qed.
