(** The order of the gates of a control in a schedule (C41). *)
From Coq Require Import QArith Lqa Permutation Sorted.
From Verif Require Import LinAlg Base CountsModel ResultFacts QSem DihedralModel RBSeqModel RBSeqSpec StdGates AccSpec AccLayerProofs EntModel EntSpec EntGhzProofs EntTierProofs EntLayoutProofs EntOrderSpec.
Open Scope nat_scope.

(** * The errors *)
Lemma find_app {A} (f : A -> bool) l m : find f (l ++ m) = match find f l with Some x => Some x | None => find f m end.
Proof. induction l as [|a l IH]; [reflexivity|]. cbn. destruct (f a); auto. Qed.
Lemma cx_error_value gates c p : c <> p -> dget (get_cx_error gates) (c, p) = reported gates c p.
Proof.
  intros Hcp. induction gates as [|[qs v] gates IH] using rev_ind; [reflexivity|].
  unfold get_cx_error. rewrite fold_left_app. cbn [fold_left]. fold (get_cx_error gates). set (d := get_cx_error gates) in *. cbn [fst snd].
  unfold reported in *. rewrite rev_app_distr. cbn [rev app find fst snd]. rewrite find_app. cbn [find fst snd].
  destruct qs as [|a [|b [|]]];
    try (match goal with |- context[eqb ?q [c; p]] => destruct (eqb_spec q [c; p]) as [E|_]; [discriminate E|] end; match goal with |- context[eqb ?q [p; c]] => destruct (eqb_spec q [p; c]) as [E|_]; [discriminate E|] end;
         rewrite IH; destruct (find _ (rev gates)); [reflexivity|]; destruct (find _ gates); reflexivity).
  destruct (eqb_spec [a; b] [c; p]) as [E|E].
  - injection E as -> ->. assert (X : dget (dset d (c, p) v) (c, p) = Some v) by (rewrite dget_dset, eqb_refl; reflexivity).
    destruct (dmem (dset d (c, p) v) (p, c)); [exact X|]. rewrite dget_dset. destruct (eqb_spec (c, p) (p, c)) as [E'|_]; [injection E' as E' _; contradiction|]. exact X.
  - destruct (eqb_spec [a; b] [p; c]) as [E'|E'].
    + injection E' as -> ->. rewrite dmem_dget. rewrite dget_dset. destruct (eqb_spec (c, p) (p, c)) as [E'|_]; [injection E' as E' _; contradiction|].
      rewrite IH. destruct (find _ (rev gates)) as [g|] eqn:Eg; [rewrite dget_dset; destruct (eqb_spec (c, p) (p, c)) as [E'|_]; [injection E' as E' _; contradiction|]; exact IH|].
      destruct (find (fun g => eqb (fst g) [p; c]) gates) as [g|]; [rewrite dget_dset; destruct (eqb_spec (c, p) (p, c)) as [E'|_]; [injection E' as E' _; contradiction|]; exact IH|].
      rewrite dget_dset, eqb_refl. reflexivity.
    + assert (N1 : (c, p) <> (a, b)) by (intros H; injection H as -> ->; contradiction). assert (N2 : (c, p) <> (b, a)) by (intros H; injection H as -> ->; contradiction).
      assert (X : dget (if dmem (dset d (a, b) v) (b, a) then dset d (a, b) v else dset (dset d (a, b) v) (b, a) v) (c, p) = dget d (c, p)).
      { destruct (dmem _ _); rewrite !dget_dset; destruct (eqb_spec (c, p) (a, b)); try contradiction; destruct (eqb_spec (c, p) (b, a)); try contradiction; reflexivity. }
      cbv zeta. rewrite X, IH. destruct (find _ (rev gates)); [reflexivity|]. destruct (find _ gates); reflexivity.
Qed.

(** * Sorted children *)
Lemma insert_sorted {A} (le : A -> A -> bool) (R : A -> A -> Prop) : (forall a b, le a b = true -> R a b) -> (forall a b, le a b = false -> R b a) -> (forall a b c, R a b -> R b c -> R a c) ->
  forall a l, StronglySorted R l -> StronglySorted R (insert_stable le a l).
Proof.
  intros H1 H2 H3 a l. induction l as [|b l IH]; intros Hs; [repeat constructor|]. cbn. inversion Hs as [|? ? Hs' Hb]; subst. destruct (le a b) eqn:E.
  - constructor; [exact Hs|]. constructor; [auto|]. eapply Forall_impl; [|exact Hb]. intros x Hx. apply (H3 a b x); auto.
  - constructor; [auto|]. apply Forall_forall. intros x Hx. assert (P : Permutation (a :: l) (insert_stable le a l)).
    { clear. induction l as [|c l IH]; [constructor; constructor|]. cbn. destruct (le a c); [reflexivity|]. rewrite perm_swap. constructor. exact IH. }
    apply (Permutation_in _ (Permutation_sym P)) in Hx. destruct Hx as [<-|Hx]; [auto|]. rewrite Forall_forall in Hb. auto.
Qed.
Lemma sort_sorted {A} (le : A -> A -> bool) (R : A -> A -> Prop) : (forall a b, le a b = true -> R a b) -> (forall a b, le a b = false -> R b a) -> (forall a b c, R a b -> R b c -> R a c) ->
  forall l, StronglySorted R (stable_sort le l).
Proof. intros H1 H2 H3 l. unfold stable_sort. induction l as [|a l IH]; [constructor|]. cbn. apply insert_sorted; assumption. Qed.
Lemma sorter_sorted gates p ch l : (forall a, In a ch -> a <> p) -> child_sorter (get_cx_error gates) ch p = Ok l -> StronglySorted (nearer gates p) l.
Proof.
  intros Hne H. unfold child_sorter in H. inv_bind H. injection H as <-. apply mapM_inv in E.
  assert (Hv : Forall (fun ec => reported gates (snd ec) p = Some (fst ec)) v).
  { clear -E Hne. induction E as [|a ec ch l Ha E IH]; [constructor|]. constructor; [|apply IH; intros; apply Hne; now right]. inv_bind Ha. injection Ha as <-. cbn [fst snd]. unfold dget_e in E0. rewrite cx_error_value in E0 by (apply Hne; now left). destruct (reported gates a p); [now injection E0 as ->|discriminate]. }
  assert (S : StronglySorted (fun a b => fst a <= fst b)%Q (stable_sort (fun a b : Q * nat => Qle_bool (fst a) (fst b)) v)).
  { apply sort_sorted; [intros a b; apply Qle_bool_iff| |intros a b c; apply Qle_trans]. intros a b Hab. destruct (Qlt_le_dec (fst b) (fst a)) as [L|L]; [now apply Qlt_le_weak|]. apply Qle_bool_iff in L. congruence. }
  assert (Hv' : Forall (fun ec => reported gates (snd ec) p = Some (fst ec)) (stable_sort (fun a b : Q * nat => Qle_bool (fst a) (fst b)) v)) by (eapply Permutation_Forall; [apply stable_sort_perm|exact Hv]).
  revert S Hv'. generalize (stable_sort (fun a b : Q * nat => Qle_bool (fst a) (fst b)) v). clear. induction l as [|x l IH]; intros S Hv; [constructor|]. inversion S; subst. inversion Hv; subst. cbn [map]. constructor; [auto|].
  apply Forall_forall. intros y Hy. apply in_map_iff in Hy. destruct Hy as (z & <- & Hz). intros ea eb Ea Eb. rewrite Forall_forall in H2, H4. specialize (H2 z Hz). specialize (H4 z Hz). congruence.
Qed.

(** * The order of the gates *)
Definition at_tier (tiers : list (list (nat * nat))) (j p v : nat) : Prop := exists t, nth_error tiers j = Some t /\ In (p, v) t.
Lemma add_edge_at p v : forall tiers j tiers', add_edge tiers j (p, v) = Ok tiers' -> forall i q w, at_tier tiers' i q w <-> at_tier tiers i q w \/ (i = j /\ q = p /\ w = v).
Proof.
  induction tiers as [|t ts IH]; intros j tiers' H i q w; [discriminate|]. destruct j as [|j]; cbn in H.
  - injection H as <-. unfold at_tier. destruct i as [|i]; cbn [nth_error].
    + split.
      * intros (t' & E & Hi). injection E as <-. apply in_app_iff in Hi. destruct Hi as [Hi|[Hi|[]]]; [left; eauto|injection Hi as <- <-; auto].
      * intros [(t' & E & Hi)|(_ & -> & ->)]; [injection E as <-|]; eexists; (split; [reflexivity|]); apply in_app_iff; [auto|right; now left].
    + split; [auto|intros [H|(H & _)]; [exact H|discriminate]].
  - inv_bind H. injection H as <-. destruct i as [|i]; [unfold at_tier; cbn [nth_error]; split; [auto|intros [H|(H & _)]; [exact H|discriminate]]|].
    unfold at_tier. cbn [nth_error]. fold (at_tier v0 i q w). fold (at_tier ts i q w). rewrite (IH _ _ E i q w). split; (intros [H|(H1 & H2)]; [auto|right; split; [lia|exact H2]]).
Qed.
Lemma add_children_at p : forall l s j s' j', foldM (add_child p) l (s, j) = Ok (s', j') -> t_trash s' = t_trash s ++ l /\
  forall i q w, at_tier (t_tier s') i q w <-> at_tier (t_tier s) i q w \/ (q = p /\ exists k, i = j + k /\ nth_error l k = Some w).
Proof.
  induction l as [|v l IH]; intros s j s' j' H; cbn [foldM] in H.
  - injection H as <- <-. split; [now rewrite app_nil_r|]. intros i q w. split; [auto|]. intros [H|(_ & k & _ & H)]; [exact H|destruct k; discriminate].
  - inv_bind H. destruct v0 as [s1 j1]. unfold add_child in E. inv_bind E. injection E as <- <-. destruct (IH _ _ _ _ H) as [T A]. cbn [t_trash t_tier] in *. split; [rewrite T, <- app_assoc; reflexivity|].
    intros i q w. rewrite A, (add_edge_at p v _ _ _ E0 i q w). split.
    + intros [[H'|(-> & -> & ->)]|(-> & k & -> & Hk)]; [auto|right; split; [reflexivity|]; exists 0; split; [lia|reflexivity]|]. right. split; [reflexivity|]. exists (S k). split; [lia|exact Hk].
    + intros [H'|(-> & k & -> & Hk)]; [auto|]. destruct k as [|k]; [left; right; injection Hk as <-; repeat split; lia|]. right. split; [reflexivity|]. exists k. split; [lia|exact Hk].
Qed.
Section Order.
Variable nodes : list (nat * list nat).
Variable sorter : list nat -> nat -> result (list nat).
Variable R : nat -> nat -> nat -> Prop.
Hypothesis Hsort : forall p ch l, dget nodes p = Some ch -> sorter ch p = Ok l -> StronglySorted (R p) l.
Definition in_order (s : tstate) : Prop :=
  (forall p i v, at_tier (t_tier s) i p v -> exists ch l, dget nodes p = Some ch /\ sorter ch p = Ok l /\ incl l (t_trash s)) /\
  (forall p i j a b, at_tier (t_tier s) i p a -> at_tier (t_tier s) j p b -> i < j -> R p a b).
Lemma sorted_nth {A} (Q : A -> A -> Prop) l : StronglySorted Q l -> forall i j a b, nth_error l i = Some a -> nth_error l j = Some b -> i < j -> Q a b.
Proof.
  induction 1 as [|x l Hs IH Hx]; intros i j a b Hi Hj Hij; [destruct i; discriminate|]. destruct j as [|j]; [lia|]. cbn in Hj. destruct i as [|i]; [injection Hi as <-; rewrite Forall_forall in Hx; apply Hx; eapply nth_error_In; exact Hj|]. apply (IH i j a b Hi Hj). lia.
Qed.
Lemma sorted_filter {A} (Q : A -> A -> Prop) (f : A -> bool) l : StronglySorted Q l -> StronglySorted Q (filter f l).
Proof. induction 1 as [|x l Hs IH Hx]; [constructor|]. cbn. destruct (f x); [|exact IH]. constructor; [exact IH|]. apply Forall_forall. intros y Hy. apply filter_In in Hy. rewrite Forall_forall in Hx. apply Hx, Hy. Qed.
Lemma parent_in_order st p st' : one_parent nodes sorter st p = Ok st' -> in_order (fst st) -> in_order (fst st').
Proof.
  destruct st as [s total]. unfold one_parent. intros H [I1 I2]. inv_bind H. inv_bind H. inv_bind H. inv_bind H. injection H as <-. cbn [fst] in *. destruct v2 as [s' j']. cbn [fst] in *.
  unfold dget_e in E. destruct (dget nodes p) as [ch|] eqn:Ep; [|discriminate]. injection E as ->. rename v0 into l. set (new := filter (fun a => negb (mem a (t_trash s))) l) in *.
  destruct (add_children_at p new s v1 s' j' E2) as [T A].
  assert (Il : incl l (t_trash s')). { intros x Hx. rewrite T, in_app_iff. destruct (mem x (t_trash s)) eqn:Em; [left; apply mem_In, Em|right; apply filter_In; split; [exact Hx|now rewrite Em]]. }
  assert (Hnew : (exists i w, at_tier (t_tier s) i p w) -> new = []).
  { intros (i & w & Hw). destruct (I1 p i w Hw) as (ch' & l' & E' & El & Hi). rewrite Ep in E'. injection E' as <-. rewrite E0 in El. injection El as <-. clear -Hi. unfold new. induction l as [|x l IH]; [reflexivity|]. cbn. assert (Hx : mem x (t_trash s) = true) by (apply mem_In, Hi; now left). rewrite Hx. cbn. apply IH. intros y Hy. apply Hi. now right. }
  split.
  - intros q i w Hw. apply A in Hw. destruct Hw as [Hw|(-> & k & _ & _)]; [|exists v, l; auto]. destruct (I1 q i w Hw) as (ch' & l' & E' & El & Hi). exists ch', l'. split; [exact E'|]. split; [exact El|]. intros x Hx. rewrite T, in_app_iff. left. auto.
  - intros q i j a b Ha Hb Hij. apply A in Ha, Hb. destruct Ha as [Ha|(-> & k & -> & Hk)], Hb as [Hb|(Eq & k' & -> & Hk')].
    + apply (I2 q i j a b); assumption.
    + subst q. rewrite Hnew in Hk' by eauto. destruct k'; discriminate.
    + rewrite Hnew in Hk by eauto. destruct k; discriminate.
    + apply (sorted_nth (R p) new) with (i := k) (j := k'); [apply sorted_filter; apply (Hsort p v l Ep E0)|assumption|assumption|lia].
Qed.
Lemma loop_in_order : forall fuel s ps s', tier_loop nodes sorter fuel s ps = Ok s' -> in_order s -> in_order s'.
Proof.
  assert (F : forall ps st st', foldM (one_parent nodes sorter) ps st = Ok st' -> in_order (fst st) -> in_order (fst st')).
  { induction ps as [|p ps IH]; intros st st' H I; cbn [foldM] in H; [injection H as <-; exact I|]. inv_bind H. apply (IH _ _ H), (parent_in_order st p v E I). }
  induction fuel as [|fuel IH]; intros s ps s' H I; cbn [tier_loop] in H; inv_bind H; destruct v as [s1 total]; apply F in E; [|exact I| |exact I]; cbn [fst] in E; (destruct (_ =? _); [injection H as <-; exact E|]).
  - injection H as <-. exact E.
  - apply (IH _ _ _ H E).
Qed.
Lemma tiers_in_order best tiers : tiers_from nodes sorter best = Ok tiers -> forall p i j a b, at_tier tiers i p a -> at_tier tiers j p b -> i < j -> R p a b.
Proof.
  unfold tiers_from. intros H. inv_bind H. injection H as <-. apply loop_in_order in E; [apply E|]. cbn [t_tier t_trash].
  assert (N : forall k i p w, ~ at_tier (repeat [] k) i p w) by (intros k i p w (t & Ht & Hi); apply nth_error_In, repeat_spec in Ht; subst; destruct Hi).
  split; intros; exfalso; eapply N; eassumption.
Qed.
End Order.

Lemma tier_dict_order b td : (forall x, ~ coupled (b_cmap b) x x) -> b_indicator b = true -> get_tier_dict b = Ok td ->
  forall i j t t' p x y, In (i, t) td -> In (j, t') td -> i < j -> In (p, x) t -> In (p, y) t' -> nearer (b_gates b) p x y.
Proof.
  intros Hnc Hi H i j t t' p x y Ht Ht' Hij Hx Hy. unfold get_tier_dict in H. inv_bind H. injection H as <-. fold (cleaned v) in Ht, Ht'. unfold get_tiers in E. inv_bind E. rewrite Hi in E. apply cleaned_in in Ht, Ht'.
  destruct (nodes_spec (b_cmap b)) as (_ & _ & K3).
  apply (tiers_in_order _ _ (nearer (b_gates b)) ) with (p := p) (i := i) (j := j) (a := x) (b := y) in E; auto.
  - intros q ch l Hq Hl. apply (sorter_sorted (b_gates b) q ch l); [|exact Hl]. intros a Ha ->. assert (Hv : In q (dkeys (nodes_of (b_cmap b)))) by (apply dget_Some_In in Hq; eapply In_dkeys; exact Hq). destruct (K3 q Hv) as (l0 & E1 & _ & Hc). rewrite Hq in E1. injection E1 as <-. apply Hc in Ha. exact (Hnc q Ha).
  - exists t. split; [apply Ht|exact Hx].
  - exists t'. split; [apply Ht'|exact Hy].
Qed.
