(** The contracts assumed of [networkx] can be met: a shortest path search and
    an exhaustive matching search satisfy them. *)
From Verif Require Import Base RepCodeModel RepCodeSpec.

Section Paths.
  Context {A : Type} `{Eqb A}.

  Fixpoint pathb (E : list (A * A)) (u v : A) (n : nat) : bool :=
    match n with
    | 0 => eqb u v
    | S k => existsb (fun e => (eqb (fst e) u && pathb E (snd e) v k) || (eqb (snd e) u && pathb E (fst e) v k)) E
    end.
  Lemma pathb_spec E v n : forall u, pathb E u v n = true <-> path E u v n.
  Proof.
    induction n as [|n IH]; intros u; cbn [pathb path]; [apply eqb_eq|].
    rewrite existsb_exists. split.
    - intros ([a b] & Hin & Hb). cbn [fst snd] in Hb. apply orb_true_iff in Hb as [Hb|Hb]; apply andb_true_iff in Hb as [Ha Hp];
        apply eqb_true in Ha; subst; apply IH in Hp; eexists; split; try exact Hp; auto.
    - intros (w & [Hw|Hw] & Hp); apply IH in Hp.
      + exists (u, w). split; [exact Hw|]. cbn. rewrite eqb_refl, Hp. reflexivity.
      + exists (w, u). split; [exact Hw|]. cbn. rewrite eqb_refl, Hp. cbn. apply Bool.orb_true_r.
  Qed.

  Fixpoint chain (E : list (A * A)) (u : A) (l : list A) : Prop :=
    match l with [] => True | w :: l' => (In (u, w) E \/ In (w, u) E) /\ chain E w l' end.
  Lemma last_cons (w : A) l u : last (w :: l) u = last l w.
  Proof.
    revert w. induction l as [|a l IH]; intros w; [reflexivity|].
    change (last (w :: a :: l) u) with (last (a :: l) u). rewrite IH.
    destruct l as [|b l]; [reflexivity|]. change (last (a :: b :: l) w) with (last (b :: l) w). rewrite <- (IH a).
    change (last (a :: b :: l) u) with (last (b :: l) u). clear. revert b. induction l as [|c l IH]; intros b; [reflexivity|].
    change (last (b :: c :: l) u) with (last (c :: l) u). change (last (b :: c :: l) w) with (last (c :: l) w). apply IH.
  Qed.
  Lemma path_chain E v n : forall u, path E u v n <-> exists l, length l = n /\ chain E u l /\ last l u = v.
  Proof.
    induction n as [|n IH]; intros u; cbn [path].
    - split; [intros ->; exists []; repeat split|]. intros ([|] & Hl & _ & Hv); [exact Hv | discriminate].
    - split.
      + intros (w & Hw & Hp). apply IH in Hp as (l & Hl & Hc & Hv). exists (w :: l). repeat split; [cbn; congruence | exact Hw | exact Hc|].
        rewrite last_cons. exact Hv.
      + intros ([|w l] & Hl & Hc & Hv); [discriminate|]. destruct Hc as [Hw Hc]. exists w. split; [exact Hw|]. apply IH.
        exists l. repeat split; [cbn in Hl; lia | exact Hc|]. rewrite last_cons in Hv. exact Hv.
  Qed.

  Lemma chain_app E l l' : forall u, chain E u (l ++ l') <-> chain E u l /\ chain E (last l u) l'.
  Proof.
    induction l as [|w l IH]; intros u; cbn [app chain]; [cbn; tauto|].
    rewrite IH, last_cons. tauto.
  Qed.

  Lemma dup_split (l : list A) : NoDup l \/ exists x l1 l2 l3, l = l1 ++ x :: l2 ++ x :: l3.
  Proof.
    induction l as [|a l IH]; [left; constructor|]. destruct (mem a l) eqn:Em.
    - right. apply mem_In in Em. apply in_split in Em as (l2 & l3 & ->). exists a, [], l2, l3. reflexivity.
    - apply mem_not_In in Em. destruct IH as [Hn|(x & l1 & l2 & l3 & ->)]; [left; constructor; assumption|].
      right. exists x, (a :: l1), l2, l3. reflexivity.
  Qed.

  Lemma last_app_cons (l : list A) x l' u : last (l ++ x :: l') u = last l' x.
  Proof.
    revert u. induction l as [|a l IH]; intros u.
    - apply last_cons.
    - cbn [app]. rewrite last_cons. apply IH.
  Qed.

  Lemma chain_verts E l : forall u x, chain E u l -> In x l -> In x (endpoints E).
  Proof.
    assert (Hend : forall a b, In (a, b) E -> In a (endpoints E) /\ In b (endpoints E)).
    { clear. induction E as [|[c d] E IH]; intros a b Hi; [destruct Hi|]; destruct Hi as [Hi|Hi]; cbn; [injection Hi as -> ->; auto | destruct (IH _ _ Hi); auto]. }
    induction l as [|w l IH]; intros u x Hc Hx; [destruct Hx|]. destruct Hc as [Hw Hc]. destruct Hx as [->|Hx]; [|eapply IH; eassumption].
    destruct Hw as [Hw|Hw]; apply Hend in Hw; tauto.
  Qed.

  Lemma short_path (E : list (A * A)) u v n : path E u v n -> exists k, k <= length (endpoints E) /\ k <= n /\ path E u v k.
  Proof.
    induction n as [n IH] using lt_wf_ind. intros Hp.
    destruct (Nat.le_gt_cases n (length (endpoints E))) as [Hle|Hgt]; [exists n; auto|].
    apply path_chain in Hp as (l & Hl & Hc & Hv).
    destruct (dup_split l) as [Hn|(x & l1 & l2 & l3 & ->)].
    - exfalso. assert (length l <= length (endpoints E)); [|lia]. apply NoDup_incl_length; [exact Hn|]. intros y Hy. eapply chain_verts; eassumption.
    - apply chain_app in Hc as [Hc1 Hc2]. destruct Hc2 as [Hx Hc2]. apply chain_app in Hc2 as [_ [_ Hc3]].
      rewrite last_app_cons in Hv. rewrite last_app_cons in Hv.
      rewrite app_length in Hl. cbn [length] in Hl. rewrite app_length in Hl. cbn [length] in Hl.
      assert (Hp' : path E u v (length (l1 ++ x :: l3))).
      { apply path_chain. exists (l1 ++ x :: l3). repeat split; [apply chain_app; repeat split; assumption|]. rewrite last_app_cons. exact Hv. }
      destruct (IH (length (l1 ++ x :: l3))) as (k & Hk & Hk' & Hpk); [rewrite app_length; cbn; lia | exact Hp'|].
      exists k. split; [exact Hk|]. split; [rewrite app_length in Hk'; cbn in Hk'; lia | exact Hpk].
  Qed.

  Definition spl_search (E : list (A * A)) (u v : A) : option nat :=
    find (pathb E u v) (seq 0 (length (endpoints E) + 1)).

  Lemma find_seq_min f k : forall i n, find f (seq i k) = Some n -> f n = true /\ i <= n /\ forall m, i <= m < n -> f m = false.
  Proof.
    induction k as [|k IH]; intros i n; cbn; [discriminate|]. destruct (f i) eqn:E.
    - intros [= <-]. repeat split; auto. intros m Hm. lia.
    - intros Hf. apply IH in Hf as (Hn & Hle & Hm). repeat split; [exact Hn | lia|]. intros m Hm'. destruct (Nat.eq_dec m i) as [->|]; [exact E|]. apply Hm. lia.
  Qed.

  Theorem spl_search_ok : is_shortest_path spl_search.
  Proof.
    intros E u v. unfold spl_search. destruct (find _ _) as [n|] eqn:Ef.
    - apply find_seq_min in Ef as (Hn & _ & Hm). split; [apply pathb_spec, Hn|]. intros k Hk.
      destruct (Nat.le_gt_cases n k) as [|Hlt]; [assumption|]. apply pathb_spec in Hk. rewrite Hm in Hk by lia. discriminate.
    - intros k Hk. apply short_path in Hk as (k' & Hle & _ & Hk'). apply pathb_spec in Hk'.
      rewrite (find_none _ _ Ef k') in Hk'; [discriminate|]. apply in_seq. lia.
  Qed.
End Paths.

Section Matchings.
  Context {A : Type} `{Eqb A}.

  Fixpoint lists_upto {B} (l : list B) (n : nat) : list (list B) :=
    match n with 0 => [[]] | S k => [] :: flat_map (fun x => map (cons x) (lists_upto l k)) l end.
  Lemma lists_upto_In {B} (l : list B) n : forall m, length m <= n -> incl m l -> In m (lists_upto l n).
  Proof.
    induction n as [|n IH]; intros m Hn Hm; [destruct m; [left; reflexivity | cbn in Hn; lia]|].
    destruct m as [|x m]; [left; reflexivity|]. right. apply in_flat_map. exists x. split; [apply Hm; left; reflexivity|].
    apply in_map. apply IH; [cbn in Hn; lia|]. intros y Hy. apply Hm. right; exact Hy.
  Qed.

  Definition pairs_of (E : list (A * A * Z)) : list (A * A) := flat_map (fun '(u, v, _) => [(u, v); (v, u)]) E.
  Definition weight_of (E : list (A * A * Z)) (e : A * A) : Z :=
    match find (fun '(u, v, _) => (eqb u (fst e) && eqb v (snd e)) || (eqb v (fst e) && eqb u (snd e))) E with
    | Some (_, w) => w | None => 0%Z end.
  Fixpoint nodupb (l : list A) : bool := match l with [] => true | a :: l' => negb (mem a l') && nodupb l' end.
  Definition matchingb (E : list (A * A * Z)) (M : list (A * A)) : bool :=
    nodupb (endpoints M) && forallb (fun e => mem e (pairs_of E)) M.

  Lemma nodupb_spec l : nodupb l = true <-> NoDup l.
  Proof.
    induction l as [|a l IH]; cbn; [split; [constructor | auto]|]. rewrite andb_true_iff, negb_true_iff, mem_not_In, IH. split.
    - intros [Ha Hn]. constructor; assumption.
    - intros Hn. inversion Hn; auto.
  Qed.
  Lemma pairs_of_In E u v : In (u, v) (pairs_of E) <-> exists w, edge_weight E (u, v) w.
  Proof.
    unfold pairs_of, edge_weight. rewrite in_flat_map. cbn [fst snd]. split.
    - intros ([[a b] w] & Hin & [[= -> ->]|[[= -> ->]|[]]]); exists w; auto.
    - intros (w & [Hw|Hw]); [exists (u, v, w) | exists (v, u, w)]; cbn; auto.
  Qed.
  Lemma matchingb_spec E M : matchingb E M = true <-> is_matching E M.
  Proof.
    unfold matchingb, is_matching. rewrite andb_true_iff, nodupb_spec, forallb_forall. split.
    - intros [Hn Ha]. split; [exact Hn|]. intros [u v] He. apply pairs_of_In, mem_In, Ha, He.
    - intros [Hn Ha]. split; [exact Hn|]. intros [u v] He. apply mem_In, pairs_of_In, Ha, He.
  Qed.
  Lemma weight_of_spec E e w : functional_weights E -> edge_weight E e w -> weight_of E e = w.
  Proof.
    intros Hf Hw. unfold weight_of. destruct (find _ E) as [[[u v] w']|] eqn:Ef.
    - apply find_some in Ef as [Hin Hb]. apply (Hf e); [|exact Hw]. destruct e as [a b]. cbn [fst snd] in Hb. unfold edge_weight. cbn [fst snd].
      apply orb_true_iff in Hb as [Hb|Hb]; apply andb_true_iff in Hb as [H1 H2]; apply eqb_true in H1, H2; subst; auto.
    - exfalso. destruct e as [a b]. cbn [fst snd] in *. unfold edge_weight in Hw. cbn [fst snd] in Hw.
      destruct Hw as [Hw|Hw]; apply (find_none _ _ Ef) in Hw; rewrite !eqb_refl in Hw; cbn in Hw; rewrite ?Bool.orb_true_r in Hw; discriminate.
  Qed.
  Lemma total_weight_of E M W : functional_weights E -> total_weight E M W -> W = zsum (map (weight_of E) M).
  Proof.
    intros Hf (ws & Hall & ->). f_equal. induction Hall as [|e w M ws He Hall IH]; [reflexivity|]. cbn. rewrite (weight_of_spec E e w Hf He), IH. reflexivity.
  Qed.

  (** Exhaustive search: largest cardinality first, then largest weight. *)
  Definition better (E : list (A * A * Z)) (M M' : list (A * A)) : bool :=
    (length M <? length M') || ((length M =? length M') && (zsum (map (weight_of E) M) <? zsum (map (weight_of E) M'))%Z).
  Definition best (E : list (A * A * Z)) (Ms : list (list (A * A))) : list (A * A) :=
    fold_left (fun m M => if better E m M then M else m) Ms [].
  Definition mwm_search (E : list (A * A * Z)) : list (A * A) :=
    best E (filter (matchingb E) (lists_upto (pairs_of E) (length (pairs_of E)))).

  Lemma best_ok E Ms : forall m, let r := fold_left (fun m M => if better E m M then M else m) Ms m in
    (r = m \/ In r Ms) /\ better E r m = false /\ forall M, In M Ms -> better E r M = false.
  Proof.
    assert (Hirr : forall M, better E M M = false).
    { intros M. unfold better. rewrite Nat.ltb_irrefl, Z.ltb_irrefl, Bool.andb_false_r. reflexivity. }
    assert (Htr : forall a b c, better E a b = true -> better E c b = false -> better E c a = false).
    { intros a b c. unfold better. intros Hab Hcb. apply orb_false_iff in Hcb as [H1 H2]. apply Nat.ltb_ge in H1.
      apply orb_true_iff in Hab as [Hab|Hab].
      - apply Nat.ltb_lt in Hab. apply orb_false_iff. split; [apply Nat.ltb_ge; lia|]. apply andb_false_iff. left. apply Nat.eqb_neq. lia.
      - apply andb_true_iff in Hab as [Hl Hw]. apply Nat.eqb_eq in Hl. apply Z.ltb_lt in Hw. apply orb_false_iff. split; [apply Nat.ltb_ge; lia|].
        apply andb_false_iff in H2 as [H2|H2]; [apply Nat.eqb_neq in H2; apply andb_false_iff; left; apply Nat.eqb_neq; lia|].
        apply Z.ltb_ge in H2. apply andb_false_iff. right. apply Z.ltb_ge. lia. }
    induction Ms as [|M Ms IH]; intros m; cbn [fold_left].
    - split; [left; reflexivity|]. split; [apply Hirr | intros M []].
    - destruct (better E m M) eqn:Eb.
      + destruct (IH M) as (Hr & Hm & Ha). split; [right; cbn; destruct Hr as [Hr|Hr]; [left; symmetry; exact Hr | right; exact Hr]|].
        split; [eapply Htr; eassumption|]. intros M' [<-|HM]; [exact Hm | apply Ha, HM].
      + destruct (IH m) as (Hr & Hm & Ha). split; [cbn; tauto|]. split; [exact Hm|]. intros M' [<-|HM]; [|apply Ha, HM].
        (* r is at least as good as m, which is at least as good as M *)
        set (r := fold_left _ Ms m) in *. destruct (better E r M) eqn:Er; [|reflexivity]. exfalso.
        clear -Eb Er Hm. unfold better in *. apply orb_false_iff in Eb as [E1 E2], Hm as [H1 H2]. apply Nat.ltb_ge in E1, H1.
        apply orb_true_iff in Er as [Er|Er]; [apply Nat.ltb_lt in Er; lia|]. apply andb_true_iff in Er as [E3 E4]. apply Nat.eqb_eq in E3. apply Z.ltb_lt in E4.
        replace (length m =? length M) with true in E2 by (symmetry; apply Nat.eqb_eq; lia).
        replace (length r =? length m) with true in H2 by (symmetry; apply Nat.eqb_eq; lia). cbn [andb] in *. apply Z.ltb_ge in E2, H2. lia.
  Qed.

  Theorem mwm_search_ok : is_max_weight_matching mwm_search.
  Proof.
    intros E Hf. unfold mwm_search, best. set (Ms := filter _ _).
    destruct (best_ok E Ms []) as (Hr & _ & Hb). set (r := fold_left _ Ms []) in *.
    assert (HM : forall M, is_matching E M -> In M Ms).
    { intros M HM. apply filter_In. split; [|apply matchingb_spec, HM]. destruct HM as [Hn Ha].
      assert (Hincl : incl M (pairs_of E)) by (intros [u v] He; apply pairs_of_In, Ha, He).
      apply lists_upto_In; [|exact Hincl]. apply NoDup_incl_length; [|exact Hincl].
      clear -Hn. induction M as [|[u v] M IH]; [constructor|]. cbn in Hn. inversion Hn as [|? ? Hu Hn1]; subst. inversion Hn1 as [|? ? Hv Hn2]; subst.
      constructor; [|apply IH, Hn2]. intros Hi. apply Hu. right.
      clear -Hi. induction M as [|[a b] M IH]; [destruct Hi|]. cbn. destruct Hi as [[= -> ->]|Hi]; auto. }
    split.
    - destruct Hr as [->|Hr]; [split; [constructor | intros e []]|]. apply matchingb_spec. apply filter_In in Hr. tauto.
    - intros M' HM'. pose proof (Hb M' (HM M' HM')) as Hbm. unfold better in Hbm. apply orb_false_iff in Hbm as [H1 H2]. apply Nat.ltb_ge in H1.
      split; [exact H1|]. intros Hl W W' HW HW'. apply total_weight_of in HW, HW'; try exact Hf. subst W W'.
      replace (length r =? length M') with true in H2 by (symmetry; apply Nat.eqb_eq; lia). cbn [andb] in H2. apply Z.ltb_ge in H2. exact H2.
  Qed.
End Matchings.
