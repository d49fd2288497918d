(** The matching decoder corrects fewer than [d/2] faults. *)
From Verif Require Import Base BasisSem RepCodeModel RepCodeSpec RepCodeCircProofs RepCodeFaultProofs RepCodeStringProofs RepCodeGraphProofs.

(** * Parity of occurrences *)
Definition cnt {A} `{Eqb A} (n : A) (l : list A) : bool := xsum (map (eqb n) l).

Lemma xsum_app l l' : xsum (l ++ l') = xorb (xsum l) (xsum l').
Proof.
  induction l as [|a l IH]; [symmetry; apply xorb_false_l|]. unfold xsum in *. cbn [app fold_right]. rewrite IH, xorb_assoc. reflexivity.
Qed.
Lemma xsum_cons a l : xsum (a :: l) = xorb a (xsum l).
Proof. reflexivity. Qed.
Lemma xsum_perm l l' : Permutation l l' -> xsum l = xsum l'.
Proof.
  induction 1 as [|x l l' H IH|x y l|l l' l'' H1 IH1 H2 IH2]; rewrite ?xsum_cons; try congruence.
  rewrite <- !xorb_assoc. f_equal. apply xorb_comm.
Qed.
Lemma cnt_perm {A} `{Eqb A} (n : A) l l' : Permutation l l' -> cnt n l = cnt n l'.
Proof. intros Hp. apply xsum_perm, Permutation_map, Hp. Qed.
Lemma cnt_app {A} `{Eqb A} (n : A) l l' : cnt n (l ++ l') = xorb (cnt n l) (cnt n l').
Proof. unfold cnt. rewrite map_app. apply xsum_app. Qed.
Lemma cnt_cons {A} `{Eqb A} (n a : A) l : cnt n (a :: l) = xorb (eqb n a) (cnt n l).
Proof. reflexivity. Qed.
Lemma cnt_notIn {A} `{Eqb A} (n : A) l : ~ In n l -> cnt n l = false.
Proof.
  induction l as [|a l IH]; intros Hn; [reflexivity|]. rewrite cnt_cons, IH by (intros Hi; apply Hn; right; exact Hi).
  destruct (eqb_spec n a) as [->|]; [exfalso; apply Hn; left; reflexivity | reflexivity].
Qed.
Lemma cnt_NoDup {A} `{Eqb A} (n : A) l : NoDup l -> cnt n l = mem n l.
Proof.
  induction 1 as [|a l Hn Hnd IH]; [reflexivity|]. rewrite cnt_cons. unfold mem in *. cbn [existsb].
  destruct (eqb_spec n a) as [->|]; [|rewrite IH; apply xorb_false_l].
  rewrite (cnt_notIn a l Hn). reflexivity.
Qed.
Lemma cnt_In {A} `{Eqb A} (n : A) l : NoDup l -> (cnt n l = true <-> In n l).
Proof. intros Hn. rewrite cnt_NoDup by exact Hn. apply mem_In. Qed.

Lemma endpoints_app {A} (M M' : list (A * A)) : endpoints (M ++ M') = endpoints M ++ endpoints M'.
Proof. induction M as [|[u v] M IH]; [reflexivity|]. cbn. rewrite IH. reflexivity. Qed.
Lemma endpoints_length {A} (M : list (A * A)) : length (endpoints M) = 2 * length M.
Proof. induction M as [|[u v] M IH]; [reflexivity|]. cbn. lia. Qed.
Lemma endpoints_In {A} (M : list (A * A)) u v : In (u, v) M -> In u (endpoints M) /\ In v (endpoints M).
Proof.
  induction M as [|[a b] M IH]; intros []; cbn.
  - injection H as -> ->. auto.
  - destruct (IH H). auto.
Qed.
Lemma In_endpoints {A} (M : list (A * A)) x : In x (endpoints M) -> exists u v, In (u, v) M /\ (x = u \/ x = v).
Proof.
  induction M as [|[a b] M IH]; intros H; [destruct H|]. destruct H as [->|[->|H]].
  - exists x, b. split; [left; reflexivity | auto].
  - exists a, x. split; [left; reflexivity | auto].
  - destruct (IH H) as (u & v & Hi & Hx). exists u, v. split; [right; exact Hi | exact Hx].
Qed.

Fixpoint nsum (l : list nat) : nat := match l with [] => 0 | a :: l' => a + nsum l' end.
Lemma nsum_app l l' : nsum (l ++ l') = nsum l + nsum l'.
Proof. induction l; cbn; lia. Qed.

(** * Pairing the odd nodes of a set of unit edges *)
Section Pairing.
  Context {V : Type} `{Eqb V}.
  Variable dist : V -> V -> nat.
  Variable dom : list V.
  Hypothesis dist_sym : forall u v, In u dom -> In v dom -> dist u v = dist v u.
  Hypothesis dist_tri : forall u v w, In u dom -> In v dom -> In w dom -> dist u w <= dist u v + dist v w.

  Definition cost (P : list (V * V)) : nat := nsum (map (fun e => dist (fst e) (snd e)) P).

  Lemma extract P u : incl (endpoints P) dom -> In u (endpoints P) ->
    exists x P1, Permutation (endpoints P) (u :: x :: endpoints P1) /\ cost P = dist u x + cost P1.
  Proof.
    induction P as [|[a b] P IH]; intros Hdom Hin; [destruct Hin|].
    cbn [endpoints] in *. destruct Hin as [->|[->|Hin]].
    - exists b, P. split; [apply Permutation_refl | reflexivity].
    - exists a, P. split; [apply perm_swap|]. unfold cost. cbn. f_equal. apply dist_sym; apply Hdom; cbn; auto.
    - destruct IH as (x & P1 & Hp & Hc); [|exact Hin|].
      + intros y Hy. apply Hdom. right; right; exact Hy.
      + exists x, ((a, b) :: P1). split.
        * rewrite Hp. cbn [endpoints]. 
          change (Permutation ([a; b] ++ [u; x] ++ endpoints P1) ([u; x] ++ [a; b] ++ endpoints P1)).
          rewrite !app_assoc. apply Permutation_app_tail, Permutation_app_comm.
        * unfold cost in *. cbn. lia.
  Qed.

  Lemma pairing EF :
    (forall e, In e EF -> fst e <> snd e /\ In (fst e) dom /\ In (snd e) dom /\ dist (fst e) (snd e) <= 1) ->
    exists P, NoDup (endpoints P) /\ incl (endpoints P) dom /\
      (forall n, cnt n (endpoints P) = cnt n (endpoints EF)) /\ cost P <= length EF.
  Proof.
    induction EF as [|[u v] EF IH]; intros Hall.
    - exists []. repeat split; try constructor. intros x [].
    - destruct IH as (P & Hnd & Hdom & Hcnt & Hcost); [intros e He; apply Hall; right; exact He|].
      destruct (Hall _ (or_introl eq_refl)) as (Huv & Hu & Hv & Hd). cbn [fst snd] in *.
      cbn [endpoints length].
      assert (Hext : forall Q, (forall n, cnt n (endpoints Q) = xorb (eqb n u) (xorb (eqb n v) (cnt n (endpoints P)))) ->
                forall n, cnt n (endpoints Q) = cnt n (u :: v :: endpoints EF)).
      { intros Q HQ n. rewrite HQ, !cnt_cons, Hcnt. reflexivity. }
      destruct (mem u (endpoints P)) eqn:Mu; [apply mem_In in Mu | apply mem_not_In in Mu];
      (destruct (mem v (endpoints P)) eqn:Mv; [apply mem_In in Mv | apply mem_not_In in Mv]).
      + destruct (extract P u Hdom Mu) as (x & P1 & Hp & Hc).
        assert (Hnd1 : NoDup (u :: x :: endpoints P1)) by (eapply Permutation_NoDup; [exact Hp | exact Hnd]).
        assert (Hdom1 : incl (u :: x :: endpoints P1) dom).
        { intros y Hy. apply Hdom. eapply Permutation_in; [apply Permutation_sym, Hp | exact Hy]. }
        destruct (eqb_spec x v) as [->|Hxv].
        * exists P1. split; [inversion Hnd1 as [|? ? _ H1]; inversion H1; assumption|].
          split; [intros y Hy; apply Hdom1; right; right; exact Hy|]. split; [|lia].
          apply Hext. intros n. rewrite (cnt_perm n _ _ Hp), !cnt_cons.
          destruct (eqb n u), (eqb n v), (cnt n (endpoints P1)); reflexivity.
        * assert (Mv1 : In v (endpoints P1)).
          { eapply Permutation_in in Mv; [|exact Hp]. destruct Mv as [E|[E|E]]; [congruence | congruence | exact E]. }
          destruct (extract P1 v) as (y & P2 & Hp2 & Hc2); [intros z Hz; apply Hdom1; right; right; exact Hz | exact Mv1|].
          assert (Hnd2 : NoDup (u :: x :: v :: y :: endpoints P2)).
          { eapply Permutation_NoDup; [|exact Hnd1]. do 2 apply perm_skip. exact Hp2. }
          assert (Hdom2 : incl (u :: x :: v :: y :: endpoints P2) dom).
          { intros z Hz. apply Hdom1. eapply Permutation_in; [|exact Hz]. apply Permutation_sym. do 2 apply perm_skip. exact Hp2. }
          exists ((x, y) :: P2). cbn [endpoints]. split.
          { inversion Hnd2 as [|? ? _ H1]; subst. inversion H1 as [|? ? Hx H2]; subst. inversion H2 as [|? ? _ H3]; subst.
            constructor; [|exact H3]. intros Hi. apply Hx. right; exact Hi. }
          split. { intros z [<-|[<-|Hz]]; apply Hdom2; cbn; auto. }
          split.
          { apply (Hext ((x, y) :: P2)). intros n. cbn [endpoints]. rewrite (cnt_perm n _ _ Hp), !cnt_cons, (cnt_perm n _ _ Hp2), !cnt_cons.
            destruct (eqb n u), (eqb n v), (eqb n x), (eqb n y), (cnt n (endpoints P2)); reflexivity. }
          unfold cost in *. cbn [map nsum fst snd].
          assert (In x dom) by (apply Hdom2; cbn; auto). assert (In y dom) by (apply Hdom2; cbn; auto).
          pose proof (dist_tri x u y ltac:(assumption) Hu ltac:(assumption)). pose proof (dist_tri u v y Hu Hv ltac:(assumption)).
          rewrite (dist_sym x u) in * by assumption. lia.
      + destruct (extract P u Hdom Mu) as (x & P1 & Hp & Hc).
        assert (Hnd1 : NoDup (u :: x :: endpoints P1)) by (eapply Permutation_NoDup; [exact Hp | exact Hnd]).
        assert (Hdom1 : incl (u :: x :: endpoints P1) dom).
        { intros y Hy. apply Hdom. eapply Permutation_in; [apply Permutation_sym, Hp | exact Hy]. }
        exists ((v, x) :: P1). cbn [endpoints]. split.
        { inversion Hnd1 as [|? ? _ H1]; subst. constructor; [|exact H1]. intros Hi. apply Mv.
          eapply Permutation_in; [apply Permutation_sym, Hp|]. right; exact Hi. }
        split. { intros y [<-|Hy]; [exact Hv|]. apply Hdom1; right; exact Hy. }
        split.
        { apply (Hext ((v, x) :: P1)). intros n. cbn [endpoints]. rewrite (cnt_perm n _ _ Hp), !cnt_cons.
          destruct (eqb n u), (eqb n v), (eqb n x), (cnt n (endpoints P1)); reflexivity. }
        unfold cost in *. cbn [map nsum fst snd]. assert (In x dom) by (apply Hdom1; cbn; auto).
        pose proof (dist_tri v u x Hv Hu ltac:(assumption)). rewrite (dist_sym v u) in * by assumption. lia.
      + destruct (extract P v Hdom Mv) as (x & P1 & Hp & Hc).
        assert (Hnd1 : NoDup (v :: x :: endpoints P1)) by (eapply Permutation_NoDup; [exact Hp | exact Hnd]).
        assert (Hdom1 : incl (v :: x :: endpoints P1) dom).
        { intros y Hy. apply Hdom. eapply Permutation_in; [apply Permutation_sym, Hp | exact Hy]. }
        exists ((u, x) :: P1). cbn [endpoints]. split.
        { inversion Hnd1 as [|? ? _ H1]; subst. constructor; [|exact H1]. intros Hi. apply Mu.
          eapply Permutation_in; [apply Permutation_sym, Hp|]. right; exact Hi. }
        split. { intros y [<-|Hy]; [exact Hu|]. apply Hdom1; right; exact Hy. }
        split.
        { apply (Hext ((u, x) :: P1)). intros n. cbn [endpoints]. rewrite (cnt_perm n _ _ Hp), !cnt_cons.
          destruct (eqb n u), (eqb n v), (eqb n x), (cnt n (endpoints P1)); reflexivity. }
        unfold cost in *. cbn [map nsum fst snd]. assert (In x dom) by (apply Hdom1; cbn; auto).
        pose proof (dist_tri u v x Hu Hv ltac:(assumption)). lia.
      + exists ((u, v) :: P). cbn [endpoints]. split.
        { constructor; [intros [E|E]; [congruence | contradiction] | constructor; assumption]. }
        split. { intros y [<-|[<-|Hy]]; [exact Hu | exact Hv | apply Hdom, Hy]. }
        split; [apply (Hext ((u, v) :: P)); intros n; reflexivity|].
        unfold cost in *. cbn [map nsum fst snd]. lia.
  Qed.
End Pairing.

(** * Cuts *)
Lemma xsum_by_nodes {V} `{Eqb V} (h : V -> bool) (l all : list V) : NoDup all -> incl l all ->
  xsum (map h l) = xsum (map (fun n => cnt n l && h n) all).
Proof.
  intros Hnd. induction l as [|a l IH]; intros Hincl.
  - cbn. induction all as [|b all IH]; [reflexivity|]. inversion Hnd; subst. cbn [map]. rewrite xsum_cons, <- IH; [reflexivity | assumption | intros x []].
  - cbn [map]. rewrite xsum_cons, IH by (intros x Hx; apply Hincl; right; exact Hx).
    transitivity (xsum (map (fun n => xorb (eqb n a && h n) (cnt n l && h n)) all)).
    2:{ apply xsum_ext. intros n _. rewrite cnt_cons. destruct (eqb n a), (cnt n l), (h n); reflexivity. }
    rewrite xsum_xor. f_equal.
    assert (Ha : In a all) by (apply Hincl; left; reflexivity). clear -Hnd Ha.
    induction Hnd as [|b all Hb Hnd IH]; [destruct Ha|]. cbn [map]. rewrite xsum_cons.
    destruct (eqb_spec b a) as [->|Hne].
    + replace (xsum (map (fun n => eqb n a && h n) all)) with false; [rewrite xorb_false_r; reflexivity|].
      symmetry. clear -Hb. induction all as [|c all IH]; [reflexivity|]. cbn [map]. rewrite xsum_cons, IH by (intros Hi; apply Hb; right; exact Hi).
      destruct (eqb_spec c a) as [->|]; [exfalso; apply Hb; left; reflexivity | reflexivity].
    + destruct Ha as [Ha|Ha]; [congruence|]. rewrite <- IH by exact Ha. rewrite xorb_false_l. reflexivity.
Qed.

Definition gap (a b : nat) : nat := (a - b) + (b - a).

Lemma crossings a b d : nsum (map (fun c => Nat.b2n (xorb (a <=? c) (b <=? c))) (seq 0 d)) <= gap a b.
Proof.
  assert (Hg : forall d, nsum (map (fun c => Nat.b2n (xorb (a <=? c) (b <=? c))) (seq 0 d)) <= gap (Nat.min a d) (Nat.min b d)).
  { clear d. induction d as [|d IH]; [cbn; lia|].
    rewrite seq_S, map_app, nsum_app. cbn [map nsum]. rewrite Nat.add_0_r. unfold gap in *.
    destruct (Nat.leb_spec a (0 + d)), (Nat.leb_spec b (0 + d)); cbn [xorb Nat.b2n]; lia. }
  specialize (Hg d). unfold gap in *. lia.
Qed.

Lemma nsum_map_add {A} (f g : A -> nat) l : nsum (map (fun a => f a + g a) l) = nsum (map f l) + nsum (map g l).
Proof. induction l; cbn; lia. Qed.
Lemma nsum_swap {A B} (f : A -> B -> nat) la lb :
  nsum (map (fun a => nsum (map (f a) lb)) la) = nsum (map (fun b => nsum (map (fun a => f a b) la)) lb).
Proof.
  induction la as [|a la IH]; cbn.
  - induction lb; cbn; lia.
  - rewrite IH, <- nsum_map_add. reflexivity.
Qed.
Lemma nsum_le {A} (f g : A -> nat) l : (forall a, In a l -> f a <= g a) -> nsum (map f l) <= nsum (map g l).
Proof.
  induction l as [|a l IH]; intros Hl; cbn; [lia|]. pose proof (Hl a (or_introl eq_refl)).
  specialize (IH (fun x Hx => Hl x (or_intror Hx))). lia.
Qed.
Lemma nsum_ones {A} (l : list A) : nsum (map (fun _ => 1) l) = length l.
Proof. induction l; cbn; lia. Qed.

Lemma cut_bound {V} (pos : V -> nat) d (G : list (V * V)) :
  (forall c, c < d -> xsum (map (fun n => pos n <=? c) (endpoints G)) = true) ->
  d <= nsum (map (fun e => gap (pos (fst e)) (pos (snd e))) G).
Proof.
  intros Hc.
  apply Nat.le_trans with (nsum (map (fun c => nsum (map (fun e => Nat.b2n (xorb (pos (fst e) <=? c) (pos (snd e) <=? c))) G)) (seq 0 d))).
  - rewrite <- (seq_length d 0) at 1. rewrite <- (nsum_ones (seq 0 d)). apply nsum_le. intros c Hin. apply in_seq in Hin.
    specialize (Hc c ltac:(lia)).
    induction G as [|[u v] G IH]; [discriminate|]. cbn [endpoints map fst snd nsum] in *. rewrite !xsum_cons in Hc.
    destruct (pos u <=? c), (pos v <=? c); cbn [xorb Nat.b2n] in *; try lia; apply IH; rewrite <- Hc;
      destruct (xsum _); reflexivity.
  - rewrite nsum_swap. apply nsum_le. intros [u v] _. apply crossings.
Qed.

Lemma endpoints_even {V} (G : list (V * V)) : xsum (map (fun _ => true) (endpoints G)) = false.
Proof. induction G as [|[u v] G IH]; [reflexivity|]. cbn [endpoints map]. rewrite !xsum_cons, IH. reflexivity. Qed.

(** * The syndrome graph as a metric space *)
Definition npos (d : nat) (n : node) : nat :=
  match n with
  | [1; _; e] => e + 1
  | _ => if eqb n L1 then d else 0
  end.

Lemma npos_node_at d r p : 1 <= d -> p <= d -> npos d (node_at d r p) = p.
Proof.
  intros Hd Hp. unfold node_at. destruct (Nat.eqb_spec p 0) as [->|]; [reflexivity|].
  destruct (Nat.eqb_spec p d) as [->|]; [reflexivity|]. cbn. lia.
Qed.

Lemma shape_gap d T u v : 1 <= d -> edge_shape d T u v -> gap (npos d u) (npos d v) <= 1.
Proof.
  intros Hd [t e Ht He|p r1 r2 Hp H1 H2]; unfold gap.
  - cbn. lia.
  - rewrite !npos_node_at by lia. lia.
Qed.

Lemma path_app {A} (E : list (A * A)) n : forall u v w m, path E u v n -> path E v w m -> path E u w (n + m).
Proof.
  induction n as [|n IH]; intros u v w m Hp Hq; cbn in *; [subst; exact Hq|].
  destruct Hp as (x & Hx & Hp). exists x. split; [exact Hx|]. eapply IH; eassumption.
Qed.
Lemma path_sym {A} (E : list (A * A)) n : forall u v, path E u v n -> path E v u n.
Proof.
  induction n as [|n IH]; intros u v Hp; cbn in Hp; [subst; reflexivity|].
  destruct Hp as (x & Hx & Hp). apply IH in Hp. replace (S n) with (n + 1) by lia.
  eapply path_app; [exact Hp|]. exists u. split; [tauto | reflexivity].
Qed.

Section Metric.
  Variables (d T : nat) (shots : Z) (S : list (node * node)).
  Variable spl : list (node * node) -> node -> node -> option nat.
  Hypothesis (Hd : 2 <= d) (HT : 1 <= T).
  Hypothesis HS : make_syndrome_graph (repetition_code d T) shots = Ok S.
  Hypothesis Hspl : is_shortest_path spl.

  Lemma path_to_L0 r p : r <= T -> p <= d -> exists n, path S (node_at d r p) L0 n.
  Proof.
    intros Hr. induction p as [|p IH]; intros Hp.
    - exists 0. reflexivity.
    - destruct IH as (n & Hn); [lia|]. exists (Datatypes.S n). exists (node_at d r p). split; [right|exact Hn].
      replace (Datatypes.S p) with (p + 1) by lia. apply (graph_space d T shots S); assumption || lia.
  Qed.

  Lemma node_as_at n : In n (allnodes d T) -> exists r p, r <= T /\ p <= d /\ n = node_at d r p.
  Proof.
    intros Hn. apply allnodes_In in Hn as [->|[->|(r & e & -> & Hr & Hle)]].
    - exists 0, 0. repeat split; lia.
    - exists 0, d. repeat split; try lia. unfold node_at. destruct (Nat.eqb_spec d 0); [lia|]. rewrite Nat.eqb_refl. reflexivity.
    - exists r, (e + 1). repeat split; try lia. unfold node_at.
      destruct (Nat.eqb_spec (e + 1) 0); [lia|]. destruct (Nat.eqb_spec (e + 1) d); [lia|]. do 3 f_equal. lia.
  Qed.

  Lemma connected u v : In u (allnodes d T) -> In v (allnodes d T) -> exists n, path S u v n.
  Proof.
    intros Hu Hv. destruct (node_as_at u Hu) as (r & p & Hr & Hp & ->). destruct (node_as_at v Hv) as (r' & p' & Hr' & Hp' & ->).
    destruct (path_to_L0 r p Hr Hp) as (n & Hn). destruct (path_to_L0 r' p' Hr' Hp') as (m & Hm).
    exists (n + m). eapply path_app; [exact Hn | apply path_sym, Hm].
  Qed.

  Definition dist (u v : node) : nat := match spl S u v with Some n => n | None => 0 end.

  Lemma spl_dist u v : In u (allnodes d T) -> In v (allnodes d T) -> spl S u v = Some (dist u v).
  Proof.
    intros Hu Hv. unfold dist. pose proof (Hspl S u v) as H. destruct (spl S u v); [reflexivity|].
    destruct (connected u v Hu Hv) as (n & Hn). destruct (H n Hn).
  Qed.
  Lemma dist_path u v : In u (allnodes d T) -> In v (allnodes d T) -> path S u v (dist u v).
  Proof.
    intros Hu Hv. pose proof (Hspl S u v) as H. rewrite (spl_dist u v Hu Hv) in H. apply H.
  Qed.
  Lemma dist_min u v k : path S u v k -> In u (allnodes d T) -> In v (allnodes d T) -> dist u v <= k.
  Proof.
    intros Hk Hu Hv. pose proof (Hspl S u v) as H. rewrite (spl_dist u v Hu Hv) in H. apply H, Hk.
  Qed.
  Lemma dist_symm u v : In u (allnodes d T) -> In v (allnodes d T) -> dist u v = dist v u.
  Proof.
    intros Hu Hv. apply Nat.le_antisymm; apply dist_min; try assumption; apply path_sym, dist_path; assumption.
  Qed.
  Lemma dist_triangle u v w : In u (allnodes d T) -> In v (allnodes d T) -> In w (allnodes d T) -> dist u w <= dist u v + dist v w.
  Proof. intros Hu Hv Hw. apply dist_min; try assumption. eapply path_app; apply dist_path; assumption. Qed.

  Lemma path_gap n : forall u v, path S u v n -> gap (npos d u) (npos d v) <= n.
  Proof.
    induction n as [|n IH]; intros u v Hp; cbn in Hp; [subst; unfold gap; lia|].
    destruct Hp as (w & Hw & Hp). apply IH in Hp.
    assert (Hg : gap (npos d u) (npos d w) <= 1).
    { assert (H : edge_shape d T u w \/ edge_shape d T w u).
      { destruct Hw as [Hw|Hw]; apply (graph_edge_shape d T shots S _ _ Hd HT HS) in Hw; tauto. }
      destruct H as [H|H]; apply (shape_gap d T) in H; try lia; unfold gap in *; lia. }
    unfold gap in *. lia.
  Qed.
  Lemma dist_gap u v : In u (allnodes d T) -> In v (allnodes d T) -> gap (npos d u) (npos d v) <= dist u v.
  Proof. intros Hu Hv. apply path_gap, dist_path; assumption. Qed.
  Lemma dist_edge u v : In (u, v) S -> In u (allnodes d T) -> In v (allnodes d T) -> dist u v <= 1.
  Proof. intros Hin Hu Hv. apply dist_min; try assumption. exists v. split; [left; exact Hin | reflexivity]. Qed.

  (** The faults of a run, as edges. *)
  Lemma fault_edges b fs :
    let body := rc_circ (repetition_code d T) b in
    Forall (fault_ok body) fs ->
    exists EF, length EF <= length fs /\
      (forall e, In e EF -> fst e <> snd e /\ In (fst e) (allnodes d T) /\ In (snd e) (allnodes d T) /\ dist (fst e) (snd e) <= 1) /\
      (forall n, In n (allnodes d T) -> xsum (map (fun f => lit d T (fault_bits body f) n) fs) = cnt n (endpoints EF)).
  Proof.
    intros body. induction fs as [|f fs IH]; intros Hok.
    - exists []. cbn. repeat split; try lia; destruct H.
    - inversion Hok as [|? ? Hf Hfs]; subst. destruct (IH Hfs) as (EF & Hlen & He & Hc).
      destruct (fault_nodes d T b f Hd HT Hf) as [Hn|(u & v & Hs & Hl)].
      + exists EF. split; [cbn; lia|]. split; [exact He|]. intros n Hin. cbn [map]. rewrite xsum_cons. unfold body. rewrite (Hn n Hin).
        rewrite xorb_false_l. apply Hc, Hin.
      + exists ((u, v) :: EF). destruct (edge_shape_In _ _ _ _ Hs) as [Hu Hv]. split; [cbn; lia|]. split.
        * intros e [<-|Hin]; [|apply He, Hin]. cbn [fst snd]. split; [eapply edge_shape_neq, Hs|]. split; [exact Hu|]. split; [exact Hv|].
          apply dist_edge; try assumption. eapply edge_fault_in_graph; eassumption.
        * intros n Hin. cbn [map endpoints]. rewrite xsum_cons, !cnt_cons. unfold body. rewrite (Hl n Hin). rewrite <- (Hc n Hin).
          pose proof (edge_shape_neq _ _ _ _ Hs) as Huv. rewrite <- xorb_assoc. f_equal.
          destruct (eqb_spec n u), (eqb_spec n v); reflexivity || congruence.
  Qed.

  (** * The graph handed to the matching algorithm *)
  Definition synnodes : list node := flat_map (fun r => map (fun e => [1; r; e]) (seq 0 (d - 1))) (seq 0 (T + 1)).
  Variable f : node -> bool.
  Definition X : list node := filter (fun n => f n && negb (is_logical n)) (allnodes d T).
  Definition nodesE : list node := filter (fun n => f n || is_logical n) (allnodes d T).
  Definition near (s : node) : node := if (- Z.of_nat (dist s L0) <? - Z.of_nat (dist s L1))%Z then L1 else L0.
  Definition copy (s : node) : node := near s ++ s.

  Lemma X_In s : In s X <-> In s (allnodes d T) /\ f s = true /\ is_logical s = false.
  Proof. unfold X. rewrite filter_In, andb_true_iff, negb_true_iff. tauto. Qed.
  Lemma X_shape s : In s X -> exists r e, s = [1; r; e] /\ r <= T /\ e < d - 1.
  Proof.
    intros Hs. apply X_In in Hs as (Hin & _ & Hl). apply allnodes_In in Hin as [->|[->|(r & e & -> & Hr & Hle)]]; try discriminate.
    exists r, e. auto.
  Qed.
  Lemma X_NoDup : NoDup X.
  Proof. apply NoDup_filter, allnodes_NoDup. Qed.
  Lemma L0_In : In L0 (allnodes d T).
  Proof. apply allnodes_In. auto. Qed.
  Lemma L1_In : In L1 (allnodes d T).
  Proof. apply allnodes_In. auto. Qed.
  Lemma near_cases s : near s = L0 \/ near s = L1.
  Proof. unfold near. destruct (_ <? _)%Z; auto. Qed.
  Lemma near_In s : In (near s) (allnodes d T).
  Proof. destruct (near_cases s) as [-> | ->]; [apply L0_In | apply L1_In]. Qed.
  Lemma near_best s : dist s (near s) <= dist s L0 /\ dist s (near s) <= dist s L1.
  Proof. unfold near. destruct (Z.ltb_spec (- Z.of_nat (dist s L0)) (- Z.of_nat (dist s L1))); lia. Qed.
  Lemma copy_logical s : is_logical (copy s) = true.
  Proof. unfold copy. destruct (near_cases s) as [-> | ->]; reflexivity. Qed.
  Lemma copy_inj s t : copy s = copy t -> s = t.
  Proof.
    unfold copy. intros E.
    assert (H : forall a, skipn 3 (near a ++ a) = a) by (intros a; destruct (near_cases a) as [-> | ->]; reflexivity).
    rewrite <- (H s), <- (H t), E. reflexivity.
  Qed.
  Lemma copy_notX s t : In t X -> copy s <> t.
  Proof. intros Ht E. apply X_In in Ht as (_ & _ & Hl). rewrite <- E, copy_logical in Hl. discriminate. Qed.

  Lemma allnodes_split : allnodes d T = L0 :: L1 :: synnodes.
  Proof. reflexivity. Qed.
  Lemma syn_not_logical s : In s synnodes -> is_logical s = false.
  Proof.
    unfold synnodes. rewrite in_flat_map. intros (r & _ & Hs). apply in_map_iff in Hs as (e & <- & _). reflexivity.
  Qed.

  Lemma nodesE_logical : filter is_logical nodesE = [L0; L1].
  Proof.
    unfold nodesE. rewrite allnodes_split. cbn [filter is_logical L0 L1]. rewrite !Bool.orb_true_r. cbn [filter is_logical L0 L1].
    do 2 f_equal. assert (H : forall l, (forall s, In s l -> is_logical s = false) -> filter is_logical (filter (fun n => f n || is_logical n) l) = []).
    { induction l as [|a l IH]; intros Hl; [reflexivity|]. cbn [filter]. pose proof (Hl a (or_introl eq_refl)) as Ha.
      rewrite Ha. destruct (f a); cbn [orb filter]; [rewrite Ha|]; apply IH; intros s Hs; apply Hl; right; exact Hs. }
    apply H, syn_not_logical.
  Qed.
  Lemma nodesE_syn : filter (fun n => negb (is_logical n)) nodesE = X.
  Proof.
    unfold nodesE, X. induction (allnodes d T) as [|a l IH]; [reflexivity|]. cbn [filter].
    destruct (f a) eqn:Ef, (is_logical a) eqn:El; cbn [andb orb negb filter]; rewrite ?El; cbn [negb]; rewrite ?IH; reflexivity.
  Qed.
  Lemma nodesE_In n : In n nodesE -> In n (allnodes d T).
  Proof. intros Hn. apply filter_In in Hn. tauto. Qed.
  Lemma X_nodesE s : In s X -> In s nodesE.
  Proof. intros Hs. rewrite <- nodesE_syn in Hs. apply filter_In in Hs. tauto. Qed.
  Lemma L_nodesE l : l = L0 \/ l = L1 -> In l nodesE.
  Proof.
    intros Hl. assert (Hin : In l (filter is_logical nodesE)) by (rewrite nodesE_logical; destruct Hl as [-> | ->]; cbn; auto).
    apply filter_In in Hin. tauto.
  Qed.

  Definition weights : dict (node * node) Z :=
    concat (map (fun s => map (fun t => ((s, t), (- Z.of_nat (dist s t))%Z)) (filter (fun t => negb (eqb t s)) nodesE)) nodesE).

  Lemma make_error_graph_closed : make_error_graph spl S (dec_string d T f) = Ok (nodesE, weights).
  Proof.
    unfold make_error_graph. rewrite select_nodes_dec by exact Hd.
    assert (E : filter (fun n => (fun ty c => eqb c "1"%char || (ty =? 0)) (hd 0 n) (bit_char (f n))) (allnodes d T) = nodesE).
    { apply filter_ext_in. intros n Hn. rewrite eqb_bit_char1. f_equal.
      apply allnodes_In in Hn as [->|[->|(r & e & -> & _)]]; reflexivity. }
    cbn beta in E. rewrite E.
    rewrite (mapM_Ok _ (fun s => map (fun t => ((s, t), (- Z.of_nat (dist s t))%Z)) (filter (fun t => negb (eqb t s)) nodesE))).
    - reflexivity.
    - intros s Hs. apply mapM_Ok. intros t Ht. apply filter_In in Ht as [Ht _].
      rewrite spl_dist by (apply nodesE_In; assumption). reflexivity.
  Qed.

  Lemma weights_get s t : In s nodesE -> In t nodesE -> t <> s -> dget_e weights (s, t) = Ok (- Z.of_nat (dist s t))%Z.
  Proof.
    intros Hs Ht Hne. unfold dget_e.
    destruct (dget weights (s, t)) as [v|] eqn:E.
    - apply dget_Some_In in E. unfold weights in E. apply in_concat in E as (l & Hl & Hin). apply in_map_iff in Hl as (s' & <- & _).
      apply in_map_iff in Hin as (t' & [= -> -> <-] & _). reflexivity.
    - exfalso. rewrite dget_None in E. apply E. apply In_dkeys with (v := (- Z.of_nat (dist s t))%Z). unfold weights.
      apply in_concat. eexists. split; [apply in_map_iff; exists s; split; [reflexivity | exact Hs]|].
      apply in_map_iff. exists t. split; [reflexivity|]. apply filter_In. split; [exact Ht|]. destruct (eqb_spec t s); [contradiction | reflexivity].
  Qed.

  Definition edgesM : list (node * node * Z) :=
    concat (map (fun s => map (fun t => (s, t, (- Z.of_nat (dist s t))%Z)) (filter (fun t => negb (eqb t s)) X)
                          ++ [(s, copy s, (- Z.of_nat (dist s (near s)))%Z)]) X)
    ++ flat_map (fun s => flat_map (fun t => if eqb t s then [] else [(s, t, 0%Z)]) (map copy X)) (map copy X).

  Lemma matching_graph_closed : matching_graph nodesE weights = Ok edgesM.
  Proof.
    unfold matching_graph. rewrite nodesE_logical, nodesE_syn.
    rewrite (mapM_Ok _ (fun s => (map (fun t => (s, t, (- Z.of_nat (dist s t))%Z)) (filter (fun t => negb (eqb t s)) X)
                          ++ [(s, copy s, (- Z.of_nat (dist s (near s)))%Z)], copy s))).
    - cbn [bind]. unfold edgesM. rewrite !map_map. cbn [fst snd]. reflexivity.
    - intros s Hs.
      rewrite (mapM_Ok _ (fun t => (s, t, (- Z.of_nat (dist s t))%Z))).
      2:{ intros t Ht. apply filter_In in Ht as [Ht Hne]. rewrite weights_get; [reflexivity | apply X_nodesE, Hs | apply X_nodesE, Ht|].
          intros ->. rewrite eqb_refl in Hne. discriminate. }
      cbn [bind mapM]. rewrite !weights_get; try (apply X_nodesE, Hs); try (apply L_nodesE; auto).
      + cbn [bind argmax fst snd]. unfold copy, near.
        destruct (_ <? _)%Z; reflexivity.
      + intros E. destruct (X_shape s Hs) as (r & e & -> & _). discriminate.
      + intros E. destruct (X_shape s Hs) as (r & e & -> & _). discriminate.
  Qed.

  Lemma edgesM_In a b w : In (a, b, w) edgesM <->
    (In a X /\ In b X /\ a <> b /\ w = (- Z.of_nat (dist a b))%Z) \/
    (In a X /\ b = copy a /\ w = (- Z.of_nat (dist a (near a)))%Z) \/
    (exists s t, In s X /\ In t X /\ s <> t /\ a = copy s /\ b = copy t /\ w = 0%Z).
  Proof.
    unfold edgesM. rewrite in_app_iff, in_concat, in_flat_map. split.
    - intros [(l & Hl & Hin)|(x & Hx & Hin)].
      + apply in_map_iff in Hl as (s & <- & Hs). apply in_app_iff in Hin as [Hin|[[= <- <- <-]|[]]]; [|right; left; auto].
        apply in_map_iff in Hin as (t & [= <- <- <-] & Ht). apply filter_In in Ht as [Ht Hne]. left. repeat split; try assumption.
        intros ->. rewrite eqb_refl in Hne. discriminate.
      + apply in_map_iff in Hx as (s & <- & Hs). apply in_flat_map in Hin as (y & Hy & Hin). apply in_map_iff in Hy as (t & <- & Ht).
        destruct (eqb_spec (copy t) (copy s)) as [E|Hne]; [destruct Hin|]. destruct Hin as [[= <- <- <-]|[]].
        right; right. exists s, t. repeat split; try assumption. congruence.
    - intros [(Ha & Hb & Hne & ->)|[(Ha & -> & ->)|(s & t & Hs & Ht & Hne & -> & -> & ->)]].
      + left. eexists. split; [apply in_map_iff; exists a; split; [reflexivity | exact Ha]|]. apply in_app_iff. left.
        apply in_map_iff. exists b. split; [reflexivity|]. apply filter_In. split; [exact Hb|].
        destruct (eqb_spec b a); [congruence | reflexivity].
      + left. eexists. split; [apply in_map_iff; exists a; split; [reflexivity | exact Ha]|]. apply in_app_iff. right. left. reflexivity.
      + right. exists (copy s). split; [apply in_map, Hs|]. apply in_flat_map. exists (copy t). split; [apply in_map, Ht|].
        destruct (eqb_spec (copy t) (copy s)) as [E|_]; [apply copy_inj in E; congruence | left; reflexivity].
  Qed.

  (** Edges of the matching graph, up to orientation. *)
  Inductive mkind : node -> node -> Z -> Prop :=
  | MK_ss a b : In a X -> In b X -> a <> b -> mkind a b (- Z.of_nat (dist a b))
  | MK_sc a : In a X -> mkind a (copy a) (- Z.of_nat (dist a (near a)))
  | MK_cs a : In a X -> mkind (copy a) a (- Z.of_nat (dist a (near a)))
  | MK_cc s t : In s X -> In t X -> s <> t -> mkind (copy s) (copy t) 0.

  Lemma edge_kind e w : edge_weight edgesM e w <-> mkind (fst e) (snd e) w.
  Proof.
    destruct e as [a b]. unfold edge_weight. cbn [fst snd]. rewrite !edgesM_In. split.
    - intros [[(Ha & Hb & Hne & ->)|[(Ha & -> & ->)|(s & t & Hs & Ht & Hne & -> & -> & ->)]]|
              [(Ha & Hb & Hne & ->)|[(Ha & -> & ->)|(s & t & Hs & Ht & Hne & -> & -> & ->)]]]; try (constructor; auto).
      rewrite dist_symm; [constructor; auto | |]; apply X_In; assumption.
    - intros [a' b' Ha Hb Hne|a' Ha|a' Ha|s t Hs Ht Hne].
      + left; left; auto.
      + left; right; left; auto.
      + right; right; left; auto.
      + left; right; right. exists s, t. auto 10.
  Qed.

  Lemma X_notlog s : In s X -> is_logical s = false.
  Proof. intros Hs. apply X_In in Hs. tauto. Qed.

  Definition wt (e : node * node) : Z :=
    let '(a, b) := e in
    if is_logical a then if is_logical b then 0%Z else (- Z.of_nat (dist b (near b)))%Z
    else if is_logical b then (- Z.of_nat (dist a (near a)))%Z else (- Z.of_nat (dist a b))%Z.

  Lemma kind_wt a b w : mkind a b w -> w = wt (a, b).
  Proof.
    intros [a' b' Ha Hb Hne|a' Ha|a' Ha|s t Hs Ht Hne]; unfold wt; rewrite ?copy_logical, ?X_notlog by assumption; reflexivity.
  Qed.

  Lemma edgesM_functional : functional_weights edgesM.
  Proof. intros [a b] w w' H H'. apply edge_kind, kind_wt in H, H'. congruence. Qed.

  Lemma matching_weight M : is_matching edgesM M -> total_weight edgesM M (zsum (map wt M)).
  Proof.
    intros [_ Hall]. exists (map wt M). split; [|reflexivity].
    induction M as [|e M IH]; constructor.
    - destruct (Hall e (or_introl eq_refl)) as (w & Hw). pose proof Hw as Hw'. destruct e as [a b]. apply edge_kind, kind_wt in Hw'. cbn [fst snd] in Hw'. rewrite <- Hw'. exact Hw.
    - apply IH. intros e' He'. apply Hall. right; exact He'.
  Qed.

  (** ** A perfect matching from a pairing *)
  Definition conv (e : node * node) : list (node * node) :=
    let '(u, v) := e in
    if is_logical u then if is_logical v then [] else [(v, copy v)]
    else if is_logical v then [(u, copy u)] else [(u, v); (copy u, copy v)].
  Definition nonlog (l : list node) : list node := filter (fun n => negb (is_logical n)) l.

  Lemma conv_endpoints P : Permutation (endpoints (flat_map conv P)) (flat_map (fun s => [s; copy s]) (nonlog (endpoints P))).
  Proof.
    induction P as [|[u v] P IH]; [apply Permutation_refl|]. cbn [flat_map endpoints nonlog filter]. rewrite endpoints_app.
    unfold conv at 1. destruct (is_logical u), (is_logical v); cbn [negb flat_map endpoints app]; fold (nonlog (endpoints P)).
    - exact IH.
    - do 2 apply perm_skip. exact IH.
    - do 2 apply perm_skip. exact IH.
    - apply perm_skip. rewrite perm_swap. apply Permutation_sym. rewrite IH. apply perm_skip. apply Permutation_refl.
  Qed.

  Lemma pairs_perm l : Permutation (flat_map (fun s => [s; copy s]) l) (l ++ map copy l).
  Proof.
    induction l as [|a l IH]; [apply Permutation_refl|]. cbn [flat_map app map]. apply perm_skip. rewrite IH. apply Permutation_middle.
  Qed.

  Lemma XX_NoDup : NoDup (X ++ map copy X).
  Proof.
    apply NoDup_app_intro; [apply X_NoDup | |].
    - apply FinFun.Injective_map_NoDup; [intros a b; apply copy_inj | apply X_NoDup].
    - intros x Hx Hc. apply in_map_iff in Hc as (s & E & _). exact (copy_notX s x Hx E).
  Qed.

  Section FromPairing.
    Variable P : list (node * node).
    Hypothesis P_nd : NoDup (endpoints P).
    Hypothesis P_dom : incl (endpoints P) (allnodes d T).
    Hypothesis P_lit : forall n, In n X <-> In n (endpoints P) /\ is_logical n = false.

    Lemma nonlog_perm : Permutation (nonlog (endpoints P)) X.
    Proof.
      apply NoDup_Permutation; [apply NoDup_filter, P_nd | apply X_NoDup|]. intros n.
      unfold nonlog. rewrite filter_In, negb_true_iff, <- P_lit. reflexivity.
    Qed.

    Lemma conv_perm : Permutation (endpoints (flat_map conv P)) (X ++ map copy X).
    Proof.
      rewrite conv_endpoints, pairs_perm. apply Permutation_app; [apply nonlog_perm | apply Permutation_map, nonlog_perm].
    Qed.

    Lemma P_logical n : In n (endpoints P) -> is_logical n = true -> n = L0 \/ n = L1.
    Proof.
      intros Hn Hl. apply P_dom, allnodes_In in Hn as [->|[->|(r & e & -> & _)]]; [auto | auto | discriminate].
    Qed.

    Lemma conv_matching : is_matching edgesM (flat_map conv P).
    Proof.
      split.
      - eapply Permutation_NoDup; [apply Permutation_sym, conv_perm | apply XX_NoDup].
      - intros e He. apply in_flat_map in He as ([u v] & HP & He).
        destruct (endpoints_In _ _ _ HP) as [Hu Hv].
        assert (Huv : u <> v).
        { clear -P_nd HP. induction P as [|[a b] Q IH]; [destruct HP|]. cbn in P_nd. destruct HP as [[= -> ->]|HP].
          - intros ->. inversion P_nd as [|? ? Hn _]; subst. apply Hn. left; reflexivity.
          - apply IH; [inversion P_nd as [|? ? _ H1]; inversion H1; assumption | exact HP]. }
        unfold conv in He. destruct (is_logical u) eqn:Eu, (is_logical v) eqn:Ev; cbn in He.
        + destruct He.
        + destruct He as [<-|[]]. eexists. apply edge_kind. cbn [fst snd]. apply MK_sc. apply P_lit; auto.
        + destruct He as [<-|[]]. eexists. apply edge_kind. cbn [fst snd]. apply MK_sc. apply P_lit; auto.
        + assert (In u X) by (apply P_lit; auto). assert (In v X) by (apply P_lit; auto).
          destruct He as [<-|[<-|[]]]; eexists; apply edge_kind; cbn [fst snd]; [apply MK_ss | apply MK_cc]; assumption.
    Qed.

    Lemma conv_length : length (flat_map conv P) = length X.
    Proof.
      pose proof (Permutation_length conv_perm) as E. rewrite endpoints_length, app_length, map_length in E. lia.
    Qed.

    Lemma conv_weight : (- Z.of_nat (cost dist P) <= zsum (map wt (flat_map conv P)))%Z.
    Proof.
      clear P_nd P_lit. induction P as [|[u v] Q IH]; [cbn; lia|].
      assert (HQ : incl (endpoints Q) (allnodes d T)) by (intros x Hx; apply P_dom; right; right; exact Hx).
      specialize (IH HQ). cbn [flat_map]. rewrite map_app, zsum_app. unfold cost in *. cbn [map nsum fst snd].
      assert (Hu : In u (allnodes d T)) by (apply P_dom; left; reflexivity).
      assert (Hv : In v (allnodes d T)) by (apply P_dom; right; left; reflexivity).
      assert (H : (- Z.of_nat (dist u v) <= zsum (map wt (conv (u, v))))%Z).
      { assert (Hb : forall s l, In l (allnodes d T) -> is_logical l = true -> dist s (near s) <= dist s l).
        { intros s l Hl Hlog. apply allnodes_In in Hl as [->|[->|(r & e & -> & _)]]; [apply near_best | apply near_best | discriminate]. }
        unfold conv. destruct (is_logical u) eqn:Eu, (is_logical v) eqn:Ev; cbn [map zsum]; unfold wt; rewrite ?copy_logical, ?Eu, ?Ev.
        - lia.
        - specialize (Hb v u Hu Eu). rewrite (dist_symm u v) by assumption. lia.
        - specialize (Hb u v Hv Ev). lia.
        - lia. }
      lia.
    Qed.
  End FromPairing.

  (** ** What the matching corrects *)
  Definition proj (e : node * node) : list (node * node) :=
    let '(a, b) := e in
    if is_logical a then if is_logical b then [] else [(b, near b)]
    else if is_logical b then [(a, near a)] else [(a, b)].

  Lemma proj_cost M : Z.of_nat (nsum (map (fun e => dist (fst e) (snd e)) (flat_map proj M))) = (- zsum (map wt M))%Z.
  Proof.
    induction M as [|[a b] M IH]; [reflexivity|]. cbn [flat_map map zsum]. rewrite map_app, nsum_app, Nat2Z.inj_add, IH.
    unfold proj, wt. destruct (is_logical a), (is_logical b); cbn [map nsum fst snd]; lia.
  Qed.

  Lemma near_logical s : is_logical (near s) = true.
  Proof. destruct (near_cases s) as [-> | ->]; reflexivity. Qed.

  Lemma proj_cnt M n : is_logical n = false -> cnt n (endpoints (flat_map proj M)) = cnt n (endpoints M).
  Proof.
    intros Hn. assert (Hlog : forall l, is_logical l = true -> eqb n l = false).
    { intros l Hl. apply eqb_neq. intros ->. congruence. }
    induction M as [|[a b] M IH]; [reflexivity|]. cbn [flat_map]. rewrite endpoints_app, cnt_app, IH. cbn [endpoints]. rewrite !cnt_cons, <- xorb_assoc. f_equal.
    unfold proj. destruct (is_logical a) eqn:Ea, (is_logical b) eqn:Eb; cbn [endpoints]; unfold cnt; cbn [map]; rewrite ?xsum_cons;
      rewrite ?(Hlog a), ?(Hlog b), ?(Hlog (near a)), ?(Hlog (near b)) by (assumption || apply near_logical); cbn [xsum fold_right];
      rewrite ?xorb_false_r, ?xorb_false_l; reflexivity.
  Qed.

  Lemma proj_dom M : incl (endpoints (nil : list (node*node))) (allnodes d T) ->
    (forall e, In e M -> exists w, edge_weight edgesM e w) -> incl (endpoints (flat_map proj M)) (allnodes d T).
  Proof.
    intros _ Hall x Hx. apply In_endpoints in Hx as (u & v & Huv & Hx). apply in_flat_map in Huv as ([a b] & Hab & Huv).
    destruct (Hall _ Hab) as (w & Hw). apply edge_kind in Hw. cbn [fst snd] in Hw.
    assert (HX : forall s, In s X -> In s (allnodes d T)) by (intros s Hs; apply X_In in Hs; tauto).
    destruct Hw as [a b Ha Hb Hne|a Ha|a Ha|s t Hs Ht Hne]; unfold proj in Huv; rewrite ?copy_logical, ?X_notlog in Huv by assumption;
      try (destruct Huv as [[= <- <-]|[]]); try destruct Huv; destruct Hx as [-> | ->]; try (apply HX; assumption); apply near_In.
  Qed.

  Lemma flips_closed M x y : (forall e, In e M -> exists w, edge_weight edgesM e w) ->
    foldM (fun logs '(source, target) =>
       do logs <- (if is_logical source && negb (is_logical target)
                   then flip_at logs (nth 1 source 0) else Ok logs);
       if is_logical target && negb (is_logical source)
       then flip_at logs (nth 1 target 0) else Ok logs) M [[bit_char x]; [bit_char y]]
    = Ok [[bit_char (xorb x (cnt L0 (endpoints (flat_map proj M))))]; [bit_char (xorb y (cnt L1 (endpoints (flat_map proj M))))]].
  Proof.
    revert x y. induction M as [|[a b] M IH]; intros x y Hall.
    - cbn. rewrite !xorb_false_r. reflexivity.
    - cbn [foldM flat_map]. rewrite endpoints_app, !cnt_app.
      destruct (Hall _ (or_introl eq_refl)) as (w & Hw). apply edge_kind in Hw. cbn [fst snd] in Hw.
      assert (HallM : forall e, In e M -> exists w, edge_weight edgesM e w) by (intros e He; apply Hall; right; exact He).
      assert (Hstep : exists x' y', x' = xorb x (cnt L0 (endpoints (proj (a, b)))) /\ y' = xorb y (cnt L1 (endpoints (proj (a, b)))) /\
        (do logs <- (if is_logical a && negb (is_logical b) then flip_at [[bit_char x]; [bit_char y]] (nth 1 a 0) else Ok [[bit_char x]; [bit_char y]]);
         if is_logical b && negb (is_logical a) then flip_at logs (nth 1 b 0) else Ok logs) = Ok [[bit_char x']; [bit_char y']]).
      { eexists _, _. split; [reflexivity|]. split; [reflexivity|].
        assert (HL : forall s, In s X -> eqb L0 s = false /\ eqb L1 s = false).
        { intros s Hs. destruct (X_shape s Hs) as (r & e & -> & _). split; reflexivity. }
        destruct Hw as [a b Ha Hb Hne|a Ha|a Ha|s t Hs Ht Hne]; unfold proj; rewrite ?copy_logical, ?X_notlog by assumption; cbn [andb negb bind].
        - cbn [endpoints]. rewrite !cnt_cons. destruct (HL a Ha) as [-> ->], (HL b Hb) as [-> ->]. cbn. rewrite !xorb_false_r. reflexivity.
        - cbn [endpoints]. rewrite !cnt_cons. destruct (HL a Ha) as [-> ->]. unfold copy.
          destruct (near_cases a) as [-> | ->]; destruct x, y; reflexivity.
        - cbn [endpoints]. rewrite !cnt_cons. destruct (HL a Ha) as [-> ->]. unfold copy.
          destruct (near_cases a) as [-> | ->]; destruct x, y; reflexivity.
        - cbn. rewrite !xorb_false_r. reflexivity. }
      destruct Hstep as (x' & y' & Ex & Ey & Hs). 
      match goal with |- bind ?t _ = _ => replace t with (Ok [[bit_char x']; [bit_char y']]) end.
      cbn [bind]. rewrite (IH x' y' HallM). subst x' y'. rewrite !xorb_assoc. reflexivity.
  Qed.

  (** The main argument: [f] is the lit pattern of [b] with the edges [EF]. *)
  Variable mwm : list (node * node * Z) -> list (node * node).
  Hypothesis Hmwm : is_max_weight_matching mwm.

  Lemma matching_corrects b EF :
    2 * length EF < d ->
    (forall e, In e EF -> fst e <> snd e /\ In (fst e) (allnodes d T) /\ In (snd e) (allnodes d T) /\ dist (fst e) (snd e) <= 1) ->
    (forall n, In n (allnodes d T) -> f n = xorb (b && is_logical n) (cnt n (endpoints EF))) ->
    matching spl mwm S (dec_string d T f) = Ok [bit_char b; sp; bit_char b].
  Proof.
    intros Hk HEF Hf.
    destruct (pairing dist (allnodes d T) dist_symm dist_triangle EF HEF) as (P & Pnd & Pdom & Pcnt & Pcost).
    assert (Plit : forall n, In n X <-> In n (endpoints P) /\ is_logical n = false).
    { intros n. rewrite X_In, <- (cnt_In n (endpoints P) Pnd), Pcnt. split.
      - intros (Hn & Hfn & Hl). rewrite Hf, Hl, Bool.andb_false_r, xorb_false_l in Hfn by exact Hn. auto.
      - intros (Hc & Hl). assert (Hn : In n (allnodes d T)).
        { rewrite <- Pcnt in Hc. apply (cnt_In n (endpoints P) Pnd) in Hc. apply Pdom, Hc. }
        rewrite Hf, Hl, Bool.andb_false_r, xorb_false_l by exact Hn. auto. }
    destruct (Hmwm edgesM edgesM_functional) as [HM Hbest]. set (M := mwm edgesM) in *.
    pose proof (conv_matching P Pnd Plit) as HM'. destruct (Hbest _ HM') as [Hlen Hw].
    pose proof HM as [Mnd Mall].
    assert (Mincl : incl (endpoints M) (X ++ map copy X)).
    { intros x Hx. apply In_endpoints in Hx as (u & v & Huv & Hx). destruct (Mall _ Huv) as (w & Hww). apply edge_kind in Hww. cbn [fst snd] in Hww.
      apply in_app_iff. destruct Hww; destruct Hx as [-> | ->]; (left; assumption) || (right; apply in_map; assumption). }
    assert (Hlen2 : length M <= length X).
    { pose proof (NoDup_incl_length Mnd Mincl) as H. rewrite endpoints_length, app_length, map_length in H. lia. }
    rewrite (conv_length P Pnd Plit) in Hlen, Hw.
    assert (Mperm : Permutation (endpoints M) (X ++ map copy X)).
    { apply NoDup_Permutation_bis; [exact Mnd | | exact Mincl]. rewrite endpoints_length, app_length, map_length. lia. }
    specialize (Hw ltac:(lia) _ _ (matching_weight M HM) (matching_weight _ HM')).
    pose proof (conv_weight P Pdom) as Hcw.
    pose proof (proj_cost M) as Hpc.
    set (G := EF ++ flat_map proj M).
    assert (HG : nsum (map (fun e => dist (fst e) (snd e)) G) < d).
    { unfold G. rewrite map_app, nsum_app.
      assert (nsum (map (fun e => dist (fst e) (snd e)) EF) <= length EF).
      { rewrite <- (nsum_ones EF). apply nsum_le. intros e He. apply HEF, He. }
      lia. }
    assert (Gdom : incl (endpoints G) (allnodes d T)).
    { unfold G. rewrite endpoints_app. apply incl_app; [|apply proj_dom; [intros x [] | exact Mall]].
      intros x Hx. apply In_endpoints in Hx as (u & v & Huv & Hx). apply HEF in Huv. cbn [fst snd] in Huv. destruct Hx as [-> | ->]; tauto. }
    assert (Gcnt : forall n, In n synnodes -> cnt n (endpoints G) = false).
    { intros n Hn. pose proof (syn_not_logical n Hn) as Hl. assert (Hin : In n (allnodes d T)) by (rewrite allnodes_split; right; right; exact Hn).
      unfold G. rewrite endpoints_app, cnt_app, proj_cnt by exact Hl. rewrite (cnt_perm n _ _ Mperm), cnt_app.
      rewrite (cnt_notIn n (map copy X)).
      2:{ intros Hc. apply in_map_iff in Hc as (s & E & _). rewrite <- E, copy_logical in Hl. discriminate. }
      rewrite xorb_false_r, (cnt_NoDup n X X_NoDup).
      replace (mem n X) with (cnt n (endpoints EF)); [apply xorb_nilpotent|].
      rewrite <- Pcnt, (cnt_NoDup n _ Pnd). apply Bool.eq_iff_eq_true. rewrite !mem_In, Plit. tauto. }
    assert (Hsum : forall h : node -> bool, xsum (map h (endpoints G))
              = xorb (cnt L0 (endpoints G) && h L0) (cnt L1 (endpoints G) && h L1)).
    { intros h. rewrite (xsum_by_nodes h _ (allnodes d T) (allnodes_NoDup d T) Gdom), allnodes_split. cbn [map]. rewrite !xsum_cons.
      rewrite (xsum_ext _ (fun _ => false)).
      - replace (xsum (map (fun _ : node => false) synnodes)) with false; [rewrite xorb_false_r; reflexivity|].
        clear. induction synnodes as [|a l IH]; [reflexivity|]. cbn [map]. rewrite xsum_cons, <- IH. reflexivity.
      - intros n Hn. rewrite Gcnt by exact Hn. reflexivity. }
    assert (G0 : cnt L0 (endpoints G) = false).
    { destruct (cnt L0 (endpoints G)) eqn:E; [|reflexivity]. exfalso.
      assert (Hcut : d <= nsum (map (fun e => gap (npos d (fst e)) (npos d (snd e))) G)).
      { apply cut_bound. intros c Hc. rewrite (Hsum (fun n => npos d n <=? c)).
        change (npos d L0) with 0. change (npos d L1) with d. cbn [Nat.leb].
        replace (d <=? c) with false by (symmetry; apply Nat.leb_gt; lia).
        rewrite Bool.andb_false_r. reflexivity. }
      assert (nsum (map (fun e => gap (npos d (fst e)) (npos d (snd e))) G) <= nsum (map (fun e => dist (fst e) (snd e)) G)).
      { apply nsum_le. intros [u v] He. apply endpoints_In in He as [Hu Hv]. apply dist_gap; apply Gdom; assumption. }
      lia. }
    assert (G1 : cnt L1 (endpoints G) = false).
    { pose proof (Hsum (fun _ => true)) as H. rewrite endpoints_even, G0 in H. cbn [andb] in H.
      rewrite Bool.andb_true_r, xorb_false_l in H. symmetry; exact H. }
    unfold matching. rewrite make_error_graph_closed. cbn [bind]. rewrite matching_graph_closed. cbn [bind].
    rewrite split_dec_string by exact Hd. cbn [index_e nth_error bind].
    fold M. rewrite flips_closed by exact Mall. cbn [bind].
    unfold G in G0, G1. rewrite endpoints_app, cnt_app in G0, G1.
    rewrite !Hf by (apply L0_In || apply L1_In). cbn [is_logical L0 L1]. rewrite Bool.andb_true_r, !xorb_assoc, G0, G1, !xorb_false_r.
    reflexivity.
  Qed.
End Metric.

Lemma logical_distance d T shots S : 2 <= d -> 1 <= T ->
  make_syndrome_graph (repetition_code d T) shots = Ok S ->
  path S L0 L1 d /\ forall n, path S L0 L1 n -> d <= n.
Proof.
  intros Hd HT HS. split.
  - assert (H : forall p, p <= d -> path S L0 (node_at d 0 p) p).
    { induction p as [|p IH]; intros Hp; [reflexivity|]. replace (Datatypes.S p) with (p + 1) by lia.
      eapply path_app; [apply IH; lia|]. exists (node_at d 0 (p + 1)). split; [left | reflexivity].
      apply (graph_space d T shots S); assumption || lia. }
    specialize (H d (le_n d)). unfold node_at in H. destruct (Nat.eqb_spec d 0); [lia|]. rewrite Nat.eqb_refl in H. exact H.
  - intros n Hn. apply (path_gap d T shots S Hd HT HS) in Hn. unfold gap in Hn. change (npos d L0) with 0 in Hn. change (npos d L1) with d in Hn. lia.
Qed.

(** C15. *)
Lemma C15_lemma d T shots S b fs spl mwm :
  2 <= d -> 1 <= T -> is_shortest_path spl -> is_max_weight_matching mwm ->
  let c := repetition_code d T in
  make_syndrome_graph c shots = Ok S ->
  Forall (fault_ok (rc_circ c b)) fs -> 2 * length fs < d ->
  exists s, process_string d T (faulty_outcome c b fs) = Ok s /\ matching spl mwm S s = Ok [bit_char b; sp; bit_char b].
Proof.
  intros Hd HT Hspl Hmwm c HS Hok Hk. unfold faulty_outcome, c. rewrite run_string_out by exact HT.
  eexists. split; [apply process_out_string; assumption|].
  destruct (fault_edges d T shots S spl Hd HT HS Hspl b fs Hok) as (EF & Hlen & HEF & Hc).
  apply (matching_corrects d T shots S spl Hd HT HS Hspl _ mwm Hmwm b EF).
  - lia.
  - exact HEF.
  - intros n Hn. rewrite faulty_lit by assumption. rewrite noiseless_lit by assumption. rewrite Hc by exact Hn. reflexivity.
Qed.
