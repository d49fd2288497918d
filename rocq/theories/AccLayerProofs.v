(** Proofs about [layer_parser] (C37). *)
From Coq Require Import QArith.
From Verif Require Import Base LinAlg ResultFacts QSem CountsModel DihedralModel RBSeqModel RBSeqSpec RBSeqActProofs StdGates AccModel AccSpec.
Open Scope nat_scope.

Lemma gates_app a b : gates (a ++ b) = gates a ++ gates b.
Proof. apply flat_map_app. Qed.

Section Lay.
Context {F : Type} {HF : Fld F}.
Add Field FldFieldL : fth.
Variable gmat : pystr -> list Q -> bits -> bits -> F.
Notation same_action := (same_action gmat).
Notation op_of := (op_of gmat).

Lemma run_comm N (a b : list (op F)) : Forall (ok_op N) a -> Forall (ok_op N) b -> (forall o o', In o a -> In o' b -> disjoint o o') ->
  forall psi, eqa N (run b (run a psi)) (run a (run b psi)).
Proof.
  intros Ha Hb. induction a as [|o a IH]; intros Hd psi x Hx; [reflexivity|]. cbn [run].
  apply Forall_cons_iff in Ha. destruct Ha as [Ho Ha]. rewrite IH; [|exact Ha| |exact Hx].
  - apply (run_ext N); [|exact Hx]. apply run_apply_comm; auto. apply Forall_forall. intros o' Ho'. apply Hd; [left; reflexivity|exact Ho'].
  - intros o1 o2 H1 H2. apply Hd; [right; exact H1|exact H2].
Qed.

Definition apart (a b : list ginstr) : Prop := forall g g' q, In g a -> In g' b -> In q (gqubits g) -> ~ In q (gqubits g').
Lemma same_swap N a b : fits N a -> fits N b -> apart a b -> same_action N (a ++ b) (b ++ a).
Proof.
  intros Ha Hb Hd. exists f1. split; [apply f1_neq_0|]. intros psi x Hx. rewrite !map_app, !run_app.
  rewrite (run_comm N); [ring | apply fits_ok; exact Ha | apply fits_ok; exact Hb | | exact Hx].
  intros o o' Ho Ho'. apply in_map_iff in Ho, Ho'. destruct Ho as [g [<- Hg]], Ho' as [g' [<- Hg']].
  intros q Hq. apply (Hd g g' q Hg Hg' Hq).
Qed.
Lemma same_pre N c a b : same_action N a b -> same_action N (c ++ a) (c ++ b).
Proof. intros. apply same_app; [apply same_refl|assumption]. Qed.
Lemma same_post N c a b : same_action N a b -> same_action N (a ++ c) (b ++ c).
Proof. intros. apply same_app; [assumption|apply same_refl]. Qed.

(** cx as h, cz, h on the target. *)
Lemma cx_hczh r i : std_gates gmat r i -> forall N c t, c < N -> t < N -> c <> t ->
  same_action N [gq "h" [t]; gq "cz" [c; t]; gq "h" [t]] [gq "cx" [c; t]].
Proof.
  intros H N c t Hc Ht Hct. exists f1. split; [apply f1_neq_0|]. intros psi x Hx. cbn [map run].
  rewrite (apply_cx _ r i H) by exact Hct. rewrite (apply_h _ r i H). rewrite !(apply_cz _ r i H) by exact Hct. rewrite !(apply_h _ r i H).
  rewrite !nth_set1_eq by lia. rewrite !(nth_set1_ne x t c) by congruence. rewrite !set1_set1. pose proof (sg_r _ _ _ H) as Hr.
  destruct (nth c x false), (nth t x false); cbn [andb xorb sgn];
  match goal with |- _ = fmul f1 (psi ?y) => transitivity (fmul (fmul (fadd f1 f1) (fmul r r)) (psi y)); [ring | rewrite Hr; ring] end.
Qed.

Definition qs_of (l : list cinstr) : list nat := flat_map (fun i => match i with CGate g => gqubits g | _ => [] end) l.
Definition laid (d : list (list cinstr * list cinstr)) : list cinstr := flat_map (fun p => fst p ++ snd p) d.

Lemma laid_snoc d p : laid (d ++ [p]) = laid d ++ fst p ++ snd p.
Proof. unfold laid. rewrite flat_map_app. cbn [flat_map]. rewrite app_nil_r. reflexivity. Qed.

Record inv (g2 : pystr) (n : nat) (seen : list cinstr) (s : pstate) : Prop := {
  i_act : same_action n (gates (laid (p_done s) ++ p_pre s ++ p_two s ++ p_post s)) (gates seen);
  i_done : Forall (fun d => Forall (one_qubit n) (fst d) /\ layer2 g2 n (snd d)) (p_done s);
  i_pre : Forall (one_qubit n) (p_pre s);
  i_two : layer2 g2 n (p_two s);
  i_cur : p_cur s = qs_of (p_two s);
  i_post : Forall (fun i => exists g q, i = CGate g /\ gqubits g = [q] /\ In q (p_cur s) /\ q < n) (p_post s);
  i_meas : p_meas s = measures seen
}.

Lemma inv_init g2 n : inv g2 n [] p_init.
Proof. constructor; cbn; try constructor; try reflexivity; try constructor. apply same_refl. Qed.

Lemma post_one n cur l : Forall (fun i => exists g q, i = CGate g /\ gqubits g = [q] /\ In q cur /\ q < n) l -> Forall (one_qubit n) l.
Proof. intros H. eapply Forall_impl; [|exact H]. intros i (g & q & -> & E & _ & Hq). exists q; auto. Qed.

Lemma inv_new g2 n seen s : inv g2 n seen s -> inv g2 n seen (new_layer s).
Proof.
  intros [Ha Hd Hp Ht Hc Hq Hm]. constructor; cbn; auto.
  - rewrite laid_snoc, app_nil_r, <- !app_assoc. exact Ha.
  - apply Forall_app. split; auto.
  - eapply post_one, Hq.
  - split; constructor.
Qed.

Lemma fits_one n l : Forall (one_qubit n) l -> fits n (gates l).
Proof.
  induction 1 as [|i l Hi Hl IH]; [constructor|]. destruct i as [g|b|q c]; cbn; auto.
  constructor; [|exact IH]. destruct Hi as [q [-> Hq]]. repeat split; [discriminate|repeat constructor; intros []|]. intros q' [<-|[]]. exact Hq.
Qed.
Lemma fits_two g2 n l : layer2 g2 n l -> fits n (gates l).
Proof.
  intros [H Hd]. induction H as [|i l Hi Hl IH]; [constructor|]. destruct Hi as (c & t & -> & Hc & Ht). cbn in *.
  apply NoDup_cons_iff in Hd. destruct Hd as [Hn Hd]. apply NoDup_cons_iff in Hd. destruct Hd as [Hn' Hd].
  constructor; [|exact (IH Hd)]. cbn. repeat split; [discriminate| |].
  - constructor; [intros [->|[]]; apply Hn; left; reflexivity|]. constructor; [intros []|constructor].
  - intros q [<-|[<-|[]]]; assumption.
Qed.
Lemma in_gates l g : In g (gates l) -> In (CGate g) l.
Proof. intros H. apply in_flat_map in H. destruct H as [i [Hi Hg]]. destruct i; cbn in Hg; try contradiction. destruct Hg as [->|[]]. exact Hi. Qed.
Lemma in_qs l g q : In g (gates l) -> In q (gqubits g) -> In q (qs_of l).
Proof. intros H Hq. apply in_flat_map. exists (CGate g). split; [apply in_gates, H | exact Hq]. Qed.
Lemma post_qs n cur l g q : Forall (fun i => exists g q, i = CGate g /\ gqubits g = [q] /\ In q cur /\ q < n) l -> In g (gates l) -> In q (gqubits g) -> In q cur.
Proof.
  intros H Hg Hq. apply in_gates in Hg. rewrite Forall_forall in H. destruct (H _ Hg) as (g' & q' & E & Eq & Hc & _). injection E as <-.
  rewrite Eq in Hq. destruct Hq as [<-|[]]. exact Hc.
Qed.
Lemma meas_app a b : measures (a ++ b) = measures a ++ measures b.
Proof. apply filter_app. Qed.

Lemma fits1 n name ps q : q < n -> fits n [{| gname := name; gparams := ps; gqubits := [q] |}].
Proof. intros H. repeat constructor; cbn; try discriminate; [intros []|]. intros q' [<-|[]]. exact H. Qed.
Lemma fits2 n name ps c t : c < n -> t < n -> c <> t -> fits n [{| gname := name; gparams := ps; gqubits := [c; t] |}].
Proof.
  intros Hc Ht Hct. constructor; [|constructor]. cbn. repeat split; [discriminate| |].
  - constructor; [intros [->|[]]; congruence|]. repeat constructor. intros [].
  - intros q' [<-|[<-|[]]]; assumption.
Qed.

Variables r i : F.
Hypothesis Hstd : std_gates gmat r i.

Lemma step_u g2 n seen s g : inv g2 n seen s -> (exists q, gqubits g = [q] /\ q < n) ->
  forall q, index_e (gqubits g) 0 = Ok q ->
  inv g2 n (seen ++ [CGate g]) (if mem q (p_cur s) then add_post s (CGate g) else add_pre s (CGate g)).
Proof.
  intros [Ha Hd Hp Ht Hc Hq Hm] (q & Eq & Hlt) q' E. rewrite Eq in E. injection E as <-.
  assert (Hf : fits n [g]). { destruct g as [na pa qs]. cbn in Eq. subst qs. apply fits1, Hlt. }
  destruct (mem q (p_cur s)) eqn:Em.
  - apply mem_In in Em. constructor; cbn; auto.
    + rewrite !app_assoc, (gates_app _ [CGate g]), (gates_app seen). apply same_app; [rewrite <- !app_assoc; exact Ha | apply same_refl].
    + apply Forall_app. split; [exact Hq|]. repeat constructor. exists g, q. auto.
    + rewrite meas_app, app_nil_r. exact Hm.
  - apply mem_not_In in Em. constructor; cbn; auto.
    + eapply same_trans; [|rewrite (gates_app seen); apply same_post, Ha].
      rewrite !gates_app, <- !app_assoc. apply same_pre, same_pre. cbn [gates flat_map app].
      change (same_action n ([g] ++ gates (p_two s) ++ gates (p_post s)) (gates (p_two s) ++ gates (p_post s) ++ [g])).
      rewrite (app_assoc (gates (p_two s))). apply same_swap; auto.
      * apply fits_app. split; [eapply fits_two, Ht | eapply fits_one, post_one, Hq].
      * intros g1 g' q1 [<-|[]] Hg' Hq1 Hq2. rewrite Eq in Hq1. destruct Hq1 as [<-|[]]. apply Em.
        apply in_app_iff in Hg'. destruct Hg' as [Hg'|Hg']; [rewrite Hc; eapply in_qs; eauto | eapply post_qs; eauto].
    + apply Forall_app. split; [exact Hp|]. repeat constructor. exists q; auto.
    + rewrite meas_app, app_nil_r. exact Hm.
Qed.

Lemma add_cur_id s qs : p_done (add_cur s qs) = p_done s. Proof. reflexivity. Qed.

Lemma in_qs_app a b : qs_of (a ++ b) = qs_of a ++ qs_of b.
Proof. apply flat_map_app. Qed.
Lemma layer2_snoc g2 n l c t : layer2 g2 n l -> c < n -> t < n -> c <> t -> ~ In c (qs_of l) -> ~ In t (qs_of l) ->
  layer2 g2 n (l ++ [CGate {| gname := g2; gparams := []; gqubits := [c; t] |}]).
Proof.
  intros [H Hd] Hc Ht Hct Nc Nt. split.
  - apply Forall_app. split; [exact H|]. repeat constructor. exists c, t. auto.
  - rewrite flat_map_app. apply nodup_app_iff. split; [exact Hd|]. split.
    + cbn. constructor; [intros [->|[]]; congruence|]. repeat constructor. intros [].
    + intros x Hx [<-|[<-|[]]]; [apply Nc, Hx | apply Nt, Hx].
Qed.

Lemma step_cx2 g2 n seen s c t : inv g2 n seen s -> c < n -> t < n -> c <> t -> ~ In c (p_cur s) -> ~ In t (p_cur s) ->
  forall s', (if eqb g2 (str "cx") then Ok (add_two s (gate2 "cx" c t))
              else if eqb g2 (str "cz") then Ok (add_pre (add_post (add_two s (gate2 "cz" c t)) (had t)) (had t))
              else Err QiskitError) = Ok s' ->
  inv g2 n (seen ++ [CGate (gq "cx" [c; t])]) (add_cur s' [c; t]).
Proof.
  intros [Ha Hd Hp Ht Hc Hq Hm] Lc Lt Hct Nc Nt s' E.
  assert (Hfp : fits n (gates (p_post s))) by (eapply fits_one, post_one, Hq).
  assert (Hft : fits n (gates (p_two s))) by (eapply fits_two, Ht).
  assert (Hx2 : forall na, fits n [gq na [c; t]]) by (intros na; apply fits2; auto).
  assert (Hh : fits n [gq "h" [t]]) by (apply fits1; auto).
  assert (Ap : forall na, apart [gq na [c; t]] (gates (p_post s))).
  { intros na g g' q [<-|[]] Hg' Hq1 Hq2. pose proof (post_qs _ _ _ _ _ Hq Hg' Hq2) as Hi. destruct Hq1 as [<-|[<-|[]]]; contradiction. }
  assert (Aph : apart [gq "h" [t]] (gates (p_two s) ++ gates (p_post s))).
  { intros g g' q [<-|[]] Hg' Hq1 Hq2. destruct Hq1 as [<-|[]]. apply in_app_iff in Hg'. destruct Hg' as [Hg'|Hg'].
    - apply Nt. rewrite Hc. eapply in_qs; eauto.
    - apply Nt. eapply post_qs; eauto. }
  assert (Hpost : Forall (fun i => exists g q, i = CGate g /\ gqubits g = [q] /\ In q (p_cur s ++ [c; t]) /\ q < n) (p_post s)).
  { eapply Forall_impl; [|exact Hq]. intros j (g & q & E1 & E2 & E3 & E4). exists g, q. rewrite in_app_iff. auto. }
  destruct (eqb_spec g2 (str "cx")) as [->|_].
  - injection E as <-. constructor; cbn; auto.
    + eapply same_trans; [|rewrite (gates_app seen); apply same_post, Ha].
      rewrite !gates_app, <- !app_assoc. apply same_pre, same_pre, same_pre. cbn [gates flat_map app gate2].
      apply (same_swap n [gq "cx" [c; t]] (gates (p_post s))); auto.
    + apply layer2_snoc; auto; rewrite <- Hc; auto.
    + rewrite in_qs_app, Hc. reflexivity.
    + rewrite meas_app, app_nil_r. exact Hm.
  - destruct (eqb_spec g2 (str "cz")) as [->|_]; [|discriminate]. injection E as <-. constructor; cbn; auto.
    + eapply same_trans; [|rewrite (gates_app seen); apply same_post, Ha].
      rewrite !gates_app, <- !app_assoc. apply same_pre, same_pre. cbn [gates flat_map app gate2 had gate1].
      change (same_action n ([gq "h" [t]] ++ gates (p_two s) ++ [gq "cz" [c; t]] ++ gates (p_post s) ++ [gq "h" [t]])
                            (gates (p_two s) ++ gates (p_post s) ++ [gq "cx" [c; t]])).
      apply same_trans with ([gq "h" [t]] ++ gates (p_two s) ++ gates (p_post s) ++ [gq "cz" [c; t]; gq "h" [t]]).
      { apply same_pre, same_pre. change [gq "cz" [c; t]; gq "h" [t]] with ([gq "cz" [c; t]] ++ [gq "h" [t]]). rewrite !app_assoc. apply same_post, same_swap; auto. }
      apply same_trans with (gates (p_two s) ++ gates (p_post s) ++ [gq "h" [t]; gq "cz" [c; t]; gq "h" [t]]).
      { change [gq "h" [t]; gq "cz" [c; t]; gq "h" [t]] with ([gq "h" [t]] ++ [gq "cz" [c; t]; gq "h" [t]]). rewrite !app_assoc.
        apply same_post. rewrite <- !app_assoc. rewrite (app_assoc (gates (p_two s))). apply same_swap; auto. apply fits_app; auto. }
      apply same_pre, same_pre. apply (cx_hczh r i); auto.
    + apply Forall_app. split; [exact Hp|]. repeat constructor. exists t. auto.
    + apply layer2_snoc; auto; rewrite <- Hc; auto.
    + rewrite in_qs_app, Hc. reflexivity.
    + apply Forall_app. split; [exact Hpost|]. repeat constructor. exists (gq "h" [t]), t. rewrite in_app_iff. cbn. repeat split; auto.
    + rewrite meas_app, app_nil_r. exact Hm.
Qed.

Lemma step_inv g2 n seen s a s' : inv g2 n seen s -> native n a -> parse_step g2 s a = Ok s' -> inv g2 n (seen ++ [a]) s'.
Proof.
  intros I Ha E. destruct a as [g|qs|q c]; cbn [parse_step] in E.
  - cbn [native] in Ha. destruct Ha as [[Hn Hq]|(Hn & Hp & c & t & Eq & Hc & Ht & Hct)].
    + assert (En : eqb (gname g) (str "u1") || eqb (gname g) (str "u2") || eqb (gname g) (str "u3") = true).
      { destruct Hn as [->|[->| ->]]; reflexivity. }
      rewrite En in E. inv_bind E. injection E as <-. apply step_u; auto.
    + destruct g as [na pa qs]. cbn [gname gparams gqubits] in Hn, Hp, Eq. subst na pa qs. cbn [gname gqubits] in E.
      change (eqb (str "cx") (str "u1") || eqb (str "cx") (str "u2") || eqb (str "cx") (str "u3")) with false in E.
      change (eqb (str "cx") (str "cx")) with true in E. cbn [index_e nth_error bind] in E. inv_bind E. injection E as <-.
      destruct (mem c (p_cur s) || mem t (p_cur s)) eqn:Em.
      * refine (step_cx2 g2 n seen (new_layer s) c t _ Hc Ht Hct _ _ _ E0); [apply inv_new, I| |]; intros [].
      * apply orb_false_iff in Em. destruct Em as [E1 E2]. apply mem_not_In in E1, E2.
        refine (step_cx2 g2 n seen s c t I Hc Ht Hct E1 E2 _ E0).
  - injection E as <-. 
    assert (I' : inv g2 n seen (match p_cur s with [] => s | _ => new_layer s end)) by (destruct (p_cur s); [exact I | apply inv_new, I]).
    revert I'. generalize (match p_cur s with [] => s | _ => new_layer s end). clear I s. intros s [Ia Id Ip It Ic Iq Im].
    constructor; cbn; auto.
    + rewrite !gates_app in *. cbn [gates flat_map app] in *. rewrite !app_nil_r. exact Ia.
    + apply Forall_app. split; [exact Ip|]. repeat constructor.
    + rewrite meas_app, app_nil_r. exact Im.
  - injection E as <-. destruct I as [Ia Id Ip It Ic Iq Im]. constructor; cbn; auto.
    + rewrite (gates_app seen). cbn [gates flat_map app]. rewrite app_nil_r. exact Ia.
    + rewrite meas_app, Im. reflexivity.
Qed.

Lemma fold_inv g2 n ops : forall seen s s', inv g2 n seen s -> Forall (native n) ops -> foldM (parse_step g2) ops s = Ok s' -> inv g2 n (seen ++ ops) s'.
Proof.
  induction ops as [|a ops IH]; intros seen s s' I Hn E; cbn [foldM] in E.
  - injection E as <-. rewrite app_nil_r. exact I.
  - apply Forall_cons_iff in Hn. destruct Hn as [Ha Hn]. inv_bind E.
    replace (seen ++ a :: ops) with ((seen ++ [a]) ++ ops) by (rewrite <- app_assoc; reflexivity).
    eapply IH; [|exact Hn|exact E]. eapply step_inv; eauto.
Qed.

Lemma woven_laid d rest : woven (map fst d ++ [rest]) (map snd d) = laid d ++ rest.
Proof. induction d as [|[a b] d IH]; [reflexivity|]. cbn [map fst snd app woven laid flat_map]. cbn [app] in IH. rewrite IH. unfold laid. rewrite <- !app_assoc. reflexivity. Qed.
Lemma woven_laid2 d p t q : woven (map fst d ++ [p; q]) (map snd d ++ [t]) = laid d ++ p ++ t ++ q.
Proof. induction d as [|[a b] d IH]; [reflexivity|]. cbn [map fst snd app woven laid flat_map]. cbn [app] in IH. rewrite IH. unfold laid. rewrite <- !app_assoc. reflexivity. Qed.

Lemma woven_tp n tp singles : transpiles gmat n tp -> Forall (Forall (one_qubit n)) singles ->
  forall twos, same_action n (gates (woven (map tp singles) twos)) (gates (woven singles twos)).
Proof.
  intros Htp. induction 1 as [|s singles Hs _ IH]; intros twos; [apply same_refl|].
  destruct twos as [|t twos]; cbn [map woven].
  - apply Htp, Hs.
  - rewrite !gates_app. apply same_app; [apply Htp, Hs|]. apply same_pre, IH.
Qed.

Theorem layer_parser_correct tp g2 n ops L : transpiles gmat n tp -> Forall (native n) ops -> layer_parser tp g2 n ops = Ok L ->
  same_action n (gates (woven (ly_single L) (ly_two L))) (gates ops) /\
  length (ly_single L) = S (length (ly_two L)) /\
  Forall (Forall (one_qubit n)) (ly_single L) /\ Forall (layer2 g2 n) (ly_two L) /\
  ly_meas L = measures ops /\ ly_gate L = g2 /\ ly_n L = n.
Proof.
  intros Htp Hn E. unfold layer_parser in E. inv_bind E. injection E as <-. cbn [ly_single ly_two ly_meas ly_gate ly_n].
  destruct (fold_inv g2 n ops [] p_init v (inv_init g2 n) Hn E0) as [Ia Id Ip It Ic Iq Im]. cbn [app] in Ia, Im.
  assert (Hs : Forall (Forall (one_qubit n)) (map fst (p_done v) ++ [p_pre v] ++ match p_cur v with [] => [] | _ => [p_post v] end)).
  { apply Forall_app. split; [|apply Forall_app; split].
    - apply Forall_map. eapply Forall_impl; [|exact Id]. intros a Hd; apply Hd.
    - repeat constructor. exact Ip.
    - destruct (p_cur v); repeat constructor. eapply post_one, Iq. }
  split; [|split; [|split; [|split; [|auto]]]].
  - eapply same_trans; [apply woven_tp; [exact Htp | exact Hs]|]. eapply same_trans; [|exact Ia].
    destruct (p_cur v) as [|q cur] eqn:Ec.
    + rewrite !app_nil_r, woven_laid.
      assert (Et : p_two v = []). { destruct (p_two v) as [|j l]; [reflexivity|]. destruct It as [It _]. apply Forall_cons_iff in It. destruct It as [(c & t & -> & _) _]. discriminate Ic. }
      assert (Ep : p_post v = []). { destruct (p_post v) as [|j l]; [reflexivity|]. apply Forall_cons_iff in Iq. destruct Iq as [(g & q & _ & _ & [] & _) _]. }
      rewrite Et, Ep, !app_nil_r. apply same_refl.
    + rewrite woven_laid2. apply same_refl.
  - rewrite map_length, !app_length, !map_length. cbn [length]. destruct (p_cur v); cbn [length]; lia.
  - apply Forall_map. eapply Forall_impl; [|exact Hs]. intros a Ha. apply Htp, Ha.
  - apply Forall_app. split.
    + apply Forall_map. eapply Forall_impl; [|exact Id]. intros a Hd; apply Hd.
    + destruct (p_cur v); repeat constructor; apply It.
Qed.

(** Which circuits are accepted. *)
Lemma layer_parser_total tp g2 n ops : g2 = str "cx" \/ g2 = str "cz" -> Forall (native n) ops -> exists L, layer_parser tp g2 n ops = Ok L.
Proof.
  intros Hg Hn. unfold layer_parser. 
  assert (exists s, foldM (parse_step g2) ops p_init = Ok s) as [s ->]; [|cbn; eauto].
  generalize p_init. induction Hn as [|a ops Ha Hn IH]; intros s; cbn [foldM]; [eauto|].
  assert (exists s', parse_step g2 s a = Ok s') as [s' ->]; [|cbn [bind]; apply IH].
  destruct a as [g|qs|q c]; cbn [parse_step]; eauto. cbn [native] in Ha. destruct Ha as [[Hnm (q & Eq & Hq)]|(Hnm & Hp & c & t & Eq & _)].
  - assert (En : eqb (gname g) (str "u1") || eqb (gname g) (str "u2") || eqb (gname g) (str "u3") = true).
    { destruct Hnm as [->|[->| ->]]; reflexivity. }
    rewrite En, Eq. cbn. eauto.
  - rewrite Hnm, Eq. change (eqb (str "cx") (str "u1") || eqb (str "cx") (str "u2") || eqb (str "cx") (str "u3")) with false.
    change (eqb (str "cx") (str "cx")) with true. cbn [index_e nth_error bind]. destruct Hg as [->| ->].
    + change (eqb (str "cx") (str "cx")) with true. cbn [bind]. eauto.
    + change (eqb (str "cz") (str "cx")) with false. change (eqb (str "cz") (str "cz")) with true. cbn [bind]. eauto.
Qed.
Lemma layer_parser_refuses tp g2 n ops g : In (CGate g) ops ->
  gname g <> str "u1" -> gname g <> str "u2" -> gname g <> str "u3" -> gname g <> str "cx" -> (forall g', In (CGate g') ops -> length (gqubits g') >= 2 \/ (length (gqubits g') >= 1 /\ gname g' <> str "cx")) ->
  layer_parser tp g2 n ops = Err QiskitError.
Proof.
  intros Hg H1 H2 H3 H4 Hq. unfold layer_parser. assert (E : foldM (parse_step g2) ops p_init = Err QiskitError); [|rewrite E; reflexivity].
  generalize p_init. induction ops as [|a ops IH]; intros s; [destruct Hg|]. cbn [foldM].
  destruct Hg as [->|Hg].
  - cbn [parse_step].
    destruct (eqb_spec (gname g) (str "u1")); [contradiction|]. destruct (eqb_spec (gname g) (str "u2")); [contradiction|].
    destruct (eqb_spec (gname g) (str "u3")); [contradiction|]. destruct (eqb_spec (gname g) (str "cx")); [contradiction|]. reflexivity.
  - assert (IH' := IH Hg (fun g' H => Hq g' (or_intror H))). clear IH.
    destruct (parse_step g2 s a) as [s'|e] eqn:Es; cbn [bind]; [apply IH'|]. f_equal.
    destruct a as [ga|qs|q c]; cbn [parse_step] in Es; try discriminate. pose proof (Hq ga (or_introl eq_refl)) as Ha.
    destruct (eqb (gname ga) (str "u1") || eqb (gname ga) (str "u2") || eqb (gname ga) (str "u3")).
    + destruct (gqubits ga) as [|q0 qs]; [cbn in Ha; lia|]. discriminate Es.
    + destruct (eqb_spec (gname ga) (str "cx")) as [Ec|_]; [|congruence].
      destruct (gqubits ga) as [|q0 [|q1 qs]]; [cbn in Ha; lia| |].
      * destruct Ha as [Ha|[_ Ha]]; [cbn in Ha; lia|contradiction].
      * cbn [index_e nth_error bind] in Es. destruct (eqb g2 (str "cx")); [discriminate|]. destruct (eqb g2 (str "cz")); [discriminate|]. cbn in Es. congruence.
Qed.
End Lay.
