(** Pooling over calls of [add_data] (C50). *)
From Coq Require Import QArith Reals Lra.
From Coquelicot Require Import Coquelicot.
From Verif Require Import LinAlg Base ResultFacts PyStr CountsModel CountsSpec CountsProofs MeasCalModel QSem DihedralModel RBSeqModel TomoModel TomoFitModel TomoFitSpec TomoPoolSpec TomoPoolProofs.
Local Open Scope list_scope.
Local Open Scope nat_scope.

Lemma dset_keys_nodup (c : counts) (g : pystr -> pystr) : forall r : counts, NoDup (dkeys r) -> NoDup (dkeys (fold_left (fun r kv => dset r (g (fst kv)) (snd kv)) c r)).
Proof. induction c as [|kv c IH]; intros r H; [exact H|]. cbn [fold_left]. apply IH, NoDup_dset, H. Qed.
Lemma seq_increasing n : forall s, StronglySorted lt (seq s n).
Proof. induction n as [|n IH]; intros s; cbn; constructor; [apply IH|]. apply Forall_forall. intros x Hx. apply in_seq in Hx. lia. Qed.

Definition marg_of (cs : list circ_arg) : bool := match cs with CName _ :: _ => false | CCirc c :: _ => negb (length (t_cregs c) =? 1) | [] => false end.
Lemma used_step cs t c u : NoDup (dkeys c) -> used cs t c u ->
  exists c', (if other_registers cs then do l <- elements t; do f <- index_e l 0; do fl <- elements f; marginal_counts c (Some (seq 0 (length fl))) false else Ok c) = Ok c' /\
    NoDup (dkeys c') /\ forall k, count_of c' k = u k.
Proof.
  intros Hn. unfold used. destruct (other_registers cs).
  - intros (ps & ms & m & -> & Hne & Hv & Hle & Hu). cbn [elements bind index_e nth_error].
    destruct (marginal_counts_exact_lemma m c (seq 0 (length ps)) (seq 0 (length ps)) false) as (r & E & Hr & _ & Hnd & _); auto.
    + split; [apply seq_increasing|apply Permutation_refl].
    + intros q Hq. apply in_seq in Hq. lia.
    + destruct ps; [congruence|discriminate].
    + exists r. split; [exact E|]. split; [exact Hnd|]. intros k. rewrite Hu. apply Hr.
  - intros Hu. exists c. split; [reflexivity|]. split; [assumption|]. intros k. now rewrite Hu.
Qed.
Lemma add_used rs cs0 cs us : wf_results rs ->
  Forall2 (fun a tu => literal_eval (arg_name a) = Ok (fst tu) /\ exists c, last_counts rs (arg_name a) c /\ used cs0 (fst tu) c (snd tu)) cs us ->
  forall d, exists d', foldM (add_circuit rs (other_registers cs0)) cs d = Ok d' /\
  (forall t k, shots_at d' t k = (shots_at d t k + shots_used us t k)%Z) /\
  (forall t, In t (dkeys d') <-> In t (dkeys d) \/ In t (map fst us)) /\ (NoDup (dkeys d) -> NoDup (dkeys d')).
Proof.
  intros Hwf H. induction H as [|a [t0 u0] cs us (Ht & c0 & Hc & Hu) _ IH]; intros d.
  - exists d. split; [reflexivity|]. split; [intros; unfold shots_used; cbn; lia|]. split; [intros; cbn; tauto|auto].
  - cbn [fst snd] in *. rewrite foldM_cons'. unfold add_circuit at 1. rewrite (find_counts_last _ _ _ Hc). cbn [bind]. rewrite Ht. cbn [bind].
    destruct (used_step cs0 t0 c0 u0 (last_wf _ _ _ Hwf Hc) Hu) as (c1 & E1 & Hnd & Hcu).
    match goal with |- context[bind (bind ?x _) _] => replace x with (Ok c1 : result counts) by (symmetry; exact E1) end. cbn [bind].
    set (d1 := match dget d t0 with Some old => dset d t0 (combine_counts old c1) | None => dset d t0 c1 end).
    destruct (IH d1) as (d' & E & Hs & Hk & Hn). exists d'. split; [exact E|].
    assert (H1 : forall t k, shots_at d1 t k = (shots_at d t k + (if eqb t0 t then u0 k else 0))%Z).
    { intros t k. unfold shots_at, d1. destruct (dget d t0) as [old|] eqn:Eo; rewrite dget_dset.
      - destruct (eqb_spec t t0) as [->|N]; [rewrite eqb_refl, Eo, <- Hcu; now apply count_combine|]. destruct (eqb_spec t0 t) as [E'|]; [congruence|]. destruct (dget d t); lia.
      - destruct (eqb_spec t t0) as [->|N]; [rewrite eqb_refl, Eo, <- Hcu; lia|]. destruct (eqb_spec t0 t) as [E'|]; [congruence|]. destruct (dget d t); lia. }
    split; [intros t k; rewrite Hs, H1; unfold shots_used; cbn [map fold_right fst snd]; lia|].
    split.
    + intros t. rewrite Hk. cbn [map fst In]. unfold d1. destruct (dget d t0) as [old|] eqn:Eo; rewrite In_dkeys_dset; intuition.
    + intros Hd. apply Hn. unfold d1. destruct (dget d t0); apply NoDup_dset; assumption.
Qed.
Lemma add_data_used f call us : call_used call us -> exists f', add_data f (fst call) (snd call) = Ok f' /\ ft_meas f' = ft_meas f /\ ft_prep f' = ft_prep f /\
  (forall t k, shots_at (ft_data f') t k = (shots_at (ft_data f) t k + shots_used us t k)%Z) /\
  (forall t, In t (dkeys (ft_data f')) <-> In t (dkeys (ft_data f)) \/ In t (map fst us)) /\ (NoDup (dkeys (ft_data f)) -> NoDup (dkeys (ft_data f'))).
Proof.
  intros (Hwf & Hne & H). destruct call as [rs cs]. cbn [fst snd] in *. destruct (add_used rs cs cs us Hwf H (ft_data f)) as (d' & E & Hs & Hk & Hn).
  unfold add_data. destruct cs as [|c0 cs]; [congruence|]. 
  assert (Em : match c0 with CName _ => false | CCirc c => negb (length (t_cregs c) =? 1) end = other_registers (c0 :: cs)) by (destruct c0; reflexivity). rewrite Em, E. cbn [bind].
  eexists. split; [reflexivity|]. cbn [ft_meas ft_prep ft_data]. auto.
Qed.
Lemma history_pools calls uss : Forall2 call_used calls uss -> forall f, exists f',
  foldM (fun f call => add_data f (fst call) (snd call)) calls f = Ok f' /\ ft_meas f' = ft_meas f /\ ft_prep f' = ft_prep f /\
  (forall t k, shots_at (ft_data f') t k = (shots_at (ft_data f) t k + shots_used (concat uss) t k)%Z) /\
  (forall t, In t (dkeys (ft_data f')) <-> In t (dkeys (ft_data f)) \/ In t (map fst (concat uss))) /\ (NoDup (dkeys (ft_data f)) -> NoDup (dkeys (ft_data f'))).
Proof.
  induction 1 as [|call us calls uss Hc _ IH]; intros f.
  - exists f. split; [reflexivity|]. split; [reflexivity|]. split; [reflexivity|]. split; [intros; unfold shots_used; cbn; lia|]. split; [intros; cbn; tauto|auto].
  - destruct (add_data_used f call us Hc) as (f1 & E1 & M1 & P1 & S1 & K1 & N1). destruct (IH f1) as (f' & E & M & P & S & K & N). exists f'.
    split; [rewrite foldM_cons', E1; exact E|]. split; [congruence|]. split; [congruence|]. cbn [concat].
    split; [intros t k; rewrite S, S1; unfold shots_used; rewrite map_app, fold_right_app; generalize (map (fun tu => if eqb (fst tu) t then snd tu k else 0%Z) us) as l; intros l; generalize (fold_right Z.add 0%Z (map (fun tu => if eqb (fst tu) t then snd tu k else 0%Z) (concat uss))) as z; intros z; induction l as [|a l IHl]; cbn [fold_right]; lia|].
    split; [intros t; rewrite K, K1, map_app, in_app_iff; tauto|auto].
Qed.
