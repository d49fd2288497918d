(** Proofs about the accreditation fitter (C38, C39). *)
From Coq Require Import QArith Lqa Qreals Reals.
From Verif Require Import Base LinAlg ResultFacts QSem CountsModel AccModel AccSpec AccFitSpec AccQotpProofs AccProbProofs.
Open Scope nat_scope.

Lemma xors_self_zero a p : length a = length p -> (key_of (xors a p) = repeat ch0 (length (key_of (xors a p))) <-> a = p).
Proof.
  intros H. assert (Hz : forall l : bits, key_of l = repeat ch0 (length (key_of l)) <-> l = repeat false (length l)).
  { intros l. rewrite length_key. split.
    - intros E. apply key_inj. rewrite E at 1. clear. unfold key_of. induction (length l) as [|m IH]; [reflexivity|]. cbn [repeat rev]. rewrite map_app, <- IH. cbn. apply repeat_cons.
    - intros E. rewrite E at 1. clear. unfold key_of. induction (length l) as [|m IH]; [reflexivity|]. cbn [repeat rev]. rewrite map_app, IH. cbn. symmetry. apply repeat_cons. }
  rewrite Hz. split.
  - intros E. apply bits_ext; [exact H|]. intros j _. pose proof (f_equal (fun l => nth j l false) E) as Ej. cbn beta in Ej. rewrite nth_repeat, nth_xors in Ej by exact H.
    destruct (nth j a false), (nth j p false); try reflexivity; discriminate.
  - intros ->. apply bits_ext; [rewrite repeat_length; reflexivity|]. intros j _. rewrite nth_repeat, nth_xors by reflexivity. apply xorb_nilpotent.
Qed.

Definition corrected (key : bits) (p : list bool) : option pystr := Some (key_of (xors key (pad p))).
Lemma single_corrected key p : length key = length p -> last_key (qotp_correct_counts [(key_of key, 1%Z)] p) = corrected key p.
Proof.
  intros H. rewrite <- (rev_involutive p) at 1. rewrite (correct_counts_map (length p)).
  - cbn. unfold corrected, pad. f_equal. apply shift_key_of. rewrite rev_length. exact H.
  - apply rev_length.
  - repeat constructor. intros [].
  - repeat constructor. exists key. auto.
Qed.

(** [allcounts] for single-shot data. *)
Lemma all_counts c keys : single_shot c keys ->
  mapM (fun ip => do d <- c_counts c (fst ip); Ok (last_key (qotp_correct_counts d (snd ip)))) (combine (seq 0 (length (c_postp c))) (c_postp c)) =
  Ok (map (fun kp => corrected (fst kp) (snd kp)) (combine keys (c_postp c))).
Proof.
  intros [Hl _ Hc Hb].
  assert (G : forall keys ps k0, length keys = length ps ->
    (forall k key, nth_error keys k = Some key -> c_counts c (k0 + k) = Ok [(key_of key, 1%Z)]) ->
    (forall k key p, nth_error keys k = Some key -> nth_error ps k = Some p -> length key = length p) ->
    mapM (fun ip => do d <- c_counts c (fst ip); Ok (last_key (qotp_correct_counts d (snd ip)))) (combine (seq k0 (length ps)) ps) =
    Ok (map (fun kp => corrected (fst kp) (snd kp)) (combine keys ps))).
  { clear. induction keys as [|key keys IH]; intros [|p ps] k0 Hl Hc Hb; try discriminate; [reflexivity|].
    cbn [length seq combine mapM map fst snd]. pose proof (Hc 0 key eq_refl) as E0. rewrite Nat.add_0_r in E0. rewrite E0. cbn [bind].
    rewrite (IH ps (S k0)).
    - cbn [bind]. rewrite single_corrected by (apply (Hb 0); reflexivity). reflexivity.
    - cbn in Hl. lia.
    - intros k key' Hk. rewrite <- (Hc (S k) key' Hk). f_equal. lia.
    - intros k key' p' Hk Hp. apply (Hb (S k)); assumption. }
  apply G; auto.
Qed.

Lemma check_traps_spec v all : forall k flag target, Forall (fun s => s <> None) all ->
  exists b t, check_traps k v all flag target = (b, t, None) /\
    (b = true <-> flag = true /\ forall j s, nth_error all j = Some (Some s) -> k + j <> v -> s = repeat ch0 (length s)) /\
    t = (if (k <=? v) && (v <? k + length all) then nth_error all (v - k) else target).
Proof.
  induction all as [|s all IH]; intros k flag target Hn; cbn [check_traps].
  - exists flag, target. split; [reflexivity|]. split.
    + split; [intros ->; split; [reflexivity|intros [|j] s H; discriminate] | tauto].
    + destruct (Nat.leb_spec k v), (Nat.ltb_spec v (k + length (@nil (option pystr)))); cbn in *; try reflexivity; lia.
  - apply Forall_cons_iff in Hn. destruct Hn as [Hs Hn]. destruct s as [s|]; [|congruence]. destruct (Nat.eqb_spec k v) as [->|Hk].
    + destruct (IH (S v) flag (Some (Some s)) Hn) as (b & t & E & Hb & Ht). exists b, t. split; [exact E|]. split.
      * rewrite Hb. split; intros [H1 H2]; (split; [exact H1|]).
        -- intros [|j] s' Hj Hv; [lia|]. apply (H2 j s' Hj). lia.
        -- intros j s' Hj Hv. apply (H2 (S j) s' Hj). lia.
      * rewrite Ht. destruct (Nat.leb_spec (S v) v); [lia|]. cbn [andb]. destruct (Nat.leb_spec v v); [|lia]. destruct (Nat.ltb_spec v (v + length (Some s :: all))); [|cbn in *; lia].
        cbn [andb]. rewrite Nat.sub_diag. reflexivity.
    + destruct (IH (S k) (flag && eqb s (repeat ch0 (length s))) target Hn) as (b & t & E & Hb & Ht). exists b, t. split; [exact E|]. split.
      * rewrite Hb, andb_true_iff. split.
        -- intros [[H1 H1'] H2]. split; [exact H1|]. intros [|j] s' Hj Hv.
           ++ injection Hj as <-. destruct (eqb_spec s (repeat ch0 (length s))); [assumption|discriminate].
           ++ apply (H2 j s' Hj). lia.
        -- intros [H1 H2]. split; [split; [exact H1|]|].
           ++ destruct (eqb_spec s (repeat ch0 (length s))) as [|Hne]; [reflexivity|]. exfalso. apply Hne. apply (H2 0 s eq_refl). lia.
           ++ intros j s' Hj Hv. apply (H2 (S j) s' Hj). lia.
      * rewrite Ht. cbn [length]. destruct (Nat.leb_spec (S k) v), (Nat.leb_spec k v); try lia; cbn [andb]; [|reflexivity].
        replace (S k + length all) with (k + S (length all)) by lia. destruct (v <? k + S (length all)); [|reflexivity].
        replace (v - k) with (S (v - S k)) by lia. reflexivity.
Qed.

Lemma nth_error_combine {A B} (a : list A) (b : list B) k x y : nth_error (combine a b) k = Some (x, y) <-> nth_error a k = Some x /\ nth_error b k = Some y.
Proof.
  revert b k; induction a as [|u a IH]; intros [|v b] [|k]; cbn; split; intros H; try discriminate; try (destruct H; discriminate); auto.
  - injection H as -> ->. auto.
  - destruct H as [H1 H2]. injection H1 as ->. injection H2 as ->. reflexivity.
  - apply IH, H.
  - apply IH, H.
Qed.

Theorem single_run_ok c keys w f : single_shot c keys ->
  exists w' f', single_protocol_run (c_counts c) (c_postp c) (c_vzero c) w f = (w', f', None) /\
    f_runs f' = S (f_runs f) /\
    (traps_zero c keys -> f_flag f' = true /\ f_acc f' = S (f_acc f) /\ w' = w ++ [Some (target_outcome c keys)]) /\
    (~ traps_zero c keys -> f_flag f' = false /\ f_acc f' = f_acc f /\ w' = w) /\
    (f_runs f = 0 -> f_traps f' = Z.of_nat (length (c_postp c) - 1)) /\ (f_runs f <> 0 -> f_traps f' = f_traps f) /\ f_bound f' = f_bound f /\ f_conf f' = f_conf f.
Proof.
  intros S. pose proof (all_counts c keys S) as Ea. destruct S as [Hl Hv Hc Hb]. unfold single_protocol_run. rewrite Ea.
  set (all := map (fun kp => corrected (fst kp) (snd kp)) (combine keys (c_postp c))) in *.
  destruct (check_traps_spec (c_vzero c) all 0 true None) as (b & t & E & Hbt & Ht).
  { unfold all. apply Forall_map, Forall_forall. intros; discriminate. }
  rewrite E.
  assert (La : length all = length (c_postp c)) by (unfold all; rewrite map_length, combine_length; lia).
  assert (Tz : b = true <-> traps_zero c keys).
  { rewrite Hbt. split.
    - intros [_ H] k key p Hk Ek Ep. assert (Lp : length key = length p) by (apply (Hb k); assumption).
      assert (Hn : nth_error all k = Some (corrected key p)) by (unfold all; rewrite (map_nth_error _ k (combine keys (c_postp c)) (d := (key, p))); [reflexivity|apply nth_error_combine; auto]).
      pose proof (H k _ Hn Hk) as Hz. unfold pad in *. apply xors_self_zero in Hz; [exact Hz|rewrite rev_length; exact Lp].
    - intros H. split; [reflexivity|]. intros j s Hj Hk. unfold all in Hj. rewrite nth_error_map in Hj. destruct (nth_error (combine keys (c_postp c)) j) as [[key p]|] eqn:Ej; [|discriminate].
      apply nth_error_combine in Ej. destruct Ej as [Ek Ep]. cbn in Hj. injection Hj as <-. rewrite (H j key p Hk Ek Ep).
      apply xors_self_zero; reflexivity. }
  assert (Et : t = Some (corrected (nth (c_vzero c) keys []) (nth (c_vzero c) (c_postp c) []))).
  { rewrite Ht. cbn [Nat.leb andb Nat.add]. rewrite La. destruct (Nat.ltb_spec (c_vzero c) (length (c_postp c))); [|lia]. rewrite Nat.sub_0_r. unfold all.
    rewrite (map_nth_error _ (c_vzero c) (combine keys (c_postp c)) (d := (nth (c_vzero c) keys [], nth (c_vzero c) (c_postp c) []))); [reflexivity|].
    apply nth_error_combine. split; apply nth_error_nth'; lia. }
  assert (Etr : (if f_runs f + 1 =? 1 then (Z.of_nat (length (c_postp c)) - 1)%Z else f_traps f) = if f_runs f =? 0 then Z.of_nat (length (c_postp c) - 1) else f_traps f).
  { rewrite Nat.add_1_r. cbn [Nat.eqb]. destruct (f_runs f =? 0); [lia|reflexivity]. }
  rewrite Etr. destruct b.
  - rewrite Et. eexists _, _. split; [reflexivity|]. cbn [f_runs f_flag f_acc f_traps f_bound f_conf]. split; [lia|]. split.
    + intros _. split; [reflexivity|]. split; [lia|reflexivity].
    + split; [intros H; exfalso; apply H, Tz; reflexivity|]. split; [intros ->; reflexivity|]. split; [|auto]. intros H. destruct (Nat.eqb_spec (f_runs f) 0); [contradiction|reflexivity].
  - eexists _, _. split; [reflexivity|]. cbn [f_runs f_flag f_acc f_traps f_bound f_conf]. split; [lia|]. split.
    + intros H. apply Tz in H. discriminate.
    + split; [auto|]. split; [intros ->; reflexivity|]. split; [|auto]. intros H. destruct (Nat.eqb_spec (f_runs f) 0); [contradiction|reflexivity].
Qed.

(** ** Histories *)
Lemma run_counts gc ps v w f w' f' e : single_protocol_run gc ps v w f = (w', f', e) ->
  f_runs f' = S (f_runs f) /\ (f_acc f' = f_acc f \/ f_acc f' = S (f_acc f)) /\ f_bound f' = f_bound f.
Proof.
  unfold single_protocol_run. destruct (mapM _ _) as [all|e0].
  - destruct (check_traps 0 v all true None) as [[b t] [e1|]].
    + intros H. injection H as <- <- <-. cbn. split; [lia|auto].
    + destruct b; [destruct t|]; intros H; injection H as <- <- <-; cbn; (split; [lia|split; [|reflexivity]]); [right; lia|right; lia|left; reflexivity].
  - intros H. injection H as <- <- <-. cbn. split; [lia|auto].
Qed.
Lemma bound_same theta f f' : bound_variation_distance theta f = Ok f' -> f_runs f' = f_runs f /\ f_acc f' = f_acc f /\ f_traps f' = f_traps f.
Proof.
  unfold bound_variation_distance. destruct (f_runs f =? 0); [discriminate|]. destruct (Qle_bool _ _).
  - intros H. injection H as <-. auto.
  - destruct (_ =? _)%Z; [discriminate|]. intros H. injection H as <-. auto.
Qed.

Lemma history_snoc w l a : history w (l ++ [a]) = act (history w l) a.
Proof. unfold history. rewrite fold_left_app. reflexivity. Qed.

(** Accepted at most as often as run. *)
Theorem acc_le_runs w l : f_acc (snd (history w l)) <= f_runs (snd (history w l)) /\ f_runs (snd (history w l)) = length (runs_of l).
Proof.
  induction l as [|a l IH] using rev_ind; [split; reflexivity|]. rewrite history_snoc. destruct (history w l) as [w0 f0]. cbn [snd] in IH.
  unfold runs_of. rewrite flat_map_app, app_length. fold (runs_of l). destruct a as [c|theta]; cbn [act fst snd flat_map length app].
  - destruct (single_protocol_run _ _ _ _ _) as [[w1 f1] e] eqn:E. apply run_counts in E. cbn [snd]. destruct E as (E1 & E2 & _). rewrite E1. lia.
  - destruct (bound_variation_distance theta f0) as [f1|e] eqn:E; cbn [snd]; [apply bound_same in E; destruct E as (E1 & E2 & _); rewrite E1, E2|]; lia.
Qed.

(** The number of traps is never below -1. *)
Lemma traps_ge gc ps v w f w' f' e : single_protocol_run gc ps v w f = (w', f', e) -> (-1 <= f_traps f)%Z -> (-1 <= f_traps f')%Z.
Proof.
  unfold single_protocol_run. intros H Hf. assert (E : f_traps f' = if f_runs f + 1 =? 1 then (Z.of_nat (length ps) - 1)%Z else f_traps f).
  { destruct (mapM _ _) as [all|e0].
    - destruct (check_traps 0 v all true None) as [[b t] [e1|]]; [|destruct b; [destruct t|]]; injection H as <- <- <-; reflexivity.
    - injection H as <- <- <-. reflexivity. }
  rewrite E. destruct (f_runs f + 1 =? 1); lia.
Qed.
Lemma cap_ok b : (0 <= b)%Q -> (0 <= (if Qle_bool b 1 then b else 1) <= 1)%Q.
Proof. intros H. destruct (Qle_bool b 1) eqn:E; [apply Qle_bool_iff in E; split; auto | split; [discriminate|apply Qle_refl]]. Qed.
Lemma bound_step theta f f' : (-1 <= f_traps f)%Z -> (0 <= f_bound f)%Q -> bound_variation_distance theta f = Ok f' -> (0 <= f_bound f' <= 1)%Q.
Proof.
  intros Ht Hb. unfold bound_variation_distance. destruct (f_runs f =? 0) eqn:Er; [discriminate|].
  set (ratio := (inject_Z (Z.of_nat (f_acc f)) / inject_Z (Z.of_nat (f_runs f)))%Q). destruct (Qle_bool ratio theta) eqn:El.
  - intros H. injection H as <-. cbn [f_bound]. apply cap_ok, Hb.
  - destruct (f_traps f + 1 =? 0)%Z eqn:Ez; [discriminate|]. intros H. injection H as <-. cbn [f_bound]. apply cap_ok.
    assert (H1 : (0 < inject_Z (f_traps f + 1))%Q). { apply Z.eqb_neq in Ez. change 0%Q with (inject_Z 0). rewrite <- Zlt_Qlt. lia. }
    assert (H2 : (0 < ratio - theta)%Q). { destruct (Qlt_le_dec theta ratio) as [H|H]; [lra|]. apply Qle_bool_iff in H. congruence. }
    apply Qle_shift_div_l; [exact H2|]. rewrite Qmult_0_l. apply Qle_shift_div_l; [exact H1|]. rewrite Qmult_0_l. discriminate.
Qed.
Theorem bound_range w l : (0 <= f_bound (snd (history w l)) <= 1)%Q.
Proof.
  assert (G : (0 <= f_bound (snd (history w l)) <= 1)%Q /\ (-1 <= f_traps (snd (history w l)))%Z); [|apply G].
  induction l as [|a l IH] using rev_ind; [split; [split; discriminate|discriminate]|]. rewrite history_snoc. destruct (history w l) as [w0 f0]. cbn [snd] in IH.
  destruct IH as [[I1 I2] I3]. destruct a as [c|theta]; cbn [act fst snd].
  - destruct (single_protocol_run _ _ _ _ _) as [[w1 f1] e] eqn:E. cbn [snd]. pose proof (traps_ge _ _ _ _ _ _ _ _ E I3). apply run_counts in E. destruct E as (_ & _ & ->). auto.
  - destruct (bound_variation_distance theta f0) as [f1|e] eqn:E; cbn [snd]; [|auto]. split; [eapply bound_step; eauto|]. apply bound_same in E. destruct E as (_ & _ & ->). exact I3.
Qed.

(** Number accepted, for histories of single-shot runs. *)
Theorem accepted_count w l (ks : list (list bits)) (zero : list bool) : Forall2 single_shot (runs_of l) ks -> length zero = length ks ->
  (forall j c keys b, nth_error (runs_of l) j = Some c -> nth_error ks j = Some keys -> nth_error zero j = Some b -> (b = true <-> traps_zero c keys)) ->
  f_acc (snd (history w l)) = count_occ Bool.bool_dec zero true /\
  fst (history w l) = w ++ flat_map (fun bck => if fst bck : bool then [Some (target_outcome (fst (snd bck)) (snd (snd bck)))] else []) (combine zero (combine (runs_of l) ks)).
Proof.
  revert ks zero. induction l as [|a l IH] using rev_ind; intros ks zero HF Hl Hz.
  - inversion HF. subst ks. destruct zero; [|discriminate]. cbn. rewrite app_nil_r. auto.
  - rewrite history_snoc. assert (Er : runs_of (l ++ [a]) = runs_of l ++ match a with ARun c => [c] | _ => [] end).
    { unfold runs_of. rewrite flat_map_app. f_equal. cbn. apply app_nil_r. } rewrite Er in *. destruct a as [c|theta].
    + apply Forall2_app_inv_l in HF. destruct HF as (k1 & k2 & HF1 & HF2 & ->). inversion HF2 as [|c0 keys l1 l2 Hs Hn]; subst. inversion Hn; subst l2. clear HF2 Hn.
      destruct (exists_last (l := zero)) as [z0 [b ->]]. { intros ->. rewrite app_length in Hl. cbn in Hl. lia. }
      rewrite !app_length in Hl. cbn in Hl. pose proof (Forall2_length' _ _ _ HF1) as L1.
      destruct (IH k1 z0 HF1 ltac:(lia)) as [I1 I2].
      { intros j c1 keys1 b1 H1 H2 H3. apply (Hz j c1 keys1 b1); rewrite nth_error_app1; auto; apply nth_error_Some; congruence. }
      assert (Hb : b = true <-> traps_zero c keys).
      { apply (Hz (length (runs_of l)) c keys b); rewrite nth_error_app2; try lia; [rewrite Nat.sub_diag; reflexivity| |].
        - replace (length (runs_of l) - length k1) with 0 by lia. reflexivity.
        - replace (length (runs_of l) - length z0) with 0 by lia. reflexivity. }
      destruct (history w l) as [w0 f0]. cbn [fst snd] in I1, I2. cbn [act fst snd].
      destruct (single_run_ok c keys w0 f0 Hs) as (w1 & f1 & E & _ & Ht & Hf & _). rewrite E. cbn [fst snd].
      rewrite count_occ_app, combine_app, combine_app, flat_map_app by (rewrite ?combine_length; lia).
      cbn [combine flat_map fst snd app]. rewrite app_nil_r. destruct b.
      * destruct (Ht (proj1 Hb eq_refl)) as (_ & -> & ->). rewrite I1, I2. cbn [count_occ]. destruct (Bool.bool_dec true true); [|contradiction]. split; [lia|]. rewrite app_assoc. reflexivity.
      * destruct Hf as (_ & -> & ->); [intros H; apply Hb in H; discriminate|]. rewrite I1, I2. cbn [count_occ]. destruct (Bool.bool_dec false true); [discriminate|]. split; [lia|]. rewrite app_nil_r. reflexivity.
    + rewrite app_nil_r in *. destruct (IH ks zero HF Hl Hz) as [I1 I2]. destruct (history w l) as [w0 f0]. cbn [act fst snd] in *.
      destruct (bound_variation_distance theta f0) as [f1|e] eqn:E; cbn [fst snd]; [apply bound_same in E; destruct E as (_ & -> & _)|]; auto.
Qed.

(** The value of the bound. *)
Theorem bound_value theta f : f_runs f <> 0 -> (0 <= f_traps f)%Z ->
  (theta < inject_Z (Z.of_nat (f_acc f)) / inject_Z (Z.of_nat (f_runs f)))%Q ->
  exists f', bound_variation_distance theta f = Ok f' /\
    (f_bound f' == at_most_one ((17 # 10) / (inject_Z (f_traps f + 1) * (inject_Z (Z.of_nat (f_acc f)) / inject_Z (Z.of_nat (f_runs f)) - theta))))%Q /\
    f_conf f' = (1 - 2 * exp (- (2 * Q2R theta * INR (f_runs f) * INR (f_runs f))))%R.
Proof.
  intros Hr Ht Hth. unfold bound_variation_distance. destruct (Nat.eqb_spec (f_runs f) 0); [contradiction|].
  set (ratio := (inject_Z (Z.of_nat (f_acc f)) / inject_Z (Z.of_nat (f_runs f)))%Q) in *.
  destruct (Qle_bool ratio theta) eqn:El; [apply Qle_bool_iff in El; lra|]. destruct (Z.eqb_spec (f_traps f + 1) 0); [lia|].
  eexists. split; [reflexivity|]. cbn [f_bound f_conf]. split.
  - assert (H1 : (0 < inject_Z (f_traps f + 1))%Q) by (change 0%Q with (inject_Z 0); rewrite <- Zlt_Qlt; lia).
    assert (E : ((17 # 10) / inject_Z (f_traps f + 1) / (ratio - theta) == (17 # 10) / (inject_Z (f_traps f + 1) * (ratio - theta)))%Q) by (field; split; lra).
    unfold at_most_one. rewrite <- E. destruct (Qle_bool ((17 # 10) / inject_Z (f_traps f + 1) / (ratio - theta)) 1) eqn:E1.
    + apply Qle_bool_iff in E1. destruct (Qle_bool ((17 # 10) / (inject_Z (f_traps f + 1) * (ratio - theta))) 1) eqn:E2; [symmetry; apply Qeq_sym, E|].
      rewrite E in E1. apply Qle_bool_iff in E1. congruence.
    + destruct (Qle_bool ((17 # 10) / (inject_Z (f_traps f + 1) * (ratio - theta))) 1) eqn:E2; [|reflexivity].
      apply Qle_bool_iff in E2. rewrite <- E in E2. apply Qle_bool_iff in E2. congruence.
  - do 3 f_equal. ring.
Qed.

(** ** A run without noise is accepted *)
From Verif Require Import StdGates RBSeqModel RBSeqSpec AccLayerProofs AccTrapProofs.

Section Noiseless.
Context {F : Type} {HF : Fld F}.
Variable gmat : pystr -> list Q -> bits -> bits -> F.
Variables r i : F.
Hypothesis Hstd : std_gates gmat r i.
Variable n : nat.
Variable tp : list cinstr -> list cinstr.
Hypothesis Htp : transpiles gmat n tp.

Theorem noiseless_accepted g2 ops L rnd num v out pos c ks w f : Forall (native n) ops -> measures_all n ops ->
  layer_parser tp g2 n ops = Ok L -> generate_circuits tp L rnd num v = Ok (out, pos) -> v <= num ->
  c_postp c = map snd out -> c_vzero c = v -> length ks = length out ->
  (forall k key circ postp, nth_error ks k = Some key -> nth_error out k = Some (circ, postp) ->
     c_counts c k = Ok [(key, 1%Z)] /\ possible gmat n n circ key) ->
  exists w' f' target, single_protocol_run (c_counts c) (c_postp c) (c_vzero c) w f = (w', f', None) /\
    f_flag f' = true /\ f_acc f' = S (f_acc f) /\ f_runs f' = S (f_runs f) /\ w' = w ++ [Some target] /\ possible gmat n n ops target.
Proof.
  intros Hn Hm El Eg Hv Hp Hz Hk Hc. destruct (traps_return_zeros gmat r i Hstd n tp Htp g2 ops L rnd num v out pos Hn Hm El Eg) as [Lo Ho].
  assert (Hks : exists keys, ks = map key_of keys /\ Forall (fun b => length b = n) keys).
  { assert (A : Forall (fun k => exists b, length b = n /\ k = key_of b) ks).
    { apply Forall_forall. intros key Hin. apply In_nth_error in Hin. destruct Hin as [k Ek]. destruct (nth_error out k) as [[circ postp]|] eqn:Eo.
      - destruct (Hc k key circ postp Ek Eo) as [_ Hpos]. destruct (Ho k circ postp Eo) as (_ & H1 & H2).
        destruct (Nat.eq_dec k v) as [E|E]; [apply (H2 E key Hpos) | apply (proj2 (H1 E) key Hpos)].
      - apply nth_error_None in Eo. assert (k < length ks) by (apply nth_error_Some; congruence). lia. }
    clear -A. induction A as [|k ks (b & Hb & ->) A (keys & -> & HF')]; [exists []; auto|]. exists (b :: keys). split; [reflexivity|constructor; auto]. }
  destruct Hks as (keys & -> & Hlen). rewrite map_length in Hk.
  assert (SS : single_shot c keys).
  { constructor.
    - rewrite Hp, map_length. exact Hk.
    - rewrite Hz, Hp, map_length. lia.
    - intros k key Ek. destruct (nth_error out k) as [[circ postp]|] eqn:Eo.
      + apply (Hc k (key_of key) circ postp); [rewrite nth_error_map, Ek; reflexivity|exact Eo].
      + apply nth_error_None in Eo. assert (k < length keys) by (apply nth_error_Some; congruence). lia.
    - intros k key p Ek Ep. rewrite Hp, nth_error_map in Ep. destruct (nth_error out k) as [[circ postp]|] eqn:Eo; [|discriminate]. injection Ep as <-. cbn [snd].
      destruct (Ho k circ postp Eo) as (-> & _). rewrite Forall_forall in Hlen. apply Hlen. eapply nth_error_In, Ek. }
  destruct (single_run_ok c keys w f SS) as (w' & f' & E & R & T & _).
  assert (TZ : traps_zero c keys).
  { intros k key p Hkv Ek Ep. rewrite Hp, nth_error_map in Ep. destruct (nth_error out k) as [[circ postp]|] eqn:Eo; [|discriminate]. injection Ep as <-. cbn [snd].
    destruct (Ho k circ postp Eo) as (Lp & H1 & _). rewrite Hz in Hkv. destruct (Hc k (key_of key) circ postp) as [_ Hpos]; [rewrite nth_error_map, Ek; reflexivity|exact Eo|].
    destruct (proj2 (H1 Hkv) _ Hpos) as [_ Z]. assert (Lk : length key = n) by (rewrite Forall_forall in Hlen; apply Hlen; eapply nth_error_In, Ek).
    unfold pad. rewrite <- (rev_involutive postp) in Z. rewrite shift_key_of in Z by (rewrite rev_length; lia).
    apply xors_self_zero; [rewrite rev_length; lia|]. rewrite Z, repeat_length. reflexivity. }
  destruct (T TZ) as (T1 & T2 & T3). exists w', f', (target_outcome c keys). split; [exact E|]. repeat (split; [assumption|]).
  assert (Hvo : v < length out) by lia. destruct (nth_error out v) as [[circ postp]|] eqn:Eo; [|apply nth_error_None in Eo; lia].
  destruct (nth_error keys v) as [key|] eqn:Ek; [|apply nth_error_None in Ek; lia].
  destruct (Hc v (key_of key) circ postp) as [_ Hpos]; [rewrite nth_error_map, Ek; reflexivity|exact Eo|].
  destruct (Ho v circ postp Eo) as (Lp & _ & H2). destruct (H2 eq_refl _ Hpos) as [_ P].
  assert (Lk : length key = n) by (rewrite Forall_forall in Hlen; apply Hlen; eapply nth_error_In, Ek).
  unfold target_outcome, pad. rewrite Hz, Hp. rewrite (nth_error_nth _ _ _ Ek). rewrite (nth_error_nth (map snd out) v [] (x := postp)) by (rewrite nth_error_map, Eo; reflexivity).
  rewrite <- shift_key_of by (rewrite rev_length; lia). rewrite rev_involutive. exact P.
Qed.
End Noiseless.
