(** Fits of exact data (C68). *)
From Coq Require Import QArith Qreals Reals Lra.
From Coquelicot Require Import Coquelicot.
From Verif Require Import Base LinAlg PyStr ResultFacts CountsModel MeasCalModel CharModel CharSpec CharEstModel CharNoiseSpec.
Local Open Scope string_scope.
Local Open Scope list_scope.
Local Open Scope nat_scope.

(** ** The bookkeeping of [fit_data] *)
Lemma length_list_set {A} (l : list A) i v : length (list_set l i v) = length l.
Proof. revert i. induction l as [|a l IH]; intros [|i]; cbn; auto. Qed.
Lemma nth_list_set {A} (l : list A) i v k : nth_error (list_set l i v) k = if (k =? i) && (i <? length l) then Some v else nth_error l k.
Proof.
  revert i k. induction l as [|a l IH]; intros i k.
  - cbn [list_set length]. rewrite andb_comm. cbn. reflexivity.
  - destruct i as [|i], k as [|k]; cbn [list_set nth_error length]; try reflexivity. rewrite IH. reflexivity.
Qed.
Definition has {A} (series : list pystr) (nq : nat) (d : dict pystr (list A)) : Prop := forall s, In s series -> exists l, dget d s = Some l /\ length l = nq.
Lemma set_at_ok {A} series nq (d : dict pystr (list A)) s q v : has series nq d -> In s series -> q < nq ->
  exists d', set_at d s q v = Ok d' /\ has series nq d' /\ forall s' q', get_at d' s' q' = if eqb (s', q') (s, q) then Ok v else get_at d s' q'.
Proof.
  intros H Hs Hq. destruct (H s Hs) as (l & E & L). unfold set_at. rewrite E. destruct (Nat.ltb_spec q (length l)); [|lia]. eexists. split; [reflexivity|]. split.
  - intros s' Hs'. rewrite dget_dset. destruct (eqb_spec s' s) as [->|].
    + exists (list_set l q v). split; [reflexivity|]. rewrite length_list_set. exact L.
    + apply H. exact Hs'.
  - intros s' q'. unfold get_at. rewrite dget_dset. destruct (eqb_spec s' s) as [->|Hne].
    + unfold index_e. rewrite nth_list_set, E. destruct (Nat.ltb_spec q (length l)); [|lia]. rewrite andb_true_r.
      destruct (Nat.eqb_spec q' q) as [->|Hn]; [rewrite eqb_refl; reflexivity|]. destruct (eqb_spec (s, q') (s, q)) as [E'|_]; [injection E' as ->; congruence|reflexivity].
    + destruct (eqb_spec (s', q') (s, q)) as [E'|_]; [injection E' as -> _; congruence|reflexivity].
Qed.
Lemma no_fit_has {A} series nq : has series nq (map (fun s => (s, repeat (@nil A) nq)) series).
Proof.
  intros s. induction series as [|s0 series IH]; intros Hs; [destruct Hs|]. cbn [map dget]. destruct (eqb_spec s s0) as [->|Hn].
  - exists (repeat [] nq). split; [reflexivity|apply repeat_length].
  - apply IH. destruct Hs as [->|Hs]; [congruence|exact Hs].
Qed.

Section Fit.
Context {X Y : Type} (cf : (R -> list R -> R) -> list X -> list Y -> list R -> list R -> list R * list R -> result (list R * list R)).
Context (f : R -> list R -> R) (xs : list X).
(** What curve_fit gives for one series and qubit. *)
Definition fit_is (ydata : dict pystr (list (list (Y * R)))) (p : list R) (b : list R * list R) (s : pystr) (q : nat) (ps var : list R) : Prop :=
  exists pts, get_at ydata s q = Ok pts /\ cf f xs (map fst pts) (map snd pts) p b = Ok (ps, var).
Lemma fit_is_unique ydata p b s q ps var ps' var' : fit_is ydata p b s q ps var -> fit_is ydata p b s q ps' var' -> ps = ps' /\ var = var'.
Proof. intros (pts & E & F) (pts' & E' & F'). rewrite E in E'. injection E' as <-. rewrite F in F'. injection F' as <- <-. auto. Qed.

Lemma fold_fit series nq ydata p b L : (forall s q, In (s, q) L -> In s series /\ q < nq /\ exists ps var, fit_is ydata p b s q ps var) ->
  forall st, has series nq (g_params st) -> has series nq (g_errs st) ->
  exists st', foldM (fit_one cf f xs ydata p b) L st = Ok st' /\ has series nq (g_params st') /\ has series nq (g_errs st') /\
  (forall s q ps var, In (s, q) L -> fit_is ydata p b s q ps var -> get_at (g_params st') s q = Ok ps /\ get_at (g_errs st') s q = Ok (map sqrt var)) /\
  (forall s q, ~ In (s, q) L -> get_at (g_params st') s q = get_at (g_params st) s q /\ get_at (g_errs st') s q = get_at (g_errs st) s q).
Proof.
  induction L as [|[s q] L IH]; intros HL st Hp He; cbn [foldM].
  - exists st. split; [reflexivity|]. split; [exact Hp|]. split; [exact He|]. split; [intros ? ? ? ? []|auto].
  - destruct (HL s q (or_introl eq_refl)) as (Hs & Hq & ps & var & (pts & Ey & Ec)). cbn [fit_one]. rewrite Ey. cbn [bind]. rewrite Ec. cbn [bind fst snd].
    destruct (set_at_ok series nq (g_params st) s q ps Hp Hs Hq) as (d1 & E1 & H1 & G1). destruct (set_at_ok series nq (g_errs st) s q (map sqrt var) He Hs Hq) as (d2 & E2 & H2 & G2).
    rewrite E1. cbn [bind]. rewrite E2. cbn [bind].
    destruct (IH (fun s' q' H => HL s' q' (or_intror H)) {| g_params := d1; g_errs := d2 |} H1 H2) as (st' & E & A & B & D & K). cbn [g_params g_errs] in K. exists st'. split; [exact E|]. split; [exact A|]. split; [exact B|]. split.
    + intros s' q' ps' var' Hi Hf. destruct (mem (s', q') L) eqn:Hl; [apply mem_In in Hl; exact (D s' q' ps' var' Hl Hf)|apply mem_not_In in Hl].
      destruct Hi as [Ei|Hi]; [|contradiction]. injection Ei as <- <-. destruct (K s q Hl) as [K1 K2]. rewrite K1, K2, G1, G2, eqb_refl.
      destruct (fit_is_unique _ _ _ _ _ _ _ _ _ Hf (ex_intro _ pts (conj Ey Ec))) as [-> ->]. auto.
    + intros s' q' Hn. destruct (K s' q') as [K1 K2]; [intros H; apply Hn; right; exact H|]. rewrite K1, K2, G1, G2.
      destruct (eqb_spec (s', q') (s, q)) as [E'|_]; [|auto]. exfalso. apply Hn. left. symmetry. exact E'.
Qed.
Lemma fit_data_ok p0 b0 series nq ydata st qid p b which : has series nq (g_params st) -> has series nq (g_errs st) ->
  let ss := match which with None => series | Some l => l end in
  let qs := match qid with None => seq 0 nq | Some q => [q] end in
  let b' := match b with None => b0 | Some b => b end in let p' := match p with None => p0 | Some p => p end in
  (forall s, In s ss -> In s series) -> (forall q, In q qs -> q < nq) -> (forall s q, In s ss -> In q qs -> exists ps var, fit_is ydata p' b' s q ps var) ->
  exists st', fit_data cf f xs p0 b0 series nq ydata st qid p b which = Ok st' /\ has series nq (g_params st') /\ has series nq (g_errs st') /\
  (forall s q ps var, In s ss -> In q qs -> fit_is ydata p' b' s q ps var -> get_at (g_params st') s q = Ok ps /\ get_at (g_errs st') s q = Ok (map sqrt var)) /\
  (forall s q, ~ (In s ss /\ In q qs) -> get_at (g_params st') s q = get_at (g_params st) s q /\ get_at (g_errs st') s q = get_at (g_errs st) s q).
Proof.
  intros Hp He ss qs b' p' Hs Hq Hf.
  assert (HI : forall s q, In (s, q) (flat_map (fun s => map (fun q => (s, q)) qs) ss) <-> In s ss /\ In q qs).
  { intros s q. rewrite in_flat_map. split.
    - intros (s0 & H1 & H2). apply in_map_iff in H2. destruct H2 as (q0 & E & H2). injection E as <- <-. auto.
    - intros [H1 H2]. exists s. split; [exact H1|]. apply in_map. exact H2. }
  destruct (fold_fit series nq ydata p' b' (flat_map (fun s => map (fun q => (s, q)) qs) ss)) with (st := st) as (st' & E & A & B & D & K); auto.
  - intros s q H. apply HI in H. destruct H as [H1 H2]. auto.
  - exists st'. split; [exact E|]. split; [exact A|]. split; [exact B|]. split.
    + intros s q ps var H1 H2. apply D. apply HI. auto.
    + intros s q Hn. apply K. intros H. apply Hn, HI, H.
Qed.
End Fit.

(** ** Fits of exact data *)
Lemma residual_nonneg f xs ys es ps : (0 <= residual f xs ys es ps)%R.
Proof.
  unfold residual. induction (combine xs (combine ys es)) as [|[x [y e]] l IH]; cbn [fold_right]; [lra|]. pose proof (pow2_ge_0 ((f (Q2R x) ps - Q2R y) / e)). cbn in H. lra.
Qed.
Lemma residual_zero f xs pts ps v : Forall2 (fun x pe => Q2R (fst pe) = v (Q2R x) /\ (0 < snd pe)%R) xs pts ->
  (residual f xs (map fst pts) (map snd pts) ps <= 0)%R <-> forall x, In x xs -> f (Q2R x) ps = v (Q2R x).
Proof.
  intros H. induction H as [|x [y e] xs pts [Hy He] H IH]; cbn [map fst snd] in *.
  - split; [intros _ x []|intros _; unfold residual; cbn; lra].
  - unfold residual. cbn [combine fold_right]. fold (residual f xs (map fst pts) (map snd pts) ps).
    pose proof (residual_nonneg f xs (map fst pts) (map snd pts) ps) as Hr. pose proof (pow2_ge_0 ((f (Q2R x) ps - Q2R y) / e)) as Hp. split.
    + intros Hle x' [<-|Hx'].
      * assert (E : (((f (Q2R x) ps - Q2R y) / e) ^ 2 = 0)%R) by lra. replace (((f (Q2R x) ps - Q2R y) / e) ^ 2)%R with (Rsqr ((f (Q2R x) ps - Q2R y) / e)) in E by (unfold Rsqr; ring).
        apply Rsqr_0_uniq in E. unfold Rdiv in E. apply Rmult_integral in E. destruct E as [E|E]; [lra|]. exfalso. exact (Rinv_neq_0_compat e ltac:(lra) E).
      * apply IH; [lra|exact Hx'].
    + intros Hx. assert (E : (f (Q2R x) ps - Q2R y = 0)%R) by (rewrite (Hx x (or_introl eq_refl)), Hy; ring). rewrite E. unfold Rdiv. rewrite Rmult_0_l, pow_i by lia.
      assert (residual f xs (map fst pts) (map snd pts) ps <= 0)%R by (apply IH; intros x' Hx'; apply Hx; right; exact Hx'). lra.
Qed.

Section Exact.
Context (cf : (R -> list R -> R) -> list Q -> list Q -> list R -> list R -> list R * list R -> result (list R * list R)).
Context (f : R -> list R -> R) (xs : list Q) (p0 : list R) (bounds : list R * list R).
Lemma exact_fit ys s j ps : data_on ys s j xs (fun x => f x ps) -> within bounds ps -> fits_well cf f xs p0 bounds ys s j ->
  exists ps' var, fit_is cf f xs ys p0 bounds s j ps' var /\ within bounds ps' /\ forall x, In x xs -> f (Q2R x) ps' = f (Q2R x) ps.
Proof.
  intros (qs & pts & E1 & E2 & H) Hw Hf. destruct (Hf qs pts E1 E2) as (ps' & var & E & Hb & Hm). exists ps', var. split.
  - exists pts. split; [|exact E]. unfold get_at. rewrite E1. apply ResultFacts.index_ok. exact E2.
  - split; [exact Hb|]. apply (residual_zero f xs pts ps' (fun x => f x ps) H). apply (Rle_trans _ (residual f xs (map fst pts) (map snd pts) ps)); [apply Hm, Hw|].
    apply (residual_zero f xs pts ps (fun x => f x ps) H). reflexivity.
Qed.
(** All series and qubits. *)
Lemma exact_fits ft ys (par : pystr -> nat -> list R) : calc_data ft = Ok ys ->
  (forall s j, In s (f_series ft) -> j < f_nq ft -> data_on ys s j xs (fun x => f x (par s j)) /\ within bounds (par s j) /\ fits_well cf f xs p0 bounds ys s j) ->
  exists st, new_fit cf f xs p0 bounds ft = Ok (ys, st) /\
  forall s j, In s (f_series ft) -> j < f_nq ft -> exists ps', get_at (g_params st) s j = Ok ps' /\ within bounds ps' /\ forall x, In x xs -> f (Q2R x) ps' = f (Q2R x) (par s j).
Proof.
  intros Ec H. unfold new_fit, data_and_fit. rewrite Ec. cbn [bind].
  destruct (fit_data_ok cf f xs p0 bounds (f_series ft) (f_nq ft) ys (no_fit (f_series ft) (f_nq ft)) None None None None) as (st & E & _ & _ & K & _).
  - apply no_fit_has.
  - apply no_fit_has.
  - auto.
  - intros q Hq. apply in_seq in Hq. lia.
  - intros s q Hs Hq. apply in_seq in Hq. destruct (H s q Hs) as (A & B & D); [lia|]. destruct (exact_fit ys s q (par s q) A B D) as (ps' & var & F & _). eauto.
  - exists st. rewrite E. cbn [bind]. split; [reflexivity|]. intros s j Hs Hj. destruct (H s j Hs Hj) as (A & B & D). destruct (exact_fit ys s j (par s j) A B D) as (ps' & var & F & Hw & Hx).
    exists ps'. split; [|auto]. apply (K s j ps' var); auto. apply in_seq. lia.
Qed.
End Exact.

(** ** Exponential curves are determined by three points *)
Lemma exp_three a k c a' k' c' x1 x2 x3 : (a * k <> 0)%R -> (x1 < x2)%R -> (x2 < x3)%R ->
  (forall x, x = x1 \/ x = x2 \/ x = x3 -> a * exp (- (k * x)) + c = a' * exp (- (k' * x)) + c')%R -> k = k'.
Proof.
  intros Hak H12 H23 H. set (g := fun x => (a * exp (- (k * x)) + c - (a' * exp (- (k' * x)) + c'))%R). set (g' := fun x => (a' * k' * exp (- (k' * x)) - a * k * exp (- (k * x)))%R).
  assert (D : forall x, derivable_pt_lim g x (g' x)).
  { intros x. apply is_derive_Reals. unfold g, g'. auto_derive; [auto|]. ring. }
  assert (Z : forall x, x = x1 \/ x = x2 \/ x = x3 -> g x = 0%R) by (intros x Hx; unfold g; rewrite (H x Hx); ring).
  destruct (MVT_cor2 g g' x1 x2 H12) as (y & Ey & Hy); [intros; apply D|]. destruct (MVT_cor2 g g' x2 x3 H23) as (z & Ez & Hz); [intros; apply D|].
  rewrite !Z in Ey, Ez by auto. assert (Gy : g' y = 0%R). { apply (Rmult_eq_reg_r (x2 - x1)); lra. } assert (Gz : g' z = 0%R). { apply (Rmult_eq_reg_r (x3 - x2)); lra. }
  unfold g' in Gy, Gz.
  assert (E : forall x, (a' * k' * exp (- (k' * x)) - a * k * exp (- (k * x)) = 0)%R -> (a * k * exp ((k' - k) * x) = a' * k')%R).
  { intros x Hx. replace ((k' - k) * x)%R with (k' * x + - (k * x))%R by ring. rewrite exp_plus. transitivity (exp (k' * x) * (a * k * exp (- (k * x))))%R; [ring|].
    replace (a * k * exp (- (k * x)))%R with (a' * k' * exp (- (k' * x)))%R by lra. transitivity (a' * k' * (exp (k' * x) * exp (- (k' * x))))%R; [ring|]. rewrite <- exp_plus, Rplus_opp_r, exp_0. ring. }
  pose proof (E y Gy) as Ey'. pose proof (E z Gz) as Ez'. rewrite <- Ey' in Ez'. apply Rmult_eq_reg_l in Ez'; [|exact Hak]. apply exp_inv in Ez'.
  assert ((k' - k) * (z - y) = 0)%R by lra. apply Rmult_integral in H0. destruct H0; lra.
Qed.
Lemma exp_fit_tau a tau c a' tau' c' x1 x2 x3 : (a <> 0)%R -> (0 < tau)%R -> (0 < tau')%R -> (x1 < x2)%R -> (x2 < x3)%R ->
  (forall x, x = x1 \/ x = x2 \/ x = x3 -> exp_fit x a' tau' c' = exp_fit x a tau c)%R -> tau' = tau.
Proof.
  intros Ha Ht Ht' H12 H23 H. assert (E : (/ tau = / tau')%R).
  { apply (exp_three a (/ tau) c a' (/ tau') c' x1 x2 x3); auto.
    - apply Rmult_integral_contrapositive. split; [exact Ha|]. apply Rinv_neq_0_compat. lra.
    - intros x Hx. specialize (H x Hx). unfold exp_fit in H. replace (- (/ tau * x))%R with (- x / tau)%R by (unfold Rdiv; ring). replace (- (/ tau' * x))%R with (- x / tau')%R by (unfold Rdiv; ring). symmetry. exact H. }
  rewrite <- (Rinv_inv tau), <- (Rinv_inv tau'), E. reflexivity.
Qed.
(** The bounds of three parameters whose second one is positive. *)
Lemma exp_tau_of bounds ps a tau c x1 x2 x3 (xs : list Q) : (0 < nth 1 (fst bounds) 0)%R -> within bounds ps -> within bounds [a; tau; c] -> (a <> 0)%R ->
  In x1 xs -> In x2 xs -> In x3 xs -> (Q2R x1 < Q2R x2)%R -> (Q2R x2 < Q2R x3)%R ->
  (forall x, In x xs -> exp_fun (Q2R x) ps = exp_fun (Q2R x) [a; tau; c]) -> index_e ps 1 = Ok tau.
Proof.
  intros Hb [L U] [L' _] Ha I1 I2 I3 H12 H23 H. destruct bounds as [lo hi]. cbn [fst snd] in *.
  inversion L' as [|l1 a1 lo1 ps1 Hl1 L1]; subst. inversion L1 as [|l2 a2 lo2 ps2 Hl2 L2]; subst. inversion L2 as [|l3 a3 lo3 ps3 Hl3 L3]; subst. inversion L3; subst. cbn [nth] in Hb.
  inversion L as [|m1 a' lo1' ps1' Hm1 M1]; subst. inversion M1 as [|m2 tau' lo2' ps2' Hm2 M2]; subst. inversion M2 as [|m3 c' lo3' ps3' Hm3 M3]; subst. inversion M3; subst.
  cbn. f_equal. apply (exp_fit_tau a tau c a' tau' c' (Q2R x1) (Q2R x2) (Q2R x3)); auto; try lra. intros x [->|[->| ->]]; [apply (H x1 I1)|apply (H x2 I2)|apply (H x3 I3)].
Qed.
