(** Proofs of C34 in the vocabulary of the specification. *)
From Coq Require Import QArith QArith.Qcanon Qreals Reals Lqa Lra.
From Coquelicot Require Import Coquelicot.
From Verif Require Import LinAlg Base ResultFacts CountsModel CountsSpec CountsProofs QcFacts ExpvalModel ExpvalSpec ExpvalProofs
  ExpvalVecProofs ExpvalTensProofs ExpvalGammaProofs ExpvalCompProofs CtmpModel CtmpSpec CtmpProofs CtmpExpProofs.
Open Scope nat_scope.

(** ** Rationals as reals *)
Lemma toR_eq x y : (this x == this y)%Q -> toR x = toR y. Proof. apply Qeq_eqR. Qed.
Lemma toR_plus x y : toR (x + y) = (toR x + toR y)%R.
Proof. unfold toR. rewrite <- Q2R_plus. apply Qeq_eqR. apply this_plus. Qed.
Lemma toR_mult x y : toR (x * y) = (toR x * toR y)%R.
Proof. unfold toR. rewrite <- Q2R_mult. apply Qeq_eqR. apply this_mult. Qed.
Lemma toR_opp x : toR (- x) = (- toR x)%R.
Proof. unfold toR. rewrite <- Q2R_opp. apply Qeq_eqR. apply this_opp. Qed.
Lemma toR_minus x y : toR (x - y) = (toR x - toR y)%R.
Proof. unfold Qcminus. rewrite toR_plus, toR_opp. ring. Qed.
Lemma toR_0 : toR 0 = 0%R. Proof. unfold toR, Q2R. cbn. lra. Qed.
Lemma toR_1 : toR 1 = 1%R. Proof. unfold toR, Q2R. cbn. lra. Qed.
Lemma toR_le x y : (x <= y)%Qc -> (toR x <= toR y)%R.
Proof. intros H. apply Qle_Rle. exact H. Qed.
Lemma toR_fsum l : toR (fsum l) = fsum (map toR l).
Proof. induction l as [|x l IH]; [apply toR_0|]. cbn [map]. rewrite qsum_cons, fsum_cons, toR_plus, IH. reflexivity. Qed.

(** ** Constructor *)
Definition valid_gens (gens : list gen) : Prop := forall g, In g gens -> transition (g_b g) (g_a g) (g_q g).

Lemma init_kept gens rates num ct : ctmp_init gens rates num = Ok ct ->
  forall g r, In (g, r) (ct_gens ct) -> In g gens /\ (threshold < r)%Qc.
Proof.
  unfold ctmp_init. intros H. inv_bind H. injection H as <-. cbn [ct_gens]. intros g r Hin. apply in_flat_map in Hin as ([o g'] & Hc & Hin).
  cbn [fst snd] in Hin. destruct o as [r'|]; [|destruct Hin]. unfold Qc_ltb in Hin. destruct (Qclt_le_dec threshold r') as [Hlt|]; [|destruct Hin].
  destruct Hin as [[= <- <-]|[]]. split; [eapply in_combine_r; exact Hc | exact Hlt].
Qed.
Lemma threshold_pos : (0 < threshold)%Qc. Proof. reflexivity. Qed.

Lemma init_ok gens rates num ct : ctmp_init gens rates num = Ok ct -> valid_gens gens ->
  gens_ok (entries ct) /\ forall b a gq r, In (b, a, gq, r) (entries ct) -> (0 <= r)%Qc.
Proof.
  intros H Hv. pose proof (init_kept _ _ _ _ H) as Hk. split.
  - intros b a gq r Hin. unfold entries in Hin. apply in_map_iff in Hin as ([g r'] & [= <- <- <- <-] & Hin). cbn [fst]. apply Hv. exact (proj1 (Hk g r' Hin)).
  - intros b a gq r Hin. unfold entries in Hin. apply in_map_iff in Hin as ([g r'] & [= <- <- <- <-] & Hin). cbn [snd]. apply Qclt_le_weak.
    apply (Qclt_trans _ threshold); [exact threshold_pos | exact (proj2 (Hk g r' Hin))].
Qed.

(** The rates above the threshold, with their generators. *)
Lemma init_entries gens rates num ct : ctmp_init gens rates num = Ok ct -> length rates = length gens ->
  entries ct = flat_map (fun gr => match snd gr with
      | Some r => if Qclt_le_dec threshold r then [(g_b (fst gr), g_a (fst gr), g_q (fst gr), r)] else []
      | None => [] end) (combine gens rates).
Proof.
  unfold ctmp_init, entries. intros H. inv_bind H. injection H as <-. cbn [ct_gens]. clear. revert rates. induction gens as [|g gens IH]; intros [|r rates] Hl; try discriminate; [reflexivity|].
  cbn [combine flat_map fst snd]. rewrite map_app, IH by (cbn in Hl; lia). f_equal. destruct r as [r|]; [|reflexivity]. unfold Qc_ltb. destruct (Qclt_le_dec threshold r); reflexivity.
Qed.

(** ** Everything about one mitigator *)
Lemma ctmp_core gens rates num ct qubits asc : ctmp_init gens rates num = Ok ct -> valid_gens gens -> qubits_are ct qubits asc ->
  exists g gamma b, generator_matrix ct qubits = Ok g /\ noise_strength ct qubits = Ok gamma /\ sampling_matrix ct qubits = Ok b /\
    (forall y x, g y x = rate_matrix asc (entries ct) y x) /\ markov_generator (2 ^ length asc) g /\
    (0 <= gamma)%Qc /\ strength (2 ^ length asc) g gamma /\ column_stochastic (2 ^ length asc) b /\
    (forall y x, y < 2 ^ length asc -> x < 2 ^ length asc -> (gamma * (b y x - ind (y =? x)))%Qc = g y x).
Proof.
  intros Hi Hv Hq. destruct (init_ok _ _ _ _ Hi Hv) as [Hg Hr].
  destruct (generator_matrix_lemma ct qubits asc Hq Hg) as (g & Eg & Vg).
  assert (Hm : markov_generator (2 ^ length asc) g).
  { destruct (rate_markov asc (entries ct) Hr) as [H1 H2]. split.
    - intros y x Hy Hx Hn. rewrite Vg. apply H1; assumption.
    - intros x Hx. rewrite <- (H2 x Hx). unfold sum_lt. apply qsum_ext. intros; apply Vg. }
  destruct (noise_core ct qubits asc g Hq Eg Hm) as (gamma & En & H0 & Hs).
  exists g, gamma, (sampling g gamma). split; [exact Eg|]. split; [exact En|]. split.
  - unfold sampling_matrix. rewrite Eg, En. reflexivity.
  - split; [exact Vg|]. split; [exact Hm|]. split; [exact H0|]. split; [exact Hs|]. split; [apply sampling_stochastic; [exact Hm | exact H0 | exact (proj1 Hs)]|].
    intros y x Hy Hx. unfold sampling, ind, Qc_eqb. destruct (Qc_eq_dec gamma 0) as [Hz|Hz].
    + rewrite (proj2 (markov_diag _ g x Hm Hx)); [rewrite Hz; ring | | exact Hy].
      apply Qcle_antisym; [exact (proj1 (markov_diag _ g x Hm Hx))|]. pose proof (proj1 Hs x Hx). rewrite Hz in H. qlra.
    + destruct (y =? x); field; exact Hz.
Qed.

Lemma generator_theorem gens rates num ct qubits asc : ctmp_init gens rates num = Ok ct -> valid_gens gens -> qubits_are ct qubits asc ->
  exists g, generator_matrix ct qubits = Ok g /\ (forall y x, g y x = rate_matrix asc (entries ct) y x) /\ markov_generator (2 ^ length asc) g.
Proof. intros H1 H2 H3. destruct (ctmp_core _ _ _ _ _ _ H1 H2 H3) as (g & gamma & b & H). exists g. tauto. Qed.

Lemma sampling_theorem gens rates num ct qubits asc g : ctmp_init gens rates num = Ok ct -> valid_gens gens -> qubits_are ct qubits asc ->
  generator_matrix ct qubits = Ok g ->
  exists gamma b, noise_strength ct qubits = Ok gamma /\ sampling_matrix ct qubits = Ok b /\
    (0 <= gamma)%Qc /\ strength (2 ^ length asc) g gamma /\ column_stochastic (2 ^ length asc) b /\
    (forall y x, y < 2 ^ length asc -> x < 2 ^ length asc -> (gamma * (b y x - ind (y =? x)))%Qc = g y x).
Proof.
  intros H1 H2 H3 H4. destruct (ctmp_core _ _ _ _ _ _ H1 H2 H3) as (g' & gamma & b & Eg & En & Eb & _ & _ & H). rewrite H4 in Eg. injection Eg as <-.
  exists gamma, b. tauto.
Qed.

Lemma of_Qc_core d g gamma b : (forall y x, y < d -> x < d -> (gamma * (b y x - ind (y =? x)))%Qc = g y x) ->
  forall i j, (i < d)%nat -> (j < d)%nat -> (of_Qc g i j = toR gamma * (of_Qc b i j - if (i =? j)%nat then 1 else 0))%R.
Proof.
  intros H i j Hi Hj. unfold of_Qc. rewrite <- (H i j Hi Hj). change (Q2R (this (gamma * (b i j - ind (i =? j))))) with (toR (gamma * (b i j - ind (i =? j)))).
  change (Q2R (this (b i j))) with (toR (b i j)). rewrite toR_mult, toR_minus. unfold ind. destruct (i =? j); rewrite ?toR_0, ?toR_1; reflexivity.
Qed.

Lemma mixture_theorem gens rates num ct qubits asc g gamma b : ctmp_init gens rates num = Ok ct -> valid_gens gens -> qubits_are ct qubits asc ->
  generator_matrix ct qubits = Ok g -> noise_strength ct qubits = Ok gamma -> sampling_matrix ct qubits = Ok b ->
  let d := 2 ^ length asc in
  (forall i j, i < d -> j < d ->
    is_series (fun k => exp (2 * toR gamma) * poisson (toR gamma) k * (-1) ^ k * mpow d (of_Qc b) k i j)%R (mexp d (fun i j => (- of_Qc g i j)%R) i j)) /\
  (forall p q, (forall y, y < d -> q y = rsum d (fun x => (mexp d (of_Qc g) y x * p x)%R)) ->
    forall z, z < d ->
    is_series (fun k => exp (2 * toR gamma) * poisson (toR gamma) k * (-1) ^ k * rsum d (fun y => mpow d (of_Qc b) k z y * q y))%R (p z)).
Proof.
  intros H1 H2 H3 Eg En Eb d. destruct (ctmp_core _ _ _ _ _ _ H1 H2 H3) as (g' & gamma' & b' & Eg' & En' & Eb' & _ & _ & _ & _ & _ & H).
  rewrite Eg in Eg'. injection Eg' as <-. rewrite En in En'. injection En' as <-. rewrite Eb in Eb'. injection Eb' as <-. fold d in H.
  pose proof (of_Qc_core d g gamma b H) as Hc. split.
  - intros i j Hi Hj. pose proof (mixture d (toR gamma) (of_Qc b) i j Hi Hj) as M.
    rewrite (mexp_ext d _ (fun i j => (- of_Qc g i j)%R)) in M; [exact M | | exact Hi | exact Hj].
    intros i' j' Hi' Hj'. rewrite (Hc i' j' Hi' Hj'). ring.
  - intros p q Hq z Hz. exact (mixture_inverts d (toR gamma) (of_Qc b) (of_Qc g) p q Hc Hq z Hz).
Qed.

(** ** One batch and the estimate *)
Definition draws_ok (d : nat) (dr : draws) : Prop :=
  length (dr_x dr) = length (dr_alphas dr) /\ Forall (fun x => x < d) (dr_x dr) /\
  length (dr_r dr) = list_sum (dr_alphas dr) /\ Forall uniform (dr_r dr).

Definition signed_sum (f : nat -> Qc) (al ys : list nat) : Qc :=
  fsum (map (fun ay => if Nat.even (fst ay) then f (snd ay) else (- f (snd ay))%Qc) (combine al ys)).

Lemma signed_split (diag : list Qc) al : forall ys, length ys = length al -> Forall (fun y => y < length diag) ys ->
  exists p m, mapM (index_e diag) (map fst (filter (fun yz => snd yz =? 0) (combine ys (map (fun a => Nat.modulo a 2) al)))) = Ok p /\
    mapM (index_e diag) (map fst (filter (fun yz => snd yz =? 1) (combine ys (map (fun a => Nat.modulo a 2) al)))) = Ok m /\
    (fsum p - fsum m)%Qc = signed_sum (fun y => nth y diag 0%Qc) al ys.
Proof.
  induction al as [|a al IH]; intros [|y ys] Hl Hy; try discriminate.
  - exists [], []. split; [reflexivity|]. split; [reflexivity|]. apply Qc_is_canon. reflexivity.
  - apply Forall_cons_iff in Hy as [Hy Hys]. destruct (IH ys ltac:(cbn in Hl; lia) Hys) as (p & m & Ep & Em & Es).
    cbn [map combine filter snd]. assert (Hn : index_e diag y = Ok (nth y diag 0%Qc)) by (apply index_ok, nth_error_nth'; exact Hy).
    unfold signed_sum in *. cbn [combine map fst snd]. rewrite qsum_cons, <- Es.
    assert (Hmod : Nat.modulo a 2 = if Nat.even a then 0 else 1).
    { rewrite <- Nat.negb_odd. pose proof (Nat.bit0_mod a) as Hb. rewrite Nat.bit0_odd in Hb. rewrite <- Hb. destruct (Nat.odd a); reflexivity. }
    rewrite Hmod. destruct (Nat.even a); cbn [Nat.eqb].
    + exists (nth y diag 0%Qc :: p), m. cbn [map fst mapM]. rewrite Hn, Ep. cbn [bind]. split; [reflexivity|]. split; [exact Em|]. rewrite qsum_cons. ring.
    + exists p, (nth y diag 0%Qc :: m). cbn [map fst mapM]. rewrite Hn, Em. cbn [bind]. split; [exact Ep|]. split; [reflexivity|]. rewrite qsum_cons. ring.
Qed.

Lemma batch_ok d b (diag : list Qc) dr : column_stochastic d b -> draws_ok d dr -> length diag = d ->
  exists ys, runs d b (dr_x dr) (dr_alphas dr) (dr_r dr) ys /\
    batch_value diag dr (csc_columns d b) = Ok (signed_sum (fun y => nth y diag 0%Qc) (dr_alphas dr) ys).
Proof.
  intros Hb (Hl & Hx & Hr & Hu) Hd. destruct (markov_chain_ok d b (dr_r dr) Hb Hu (dr_x dr) (dr_alphas dr) 0 Hl Hx ltac:(cbn; lia)) as (ys & E & Hruns & Hys & Hly).
  exists ys. split; [exact Hruns|]. unfold batch_value, ctmp_inverse. rewrite E. cbn [bind fst snd].
  rewrite <- Hd in Hys. destruct (signed_split diag (dr_alphas dr) ys Hly Hys) as (p & m & Ep & Em & Es). rewrite Ep, Em. cbn [bind]. rewrite Es. reflexivity.
Qed.

Lemma batches_ok d b diag (draw : nat -> nat -> draws) : column_stochastic d b -> length diag = d ->
  forall ks, (forall k s, In (k, s) ks -> draws_ok d (draw k s)) ->
  exists yss, Forall2 (fun ks ys => let dr := draw (fst ks) (snd ks) in runs d b (dr_x dr) (dr_alphas dr) (dr_r dr) ys) ks yss /\
    mapM (fun ks => batch_value diag (draw (fst ks) (snd ks)) (csc_columns d b)) ks
    = Ok (map (fun ky => signed_sum (fun y => nth y diag 0%Qc) (dr_alphas (draw (fst (fst ky)) (snd (fst ky)))) (snd ky)) (combine ks yss)).
Proof.
  intros Hb Hd. induction ks as [|[k s] ks IH]; intros Hk.
  - exists []. split; [constructor | reflexivity].
  - destruct (IH ltac:(intros k' s' Hin; apply Hk; right; exact Hin)) as (yss & H1 & H2).
    destruct (batch_ok d b diag (draw k s) Hb (Hk k s (or_introl eq_refl)) Hd) as (ys & R & E).
    exists (ys :: yss). split; [constructor; assumption|]. cbn [mapM fst snd]. rewrite E. cbn [bind]. rewrite H2. reflexivity.
Qed.

Lemma samples_total n : list_sum (samples_set n) = n /\ forall s, In s (samples_set n) -> s <= batch_size.
Proof.
  unfold samples_set. assert (Hb : batch_size <> 0) by (unfold batch_size; lia). split.
  - rewrite list_sum_app. cbn [list_sum fold_right]. rewrite Nat.add_0_r.
    assert (H : forall k, list_sum (repeat batch_size k) = k * batch_size).
    { induction k as [|k IH]; [reflexivity|]. change (list_sum (repeat batch_size (S k))) with (batch_size + list_sum (repeat batch_size k)). rewrite IH. lia. }
    rewrite H. rewrite (Nat.div_mod n batch_size Hb) at 3. lia.
  - intros s Hs. apply in_app_or in Hs as [Hs|[<-|[]]]; [apply repeat_spec in Hs; lia|]. pose proof (Nat.mod_upper_bound n batch_size Hb). lia.
Qed.

Lemma ceilR_spec x : (x <= IZR (ceilR x) < x + 1)%R.
Proof.
  unfold ceilR. destruct (base_Int_part (- x)) as [H1 H2]. rewrite opp_IZR. lra.
Qed.

Lemma num_samples_spec shots gamma : (0 <= gamma)%Qc ->
  (1600 <= INR (num_samples shots gamma))%R /\ (IZR shots * exp (2 * toR gamma) <= INR (num_samples shots gamma))%R.
Proof.
  intros H. unfold num_samples. set (x := (IZR (Z.max 1600 shots) * exp (2 * toR gamma))%R).
  assert (Hg : (0 <= toR gamma)%R) by (rewrite <- toR_0; apply toR_le; exact H).
  assert (He : (1 <= exp (2 * toR gamma))%R).
  { rewrite <- exp_0. destruct (Req_dec (2 * toR gamma) 0) as [->|Hn]; [lra|]. left. apply exp_increasing. lra. }
  assert (Hm : (1600 <= IZR (Z.max 1600 shots))%R) by (apply (IZR_le 1600); lia).
  assert (Hm2 : (IZR shots <= IZR (Z.max 1600 shots))%R) by (apply IZR_le; lia).
  assert (Hx1 : (1600 <= x)%R) by (unfold x; nra). assert (Hx2 : (IZR shots * exp (2 * toR gamma) <= x)%R) by (unfold x; nra).
  destruct (ceilR_spec x) as [Hc _]. assert (Hz : (0 <= ceilR x)%Z) by (apply le_IZR; lra).
  rewrite INR_IZR_INZ, Z2Nat.id by exact Hz. split; lra.
Qed.

Lemma Forall2_impl' {A B} (P Q : A -> B -> Prop) l m : (forall a b, P a b -> Q a b) -> Forall2 P l m -> Forall2 Q l m.
Proof. intros H HF. induction HF; constructor; auto. Qed.
Lemma Forall2_combine {A B} (P : A -> B -> Prop) l m : Forall2 P l m -> forall a b, In (a, b) (combine l m) -> P a b.
Proof. intros HF. induction HF; cbn; intros a b; [tauto|]. intros [[= <- <-]|Hin]; auto. Qed.

Lemma counts_num c qs clbits n sel : well_formed n c clbits sel -> total c <> 0%Z ->
  counts_probability_vector c (Some qs) clbits (Some n) = counts_probability_vector c (Some qs) clbits None.
Proof.
  intros Hw HT. destruct (marginal_ok n c clbits sel Hw) as (r & Hr & _ & _ & Hk & Hne & _). specialize (Hne HT).
  unfold counts_probability_vector. rewrite Hr. cbn [bind]. destruct r as [|[k0 v0] r0]; [congruence|].
  assert (Hk0 : length k0 = n) by (apply Hk; left; reflexivity). rewrite Hk0. reflexivity.
Qed.

Lemma estimate_theorem gens rates num ct qs asc n c clbits sel diag draw :
  ctmp_init gens rates num = Ok ct -> valid_gens gens ->
  well_formed n c clbits sel -> total c <> 0%Z -> increasing_version asc qs -> length qs = n ->
  (forall d, diag = Some d -> length d = 2 ^ n) ->
  (forall k s probs gamma, draws_ok (2 ^ n) (draw k s probs gamma)) ->
  exists gamma b probs yss, noise_strength ct (Some qs) = Ok gamma /\ sampling_matrix ct (Some qs) = Ok b /\
    (forall i i', i < 2 ^ n -> i' < 2 ^ n -> rearranged asc qs i i' -> nth i probs 0%Qc = freq c sel i') /\
    let ks := combine (seq 0 (length (samples_set (num_samples (total c) gamma)))) (samples_set (num_samples (total c) gamma)) in
    Forall2 (fun ks ys => let dr := draw (fst ks) (snd ks) probs gamma in runs (2 ^ n) b (dr_x dr) (dr_alphas dr) (dr_r dr) ys) ks yss /\
    ctmp_expectation draw ct c diag (Some qs) clbits
    = Ok ((exp (2 * toR gamma) / INR (num_samples (total c) gamma) *
           toR (fsum (map (fun ky => signed_sum (fun y => diag_entry diag n y)
             (dr_alphas (draw (fst (fst ky)) (snd (fst ky)) probs gamma)) (snd ky)) (combine ks yss))))%R,
          (exp (2 * toR gamma) / sqrt (IZR (total c)))%R).
Proof.
  intros Hi Hv Hw HT Hasc Hl Hd Hdr.
  assert (Hne : asc <> []).
  { intros ->. destruct Hasc as [_ Hp]. apply Permutation_nil in Hp. subst qs. cbn in Hl. destruct Hw. lia. }
  assert (Hla : length asc = n) by (rewrite <- Hl; apply Permutation_length; exact (proj2 Hasc)).
  destruct (ctmp_core gens rates num ct (Some qs) asc Hi Hv (conj Hasc Hne)) as (g & gamma & b & Eg & En & Eb & _ & _ & _ & _ & Hst & _).
  rewrite Hla in Hst. destruct (counts_vector_remap n c clbits sel qs asc Hw HT Hasc Hl) as (probs & Ep & Hlp & Hp).
  set (D := match diag with Some d => d | None => z_diagonal (2 ^ n) end).
  assert (HlD : length D = 2 ^ n).
  { unfold D. destruct diag as [d|]; [apply Hd; reflexivity|]. unfold z_diagonal. rewrite map_length, seq_length. reflexivity. }
  assert (HD : forall y, y < 2 ^ n -> nth y D 0%Qc = diag_entry diag n y).
  { intros y Hy. unfold D, diag_entry. destruct diag as [d|]; [reflexivity|]. apply (the_diagonal_none n y Hy). }
  set (ks := combine (seq 0 (length (samples_set (num_samples (total c) gamma)))) (samples_set (num_samples (total c) gamma))).
  destruct (batches_ok (2 ^ n) b D (fun k s => draw k s probs gamma) Hst HlD ks ltac:(intros; apply Hdr)) as (yss & HR & Em).
  exists gamma, b, probs, yss. split; [exact En|]. split; [exact Eb|]. split; [exact Hp|]. cbv zeta. split; [exact HR|].
  unfold ctmp_expectation. rewrite Hl, (counts_num c qs clbits n sel Hw HT), Ep, En, Eb. cbn [bind pv_vec]. cbv zeta.
  change (zsum (dvals c)) with (total c). fold ks. fold D. rewrite Em. cbn [bind]. f_equal. f_equal. f_equal. f_equal. f_equal.
  apply map_ext_in. intros [[k s] ys] Hin. cbn [fst snd]. unfold signed_sum. f_equal. apply map_ext_in. intros [a y] Hay. cbn [fst snd].
  assert (Hyd : y < 2 ^ n).
  { assert (HF : Forall2 (fun (ks : nat * nat) ys => Forall (fun y => y < 2 ^ n) ys) ks yss).
    { eapply Forall2_impl'; [|exact HR]. intros [k' s'] ys' Hruns. cbn [fst snd] in Hruns. cbv zeta in Hruns.
      destruct (Hdr k' s' probs gamma) as (_ & Hx & _). revert Hruns Hx. generalize (dr_x (draw k' s' probs gamma)) (dr_alphas (draw k' s' probs gamma)) (dr_r (draw k' s' probs gamma)). clear. intros xs al rs Hruns. induction Hruns as [|x xs a al rs rs' y ys Hl Hwk Hr IH]; intros Hx; constructor.
      - apply Forall_cons_iff in Hx as [Hx _]. clear -Hwk Hx. induction Hwk; auto.
      - apply IH. apply Forall_cons_iff in Hx as [_ Hx]. exact Hx. }
    apply Forall2_combine with (2 := Hin) in HF. rewrite Forall_forall in HF. apply HF. eapply in_combine_r. exact Hay. }
  rewrite (HD y Hyd). reflexivity.
Qed.

(** ** Reported matrices *)
Lemma rsum_rev d f : rsum d (fun l => f (d - 1 - l)) = rsum d f.
Proof.
  unfold rsum. rewrite <- (map_map (fun l => d - 1 - l) f). rewrite <- seq_rev, map_rev. apply fsum_perm. symmetry. apply Permutation_rev.
Qed.
Lemma mpow_flip d m k : forall i j, i < d -> j < d ->
  mpow d (fun i j => m (d - 1 - i) (d - 1 - j)) k i j = mpow d m k (d - 1 - i) (d - 1 - j).
Proof.
  induction k as [|k IH]; intros i j Hi Hj; cbn [mpow].
  - destruct (Nat.eqb_spec i j) as [->|Hn]; [rewrite Nat.eqb_refl; reflexivity|].
    replace (d - 1 - i =? d - 1 - j) with false by (symmetry; apply Nat.eqb_neq; lia). reflexivity.
  - rewrite <- (rsum_rev d (fun l => (m (d - 1 - i)%nat l * mpow d m k l (d - 1 - j)%nat)%R)). apply rsum_ext. intros l Hl. rewrite IH by assumption. reflexivity.
Qed.
Lemma reported_theorem ct qubits g asc : qubits_are ct qubits asc -> generator_matrix ct qubits = Ok g ->
  let d := 2 ^ length asc in
  exists r, reported_generator ct qubits = Ok r /\
    forall i j, i < d -> j < d -> mexp d (of_Qc r) i j = mexp d (of_Qc g) (d - 1 - i) (d - 1 - j) /\
      mexp d (fun i j => (- of_Qc r i j)%R) i j = mexp d (fun i j => (- of_Qc g i j)%R) (d - 1 - i) (d - 1 - j).
Proof.
  intros Hq E d. destruct (the_qubits_ok ct qubits asc Hq) as (Eq & _). unfold reported_generator. rewrite E, Eq. cbn [bind]. fold d.
  eexists. split; [reflexivity|]. intros i j Hi Hj. split; apply Series_ext; intros k; unfold exp_term; f_equal.
  - exact (mpow_flip d (of_Qc g) k i j Hi Hj).
  - exact (mpow_flip d (fun i j => (- of_Qc g i j)%R) k i j Hi Hj).
Qed.

Definition flip0 : gen := {| g_b := str "1"; g_a := str "0"; g_q := [0] |}.
Lemma reported_differs : ~ (forall gens rates num ct g r i j, ctmp_init gens rates num = Ok ct -> valid_gens gens ->
  generator_matrix ct None = Ok g -> reported_generator ct None = Ok r ->
  let d := 2 ^ ct_n ct in i < d -> j < d -> mexp d (of_Qc r) i j = mexp d (of_Qc g) i j).
Proof.
  intros H. set (ct := {| ct_n := 1; ct_gens := [(flip0, 1%Qc)] |}).
  assert (Hi : ctmp_init [flip0] [Some 1%Qc] None = Ok ct) by reflexivity.
  assert (Hv : valid_gens [flip0]).
  { intros g [<-|[]]. split; [reflexivity|]. split; [reflexivity|]. split; [repeat constructor; auto|]. split; intros c [<-|[]]; auto. }
  assert (Hq : qubits_are ct None [0]) by (split; [reflexivity | discriminate]).
  destruct (init_ok _ _ _ _ Hi Hv) as [Hg _]. destruct (generator_matrix_lemma ct None [0] Hq Hg) as (g & Eg & Vg).
  destruct (reported_theorem ct None g [0] Hq Eg) as (r & Er & Hr).
  specialize (H _ _ _ _ g r 0 0 Hi Hv Eg Er). cbn [ct_n ct Nat.pow] in H. specialize (H ltac:(cbn; lia) ltac:(cbn; lia)).
  destruct (Hr 0 0 ltac:(cbn; lia) ltac:(cbn; lia)) as [Hr0 _]. change (2 ^ length [0]) with 2 in Hr0. change (2 * 1) with 2 in H. rewrite Hr0 in H. change (2 - 1 - 0) with 1 in H.
  assert (G00 : of_Qc g 0 0 = (-1)%R) by (unfold of_Qc; rewrite Vg; unfold Q2R; vm_compute (this _); cbn; lra).
  assert (G01 : of_Qc g 0 1 = 0%R) by (unfold of_Qc; rewrite Vg; unfold Q2R; vm_compute (this _); cbn; lra).
  assert (G10 : of_Qc g 1 0 = 1%R) by (unfold of_Qc; rewrite Vg; unfold Q2R; vm_compute (this _); cbn; lra).
  assert (G11 : of_Qc g 1 1 = 0%R) by (unfold of_Qc; rewrite Vg; unfold Q2R; vm_compute (this _); cbn; lra).
  set (m := of_Qc g) in *.
  assert (S2 : forall f : nat -> R, rsum 2 f = (f 0%nat + f 1%nat)%R) by (intros f; unfold rsum; cbn; unfold fsum; cbn; ring).
  assert (P00 : forall k, mpow 2 m k 0 0 = ((-1) ^ k)%R).
  { induction k as [|k IH]; cbn [mpow pow]; [reflexivity|]. rewrite S2, IH, G00, G01. ring. }
  assert (P01 : forall k, mpow 2 m k 0 1 = 0%R).
  { induction k as [|k IH]; cbn [mpow]; [reflexivity|]. rewrite S2, IH, G00, G01. ring. }
  assert (P11 : forall k, mpow 2 m k 1 1 = (0 ^ k)%R).
  { intros [|k]; cbn [mpow pow]; [reflexivity|]. rewrite S2, P01, G10, G11. ring. }
  assert (E0 : mexp 2 m 0 0 = exp (-1)).
  { apply is_series_unique. apply is_series_ext with (2 := is_series_exp (-1)). intros k. unfold exp_term. rewrite P00. reflexivity. }
  assert (E1 : mexp 2 m 1 1 = exp 0).
  { apply is_series_unique. apply is_series_ext with (2 := is_series_exp 0). intros k. unfold exp_term. rewrite P11. reflexivity. }
  rewrite E0, E1 in H. apply exp_inv in H. lra.
Qed.

(** ** The standard generators *)
Lemma combs2_In n i j : In (i, j) (combs2 n) <-> i < j < n.
Proof.
  unfold combs2. rewrite in_flat_map. split.
  - intros (k & Hk & Hin). apply in_map_iff in Hin as (l & [= -> ->] & Hl). apply in_seq in Hk, Hl. lia.
  - intros H. exists i. split; [apply in_seq; lia|]. apply in_map. apply in_seq. lia.
Qed.
Lemma combs2_length n : 2 * length (combs2 n) = n * (n - 1).
Proof.
  unfold combs2. assert (H : forall k, k <= n -> 2 * length (flat_map (fun i => map (fun j => (i, j)) (seq (i + 1) (n - (i + 1)))) (seq (n - k) k)) = k * (k - 1)).
  { induction k as [|k IH]; intros Hk; [reflexivity|]. cbn [seq flat_map]. rewrite app_length, map_length, seq_length.
    replace (S (n - S k)) with (n - k) by lia. rewrite Nat.mul_add_distr_l, IH by lia. replace (n - (n - S k + 1)) with k by lia. clear. destruct k as [|k]; [reflexivity|]. rewrite !Nat.sub_succ, !Nat.sub_0_r. ring. }
  specialize (H n ltac:(lia)). rewrite Nat.sub_diag in H. exact H.
Qed.
Lemma filter_all {A} (f : A -> bool) l : (forall a, In a l -> f a = true) -> filter f l = l.
Proof. induction l as [|a l IH]; intros H; [reflexivity|]. cbn. rewrite (H a (or_introl eq_refl)), IH by (intros; apply H; right; assumption). reflexivity. Qed.

Lemma standard_set n : 1 <= n -> exists gens, standard_generator_set n None = Ok gens /\ length gens = 2 * (n * n) /\ valid_gens gens /\
  forall b a q, In {| g_b := b; g_a := a; g_q := q |} gens <->
    (exists i, i < n /\ q = [i] /\ (b = str "1" /\ a = str "0" \/ b = str "0" /\ a = str "1")) \/
    (exists i j, i < j < n /\ q = [i; j] /\ (b = str "11" /\ a = str "00" \/ b = str "00" /\ a = str "11")) \/
    (exists i j, i < n /\ j < n /\ i <> j /\ q = [i; j] /\ b = str "10" /\ a = str "01").
Proof.
  intros Hn. unfold standard_generator_set. replace (n =? 0) with false by (symmetry; apply Nat.eqb_neq; lia).
  pose proof (combs2_length n) as HL.
  assert (Hf : filter (fun ij => fst ij <? snd ij) (combs2 n) = combs2 n).
  { apply filter_all. intros [i j] Hin. apply combs2_In in Hin. cbn. apply Nat.ltb_lt. lia. }
  set (S1 := single_qubit_bitstrings n).
  set (S2 := map (fun ij : nat * nat => {| g_b := str "11"; g_a := str "00"; g_q := [fst ij; snd ij] |}) (combs2 n)
          ++ map (fun ij : nat * nat => {| g_b := str "00"; g_a := str "11"; g_q := [fst ij; snd ij] |}) (combs2 n)).
  set (S3 := map (fun ij : nat * nat => {| g_b := str "10"; g_a := str "01"; g_q := [fst ij; snd ij] |}) (combs2 n)
          ++ map (fun ij : nat * nat => {| g_b := str "10"; g_a := str "01"; g_q := [snd ij; fst ij] |}) (combs2 n)).
  assert (L1 : length S1 = 2 * n) by (unfold S1, single_qubit_bitstrings; rewrite app_length, !map_length, seq_length; lia).
  assert (L2 : length S2 = n * (n - 1)) by (unfold S2; rewrite app_length, !map_length; lia).
  assert (L3 : length S3 = n * (n - 1)) by (unfold S3; rewrite app_length, !map_length; lia).
  assert (E2 : two_qubit_symmetric n None = Ok S2) by (unfold two_qubit_symmetric; rewrite Hf; fold S2; rewrite L2, Nat.eqb_refl; reflexivity).
  assert (E3 : two_qubit_asymmetric n None = Ok S3) by (unfold two_qubit_asymmetric; fold S3; rewrite L3, Nat.eqb_refl; reflexivity).
  assert (LL : length (S1 ++ S2 ++ S3) = 2 * (n * n)) by (rewrite !app_length, L1, L2, L3; destruct n; nia).
  assert (EE : (if 1 <? n then do s <- two_qubit_symmetric n None; do a <- two_qubit_asymmetric n None;
       (if length (S1 ++ s ++ a) =? 2 * (n * n) then Ok (S1 ++ s ++ a) else Err ValueError) else Ok S1) = Ok (S1 ++ S2 ++ S3)).
  { destruct (Nat.ltb_spec 1 n) as [H1|H1].
    - rewrite E2, E3. cbn [bind]. rewrite LL, Nat.eqb_refl. reflexivity.
    - assert (n = 1) by lia. subst n. reflexivity. }
  assert (Hin : forall b a q, In {| g_b := b; g_a := a; g_q := q |} (S1 ++ S2 ++ S3) <->
    (exists i, i < n /\ q = [i] /\ (b = str "1" /\ a = str "0" \/ b = str "0" /\ a = str "1")) \/
    (exists i j, i < j < n /\ q = [i; j] /\ (b = str "11" /\ a = str "00" \/ b = str "00" /\ a = str "11")) \/
    (exists i j, i < n /\ j < n /\ i <> j /\ q = [i; j] /\ b = str "10" /\ a = str "01")).
  { intros b a q. unfold S1, S2, S3, single_qubit_bitstrings. rewrite !in_app_iff, !in_map_iff. split.
    - intros [[(i & E & Hi)|(i & E & Hi)]|[[([i j] & E & Hi)|([i j] & E & Hi)]|[([i j] & E & Hi)|([i j] & E & Hi)]]]; injection E as <- <- <-; cbn [fst snd];
        try (apply in_seq in Hi); try (apply combs2_In in Hi).
      + left. exists i. repeat split; [lia | auto].
      + left. exists i. repeat split; [lia | auto].
      + right; left. exists i, j. repeat split; [lia | lia | auto].
      + right; left. exists i, j. repeat split; [lia | lia | auto].
      + right; right. exists i, j. repeat split; lia.
      + right; right. exists j, i. repeat split; lia.
    - intros [(i & Hi & -> & [[-> ->]|[-> ->]])|[(i & j & Hi & -> & [[-> ->]|[-> ->]])|(i & j & Hi & Hj & Hij & -> & -> & ->)]].
      + left; left. exists i. split; [reflexivity | apply in_seq; lia].
      + left; right. exists i. split; [reflexivity | apply in_seq; lia].
      + right; left; left. exists (i, j). split; [reflexivity | apply combs2_In; lia].
      + right; left; right. exists (i, j). split; [reflexivity | apply combs2_In; lia].
      + right; right. destruct (Nat.lt_ge_cases i j).
        * left. exists (i, j). split; [reflexivity | apply combs2_In; lia].
        * right. exists (j, i). split; [reflexivity | apply combs2_In; lia]. }
  exists (S1 ++ S2 ++ S3). split; [exact EE|]. split; [exact LL|]. split; [|exact Hin].
  intros [b a q] Hg. apply Hin in Hg. unfold transition. cbn [g_b g_a g_q].
  assert (Hbits : forall l, forallb (fun c => Ascii.eqb c "0" || Ascii.eqb c "1") l = true -> is_bits l).
  { intros l Hl c Hc. rewrite forallb_forall in Hl. specialize (Hl c Hc). apply orb_prop in Hl as [Hl|Hl]; apply Ascii.eqb_eq in Hl; auto. }
  destruct Hg as [(i & Hi & -> & [[-> ->]|[-> ->]])|[(i & j & Hi & -> & [[-> ->]|[-> ->]])|(i & j & Hi & Hj & Hij & -> & -> & ->)]];
    (split; [reflexivity|]); (split; [reflexivity|]); (split; [|split; apply Hbits; reflexivity]); repeat constructor; cbn; intuition lia.
Qed.
