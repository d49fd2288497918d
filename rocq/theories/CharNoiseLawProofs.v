(** The data of the coherence experiments on decaying qubits (C68). *)
From Coq Require Import QArith Qreals Reals Lra.
From Coquelicot Require Import Coquelicot.
From Verif Require Import Base LinAlg QSem PyStr DihedralModel RBSeqModel RBSeqSpec StdGates AccSpec EntSpec CtmpSpec.
From Verif Require Import CountsModel MeasCalModel CharModel CharSpec CharProdProofs CharCircProofs CharIdealProofs CharCalProofs CharDataProofs CharEndProofs CharNoiseSpec CharNoiseProofs.
Local Open Scope string_scope.
Local Open Scope list_scope.
Local Open Scope nat_scope.

Definition pop (r : dm) (p : R) : Prop := r true true = RtoC p /\ r false false = RtoC (1 - p).
Lemma pop_dmx p x y r : same_dm r (dmx p x y) -> pop r p.
Proof. intros H. split; rewrite H; reflexivity. Qed.

Section Law.
Context (gmat : pystr -> list Q -> bits -> bits -> C) (omega : R) (G : char_gates gmat omega).
Context (noise : nat -> decay) (t : R).
Notation nrun := (noisy_run gmat noise t).
Notation goes := (goes gmat noise t).

Lemma blocks_run (blk : nat -> list cinstr) (P : nat -> R) qs : NoDup qs -> forall s,
  (forall q, In q qs -> same_dm (s q) ground_dm) ->
  (forall q s', In q qs -> (forall k, ~ In k qs -> s' k = s k) -> exists x y, goes (blk q) q (freq_of (noise q) s') ground_dm (dmx (P q) x y)) ->
  exists s', nrun (flat_map blk qs) s = Some s' /\ (forall k, ~ In k qs -> s' k = s k) /\ forall q, In q qs -> pop (s' q) (P q).
Proof.
  induction 1 as [|q qs Hq Hn IH]; intros s Hg Hb; cbn [flat_map].
  - exists s. split; [reflexivity|]. split; [auto|]. intros q [].
  - destruct (Hb q s (or_introl eq_refl) (fun _ _ => eq_refl)) as (x & y & H). destruct (H s eq_refl (Hg q (or_introl eq_refl))) as (s1 & E1 & K1 & D1).
    destruct (IH s1) as (s2 & E2 & K2 & D2).
    + intros k Hk. rewrite K1 by (intros ->; contradiction). apply Hg. right. exact Hk.
    + intros k s' Hk Hs'. apply (Hb k s'); [right; exact Hk|]. intros k' Hk'. rewrite Hs' by (intros Hi; apply Hk'; right; exact Hi). apply K1. intros ->. apply Hk'. left. reflexivity.
    + exists s2. rewrite run_app, E1. split; [exact E2|]. split.
      * intros k Hk. rewrite K2 by (intros Hi; apply Hk; right; exact Hi). apply K1. intros ->. apply Hk. left. reflexivity.
      * intros k [->|Hk]; [|apply D2; exact Hk]. rewrite (K2 k Hq). exact (pop_dmx _ _ _ _ D1).
Qed.

Definition weigh (s : nat -> dm) (key : pystr) (body : list cinstr) : R :=
  fold_right (fun i p => match i with CMeasure q c => (let b := bit_is c true key in Re (s q b b) * p)%R | _ => p end) 1%R body.
Lemma weigh_app s key a b : no_meas a -> weigh s key (a ++ b) = weigh s key b.
Proof. intros H. induction H as [|i a Hi Ha IH]; [reflexivity|]. cbn [app weigh fold_right]. destruct i; try discriminate; exact IH. Qed.
Lemma measure_run qs s : nrun (measure_list qs) s = Some s.
Proof. unfold measure_list. induction (combine qs (seq 0 (length qs))) as [|[q c] l IH]; [reflexivity|]. exact IH. Qed.
Lemma bit_key c os : c < length os -> bit_is c true (key_of os) = nth c os false.
Proof. intros H. unfold bit_is. rewrite nth_key by exact H. unfold bitch. destruct (nth c os false); reflexivity. Qed.
Lemma measure_weigh s (P : nat -> R) qs : (forall q, In q qs -> pop (s q) (P q)) -> forall os, length os = length qs ->
  weigh s (key_of os) (measure_list qs) = pst (HF:=Fld_R) (fun j => bernoulli (P (nth j qs 0))) os.
Proof.
  intros Hp. unfold measure_list.
  assert (K : forall qs k os os', (forall q, In q qs -> pop (s q) (P q)) -> length os = length qs -> length os' = k ->
    weigh s (key_of (os' ++ os)) (map (fun qc => CMeasure (fst qc) (snd qc)) (combine qs (seq k (length qs)))) = pst (HF:=Fld_R) (fun j => bernoulli (P (nth j qs 0))) os).
  { clear. induction qs as [|q qs IH]; intros k os os' Hp Hl Hk; destruct os as [|o os]; try discriminate; [reflexivity|]. cbn [length seq combine map weigh fold_right fst snd pst].
    rewrite bit_key by (rewrite app_length; cbn [length]; lia). rewrite app_nth2 by lia. replace (k - length os') with 0 by lia. cbn [nth].
    replace (os' ++ o :: os) with ((os' ++ [o]) ++ os) by (rewrite <- app_assoc; reflexivity).
    change (fold_right _ 1%R ?l) with (weigh s (key_of ((os' ++ [o]) ++ os)) l). rewrite (IH (S k) os (os' ++ [o])); [|intros k' H; apply Hp; right; exact H|injection Hl; auto|rewrite app_length; cbn; lia].
    destruct (Hp q (or_introl eq_refl)) as [P1 P0]. unfold fmul. cbn [Fld_R]. f_equal. destruct o; cbn [bernoulli]; [rewrite P1|rewrite P0]; reflexivity. }
  intros os Hos. exact (K qs 0 os [] Hp Hos eq_refl).
Qed.

(** A preparation, blocks on single qubits, and the measurements. *)
Lemma block_prob (pre mid : list cinstr) (blk : nat -> list cinstr) n (P : nat -> R) qs s0 : NoDup qs -> no_meas pre -> no_meas mid -> (forall q, no_meas (blk q)) ->
  nrun pre (fun _ => ground_dm) = Some s0 -> (forall s, nrun mid s = Some s) -> (forall q, In q qs -> same_dm (s0 q) ground_dm) ->
  (forall q s', In q qs -> (forall k, ~ In k qs -> s' k = s0 k) -> exists x y, goes (blk q) q (freq_of (noise q) s') ground_dm (dmx (P q) x y)) ->
  forall os, length os = length qs ->
  noisy_prob gmat noise t (pre ++ mid ++ flat_map blk qs ++ [CBarrier (seq 0 n)] ++ measure_list qs) (key_of os) = pst (HF:=Fld_R) (fun j => bernoulli (P (nth j qs 0))) os.
Proof.
  intros Hn Np Nm Nb Ep Em Hg Hb os Hos. destruct (blocks_run blk P qs Hn s0 Hg Hb) as (s & Es & _ & Hs).
  unfold noisy_prob. rewrite run_app, Ep, run_app, Em, run_app, Es, run_app. cbn [noisy_run noisy_step]. rewrite measure_run.
  change (weigh s (key_of os) (pre ++ mid ++ flat_map blk qs ++ [CBarrier (seq 0 n)] ++ measure_list qs) = pst (HF:=Fld_R) (fun j => bernoulli (P (nth j qs 0))) os).
  rewrite (weigh_app _ _ pre) by exact Np. rewrite (weigh_app _ _ mid) by exact Nm.
  rewrite (weigh_app _ _ (flat_map blk qs)). 2:{ clear -Nb. induction qs as [|q qs IH]; cbn; [constructor|]. apply Forall_app. split; [apply Nb|exact IH]. }
  rewrite (weigh_app _ _ [CBarrier _]) by (repeat constructor). apply measure_weigh; assumption.
Qed.
Lemma plain_prob (blk : nat -> list cinstr) n (P : nat -> R) qs : NoDup qs -> (forall q, no_meas (blk q)) ->
  (forall q s', In q qs -> exists x y, goes (blk q) q (freq_of (noise q) s') ground_dm (dmx (P q) x y)) ->
  forall os, length os = length qs ->
  noisy_prob gmat noise t (flat_map blk qs ++ [CBarrier (seq 0 n)] ++ measure_list qs) (key_of os) = pst (HF:=Fld_R) (fun j => bernoulli (P (nth j qs 0))) os.
Proof.
  intros Hn Nb Hb os Hos. apply (block_prob [] [] blk n P qs (fun _ => ground_dm)); auto; try constructor; intros q _ a b; reflexivity.
Qed.

Notation pcall body os := (noisy_prob gmat noise t body (key_of os)).
Lemma t1_prob qs n len : NoDup qs -> (forall q, In q qs -> alone noise q) -> forall os, length os = length qs ->
  pcall (t1_body qs n len) os = pst (HF:=Fld_R) (fun j => bernoulli (exp (- (relax (noise (nth j qs 0)) * (INR len * t))))) os.
Proof.
  intros Hn Ha. apply (plain_prob (fun q => gate1 "x" [] q :: pad_id q len) n (fun q => exp (- (relax (noise q) * (INR len * t))))%R qs Hn).
  - intros q. apply nm_cons; [reflexivity|apply nm_pad].
  - intros q s' Hq. apply (go_t1 gmat omega G). apply Ha, Hq.
Qed.
Definition ramsey_pop (f : R) (q len : nat) (k : Q) : R := (/ 2 - exp (- (dephase (noise q) * (INR len * t))) * / 2 * cos (INR len * (2 * PI * f * t) + PI * Q2R k))%R.
Lemma t2star_prob qs n len k : NoDup qs -> (forall q, In q qs -> partner (noise q) = None) -> forall os, length os = length qs ->
  pcall (t2star_body qs n len k) os = pst (HF:=Fld_R) (fun j => bernoulli (ramsey_pop (offset (noise (nth j qs 0))) (nth j qs 0) len k)) os.
Proof.
  intros Hn Ha. apply (plain_prob (fun q => ramsey q len k) n (fun q => ramsey_pop (offset (noise q)) q len k) qs Hn).
  - intros q. apply nm_ramsey.
  - intros q s' Hq. pose proof (Ha q Hq) as Hp. unfold freq_of. rewrite Hp. apply (go_ramsey gmat omega G). unfold alone. rewrite Hp. discriminate.
Qed.
Definition echo_pop (q len n : nat) (alt : bool) : R := (/ 2 + exp (- (dephase (noise q) * (INR (n * (2 * len)) * t))) * / 2 * (if Nat.even (echo_ys n alt) then 1 else -1))%R.
Lemma t2_prob qs n len n_echos alt : NoDup qs -> (forall q, In q qs -> alone noise q) -> 1 <= n_echos -> forall os, length os = length qs ->
  pcall (t2_body qs n len n_echos alt) os = pst (HF:=Fld_R) (fun j => bernoulli (echo_pop (nth j qs 0) len n_echos alt)) os.
Proof.
  intros Hn Ha He. apply (plain_prob (fun q => echo q len n_echos alt) n (fun q => echo_pop q len n_echos alt) qs Hn).
  - intros q. unfold echo. apply nm_cons; [reflexivity|]. apply nm_app; [apply nm_pad|]. apply nm_app; [apply nm_cons; [reflexivity|constructor]|]. apply nm_app; [|apply nm_app; [apply nm_pad|apply nm_cons; [reflexivity|constructor]]].
    induction (seq 0 (n_echos - 1)) as [|e l IH]; [constructor|]. cbn [flat_map]. apply nm_app; [|exact IH]. apply nm_app; [apply nm_pad|]. apply nm_cons; [|constructor]. unfold echo_gate. destruct (alt && _); reflexivity.
  - intros q s' Hq. apply (go_echo gmat omega G); [apply Ha, Hq|exact He].
Qed.

(** ZZ: the spectators are flipped first, or not. *)
Lemma flip_run specs : NoDup specs -> forall s, (forall q, In q specs -> same_dm (s q) ground_dm) ->
  exists s', nrun (map (fun q => gate1 "x" [] q) specs) s = Some s' /\ (forall k, ~ In k specs -> s' k = s k) /\ forall q, In q specs -> pop (s' q) 1.
Proof.
  intros Hn s Hs. destruct (blocks_run (fun q => [gate1 "x" [] q]) (fun _ => 1%R) specs Hn s Hs) as (s' & E & K).
  - intros q s1 _ _. do 2 eexists. apply go_ground. eapply goes_ext; [intros ? ?; reflexivity| |apply (go_x gmat omega G)]. apply dmx_eq; [ring|reflexivity|reflexivity].
  - exists s'. split; [|exact K]. exact E.
Qed.
Lemma zz_prob qs specs n len k flip (sp : nat -> nat) : NoDup qs -> NoDup specs -> (forall q, In q qs -> ~ In q specs) ->
  (forall q, In q qs -> partner (noise q) = Some (sp q) /\ In (sp q) specs) -> forall os, length os = length qs ->
  pcall (zz_body qs specs n len k flip) os = pst (HF:=Fld_R) (fun j => let q := nth j qs 0 in bernoulli (ramsey_pop (offset (noise q) + (if flip then shift (noise q) else 0)) q len k)) os.
Proof.
  intros Hn Hsn Hd Hp. unfold zz_body. change ([CBarrier (seq 0 n)] ++ flat_map ?f qs ++ ?r) with ([CBarrier (seq 0 n)] ++ (flat_map f qs ++ r)).
  assert (E0 : exists s0, nrun (if flip then map (fun s => gate1 "x" [] s) specs else []) (fun _ => ground_dm) = Some s0 /\ (forall k, ~ In k specs -> s0 k = ground_dm) /\
    forall q, In q specs -> pop (s0 q) (if flip then 1 else 0)).
  { destruct flip.
    - destruct (flip_run specs Hsn (fun _ => ground_dm)) as (s' & E & K1 & K2); [intros ? _ ? ?; reflexivity|]. exists s'. auto.
    - exists (fun _ => ground_dm). split; [reflexivity|]. split; [auto|]. intros q _. split; cbn; apply injective_projections; cbn; ring. }
  destruct E0 as (s0 & E0 & K0 & P0).
  apply (block_prob _ [CBarrier (seq 0 n)] (fun q => ramsey q len k) n (fun q => ramsey_pop (offset (noise q) + (if flip then shift (noise q) else 0)) q len k) qs s0 Hn).
  - destruct flip; [|constructor]. clear. induction specs; constructor; auto.
  - repeat constructor.
  - intros q. apply nm_ramsey.
  - exact E0.
  - reflexivity.
  - intros q Hq a b. rewrite K0 by (apply Hd, Hq). reflexivity.
  - intros q s' Hq Hs'. destruct (Hp q Hq) as [Ep Hsp]. unfold freq_of. rewrite Ep. rewrite Hs' by (intros Hi; exact (Hd _ Hi Hsp)). destruct (P0 _ Hsp) as [P1 _]. rewrite P1.
    replace (offset (noise q) + shift (noise q) * Re (RtoC (if flip then 1 else 0)))%R with (offset (noise q) + (if flip then shift (noise q) else 0))%R by (destruct flip; cbn; ring).
    apply (go_ramsey gmat omega G). unfold alone. rewrite Ep. intros E. injection E as E. apply (Hd q Hq). rewrite <- E. exact Hsp.
Qed.
End Law.

(** From laws to data points. *)
Lemma exact_fraction' rs name m j o (w : nat -> bool -> R) (law : pystr -> R) : valid_run rs name m -> exact_shots rs name m law -> j < m -> (forall k, k < m -> (w k false + w k true = 1)%R) ->
  (forall os, length os = m -> law (key_of os) = pst (HF:=Fld_R) w os) ->
  (IZR (pooled rs name (bit_is j o)) / IZR (pooled rs name (fun _ => true)))%R = w j o.
Proof.
  intros Hv He Hj Hw Hl. rewrite (wsum_law m rs name (bit_is j o) law Hv He).
  assert (E : fsum (HF:=Fld_R) (map (fun os => if bit_is j o (key_of os) then law (key_of os) else 0%R) (cube m)) = w j o).
  { rewrite (fsum_map_ext (HF:=Fld_R) _ (fun x => if eqb (rd [j] x) [o] then pst (HF:=Fld_R) w x else 0%R)).
    - pose proof (sum_pst_at (HF:=Fld_R) m [j]) as S. specialize (S ltac:(repeat constructor; intros []) ltac:(repeat constructor; exact Hj) [o] w eq_refl Hw).
      change (@f0 R Fld_R) with 0%R in S. rewrite S. cbn. ring.
    - intros os Hos. apply in_cube in Hos. unfold bit_is. rewrite nth_key by lia. unfold bitch. cbn [rd map].
      rewrite Hl by exact Hos.
      destruct (eqb_spec (if nth j os false then "1"%char else "0"%char) (if o then "1"%char else "0"%char)) as [E|E], (eqb_spec [nth j os false] [o]) as [E'|E']; try reflexivity.
      + exfalso. apply E'. f_equal. destruct (nth j os false), o; congruence.
      + exfalso. apply E. injection E' as ->. reflexivity. }
  rewrite E. destruct Hv as [_ Hp]. assert (0 < IZR (pooled rs name (fun _ => true)))%R by (apply IZR_lt; exact Hp). field. lra.
Qed.

Lemma nth_dget {A} (ys : list (pystr * A)) (series : list pystr) : length ys = length series -> NoDup series -> (forall i s, nth_error series i = Some s -> exists v, nth_error ys i = Some (s, v)) ->
  forall i s v, nth_error ys i = Some (s, v) -> dget ys s = Some v.
Proof.
  intros HL Hn Hk i s v Hi. assert (E : dkeys ys = series).
  { clear Hn Hi. revert series HL Hk. induction ys as [|[k0 v0] ys IH]; intros [|s0 series] HL Hk; try discriminate; [reflexivity|]. change (k0 :: dkeys ys = s0 :: series). f_equal.
    - destruct (Hk 0 s0 eq_refl) as [v' E]. cbn in E. injection E as -> _. reflexivity.
    - apply IH; [injection HL; auto|]. intros i0 s1 H. exact (Hk (S i0) s1 H). }
  apply dget_In_NoDup; [rewrite E; exact Hn|]. apply (nth_error_In _ _ Hi).
Qed.
Lemma fitter_law m base series o xs rs (w : string -> nat -> nat -> bool -> R) (law : string -> nat -> pystr -> R) (v : string -> nat -> R -> R) : NoDup (map str series) -> xs <> [] ->
  (forall s i, In s series -> i < length xs -> valid_run rs (char_name base i s) m /\ exact_shots rs (char_name base i s) m (law s i) /\
     (forall os, length os = m -> law s i (key_of os) = pst (HF:=Fld_R) (w s i) os) /\ forall j, j < m -> (w s i j false + w s i j true = 1)%R) ->
  (forall s i j x, In s series -> j < m -> nth_error xs i = Some x -> w s i j o = v s j (Q2R x)) ->
  exists ys, calc_data (fitter_of base series (digit o) (length xs) m rs) = Ok ys /\
  forall s j, In s series -> j < m -> data_on ys (str s) j xs (v s j).
Proof.
  intros Hnd Hx H Hv. set (f := fitter_of base series (digit o) (length xs) m rs).
  destruct (calc_lemma f m o) as (ys & E & L & Hys).
  - destruct o; reflexivity.
  - apply le_n.
  - cbn. rewrite map_length, seq_length. apply le_n.
  - intros s i n Hs Hi Hn. cbn [f f_series fitter_of] in Hs. apply in_map_iff in Hs. destruct Hs as (s0 & <- & Hs).
    destruct (fitter_name base series (digit o) (length xs) m rs i s0 Hi) as (n' & En & Ec). fold f in En. rewrite En in Hn. injection Hn as <-. rewrite Ec. apply (H s0 i Hs Hi).
  - exists ys. split; [exact E|]. intros s j Hs Hj. apply In_nth_error in Hs. destruct Hs as [si Hs].
    assert (Hs' : forall si s, nth_error series si = Some s -> nth_error (f_series f) si = Some (str s)) by (intros si' s' H'; cbn [f f_series fitter_of]; rewrite nth_error_map, H'; reflexivity).
    assert (H0 : 0 < length xs) by (destruct xs; [congruence|cbn; lia]).
    destruct (fitter_name base series (digit o) (length xs) m rs 0 s H0) as (n0 & En0 & _). fold f in En0.
    destruct (Hys si (str s) j 0 n0 (Hs' _ _ Hs) Hj H0 En0) as (qs & pts & _ & _ & A & B & _ & Lq & Lp & _).
    exists qs, pts. split; [|split; [exact B|]].
    + apply (nth_dget ys (map str series)) with (i := si); [rewrite L; reflexivity|exact Hnd| |exact A].
      intros i s1 H1. destruct (Hys i s1 j 0 n0 H1 Hj H0 En0) as (qs1 & _ & _ & _ & A1 & _). exists qs1. exact A1.
    + assert (K : forall i x pe, nth_error xs i = Some x -> nth_error pts i = Some pe -> Q2R (fst pe) = v s j (Q2R x) /\ (0 < snd pe)%R).
      { intros i x pe Hi Hp. assert (Hi' : i < length xs) by (apply nth_error_Some; congruence).
        destruct (fitter_name base series (digit o) (length xs) m rs i s Hi') as (n & En & Ec). fold f in En.
        destruct (Hys si (str s) j i n (Hs' _ _ Hs) Hj Hi' En) as (qs' & pts' & p & e & A' & B' & D & _ & _ & Ep & _ & Ee & _).
        rewrite A in A'. injection A' as <-. rewrite B in B'. injection B' as <-. rewrite Hp in D. injection D as ->. cbn [fst snd]. split; [|exact Ee].
        rewrite Ec in Ep. destruct (H s i (nth_error_In _ _ Hs) Hi') as (Hvr & He & Hl & Hw).
        rewrite <- (Hv s i j x (nth_error_In _ _ Hs) Hj Hi).
        rewrite <- (exact_fraction' rs (char_name base i s) m j o (w s i) _ Hvr He Hj Hw Hl). apply Qeq_eqR in Ep. change (f_results f) with rs in Ep. rewrite Ep.
        assert (Hn0 : ~ inject_Z (pooled rs (char_name base i s) (fun _ => true)) == 0) by (destruct Hvr as [_ Hvr]; unfold inject_Z, Qeq; cbn; lia).
        unfold Qdiv. rewrite Q2R_mult, Q2R_inv by exact Hn0. unfold Q2R. cbn. unfold Rdiv. rewrite ?RMicromega.Rinv_1, ?Rmult_1_r. reflexivity. }
      assert (Lp' : length pts = length xs) by exact Lp. clear - K Lp'. revert pts K Lp'. induction xs as [|x xs IH]; intros [|pe pts] K Lp'; try discriminate; constructor.
      * exact (K 0 x pe eq_refl eq_refl).
      * apply IH; [intros i x' pe' H1 H2; exact (K (S i) x' pe' H1 H2)|injection Lp'; auto].
Qed.
