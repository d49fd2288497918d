(** The complete mitigator (C32). *)
From Coq Require Import QArith QArith.Qcanon Lqa Btauto.
From Verif Require Import LinAlg Base ResultFacts CountsModel CountsSpec CountsProofs QcFacts ExpvalModel ExpvalSpec
  ExpvalProofs ExpvalVecProofs ExpvalTensProofs ExpvalGammaProofs.
Open Scope nat_scope.

(** ** Indices of subsets *)
Lemma spread_fun qs i x x' : spread qs i x -> spread qs i x' -> x = x'.
Proof.
  intros [H1 H2] [H1' H2']. apply Nat.bits_inj. intros b. destruct (in_dec Nat.eq_dec b qs) as [Hi|Hi].
  - apply In_nth_error in Hi. destruct Hi as (j & Hj). rewrite (H1 j b Hj), (H1' j b Hj). reflexivity.
  - rewrite H2, H2' by exact Hi. reflexivity.
Qed.

Lemma keep_fold asc : NoDup asc -> let idx := fold_left (fun idx i => idx ++ map (fun x => x + 2 ^ i) idx) asc [0] in
  length idx = 2 ^ length asc /\ forall i, i < 2 ^ length asc -> spread asc i (nth i idx 0).
Proof.
  cbv zeta. induction asc as [|q l IH] using rev_ind; intros Hnd.
  - cbn. split; [reflexivity|]. intros i Hi. replace i with 0 by lia. split; [intros [|] ? ?; discriminate|]. intros q _. apply Nat.bits_0.
  - assert (Hnd' : NoDup (q :: l)) by (eapply Permutation_NoDup; [|exact Hnd]; apply Permutation_sym, Permutation_cons_append).
    apply NoDup_cons_iff in Hnd'. destruct Hnd' as [Hq Hl]. destruct (IH Hl) as [Hlen Hs]. clear IH.
    rewrite fold_left_app. cbn [fold_left]. set (idx := fold_left _ l [0]) in *.
    rewrite !app_length, map_length, Hlen. cbn [length]. rewrite Nat.add_1_r. cbn [Nat.pow]. split; [lia|].
    assert (Hbit : forall i j (b : bool), i < 2 ^ length l -> Nat.testbit (i + (if b then 2 ^ length l else 0)) j
                 = if j =? length l then b else Nat.testbit i j).
    { intros i j b Hi. assert (Hf : Nat.testbit i (length l) = false) by (apply testbit_lt with (length l); [exact Hi | lia]).
      destruct b; [rewrite Nat.add_comm, testbit_add_pow2 by exact Hf; rewrite (Nat.eqb_sym (length l)); destruct (Nat.eqb_spec j (length l)) as [->|]; [rewrite Hf|]; cbn; btauto
                  | rewrite Nat.add_0_r; destruct (Nat.eqb_spec j (length l)) as [->|]; auto]. }
    assert (Hgen : forall i (b : bool) x, i < 2 ^ length l -> spread l i x ->
              spread (l ++ [q]) (i + (if b then 2 ^ length l else 0)) (x + (if b then 2 ^ q else 0))).
    { intros i b x Hi [S1 S2]. assert (Hf : Nat.testbit x q = false) by (apply S2, Hq).
      assert (Hx : forall p, Nat.testbit (x + (if b then 2 ^ q else 0)) p = if p =? q then b else Nat.testbit x p).
      { intros p. destruct b; [rewrite Nat.add_comm, testbit_add_pow2 by exact Hf; rewrite (Nat.eqb_sym q); destruct (Nat.eqb_spec p q) as [->|]; [rewrite Hf|]; cbn; btauto
                              | rewrite Nat.add_0_r; destruct (Nat.eqb_spec p q) as [->|]; auto]. }
      split.
      - intros j p Hj. rewrite Hx, Hbit by exact Hi. destruct (Nat.lt_ge_cases j (length l)) as [Hjl|Hjl].
        + rewrite nth_error_app1 in Hj by exact Hjl. destruct (Nat.eqb_spec j (length l)); [lia|].
          destruct (Nat.eqb_spec p q) as [->|]; [exfalso; apply Hq; eapply nth_error_In; eauto|]. apply S1, Hj.
        + rewrite nth_error_app2 in Hj by exact Hjl. destruct (j - length l) as [|k] eqn:Ek; [|destruct k; discriminate].
          injection Hj as <-. rewrite Nat.eqb_refl. replace j with (length l) by lia. rewrite Nat.eqb_refl. reflexivity.
      - intros p Hp. rewrite Hx. destruct (Nat.eqb_spec p q) as [->|Hn]; [exfalso; apply Hp, in_app_iff; right; left; reflexivity|].
        apply S2. intros H. apply Hp, in_app_iff. left. exact H. }
    intros i Hi. destruct (Nat.lt_ge_cases i (2 ^ length l)) as [Hlt|Hge].
    + rewrite app_nth1 by lia. specialize (Hgen i false (nth i idx 0) Hlt (Hs i Hlt)). cbv iota in Hgen. rewrite !Nat.add_0_r in Hgen. exact Hgen.
    + rewrite app_nth2 by lia. rewrite Hlen. set (k := i - 2 ^ length l). assert (Hk : k < 2 ^ length l) by lia.
      specialize (Hgen k true (nth k idx 0) Hk (Hs k Hk)). cbv iota in Hgen. replace (k + 2 ^ length l) with i in Hgen by lia.
      rewrite nth_indep with (d' := 0 + 2 ^ q) by (rewrite map_length; lia).
      rewrite (map_nth (fun x => x + 2 ^ q)). exact Hgen.
Qed.

Lemma gather_bit rem i j : Nat.testbit (gather rem i) j = match nth_error rem j with Some q => Nat.testbit i q | None => false end.
Proof.
  revert j; induction rem as [|q rem IH]; intros j; cbn [gather].
  - rewrite Nat.bits_0. destruct j; reflexivity.
  - destruct j as [|j]; cbn [nth_error].
    + rewrite Nat.add_comm. rewrite Nat.testbit_0_r. reflexivity.
    + rewrite Nat.add_comm, Nat.testbit_succ_r. apply IH.
Qed.
Lemma gather_lt rem i : gather rem i < 2 ^ length rem.
Proof.
  apply lt_testbit. intros b Hb. rewrite gather_bit. destruct (nth_error rem b) eqn:E; [|reflexivity].
  assert (b < length rem) by (apply nth_error_Some; congruence). lia.
Qed.
Lemma agrees_spec qs y r : agrees qs y r = true <-> (forall j q, nth_error qs j = Some q -> Nat.testbit y q = Nat.testbit r j).
Proof.
  unfold agrees. rewrite forallb_forall. split.
  - intros H j q Hj. assert (Hl : j < length qs) by (apply nth_error_Some; congruence).
    specialize (H j ltac:(apply in_seq; lia)). apply Bool.eqb_prop in H. rewrite <- H. f_equal. symmetry.
    apply nth_error_nth with (d := 0) in Hj. exact Hj.
  - intros H j Hj. apply in_seq in Hj. rewrite (H j (nth j qs 0)); [apply Bool.eqb_reflx|]. apply nth_error_nth'. lia.
Qed.
Lemma gather_agrees rem y r : r < 2 ^ length rem -> (gather rem y =? r) = agrees rem y r.
Proof.
  intros Hr. apply Bool.eq_iff_eq_true. rewrite Nat.eqb_eq, agrees_spec. split.
  - intros <- j q Hj. rewrite gather_bit, Hj. reflexivity.
  - intros H. apply testbit_ext with (length rem); [apply gather_lt | exact Hr|]. intros b Hb. rewrite gather_bit.
    destruct (nth_error rem b) as [q|] eqn:E; [apply H, E|]. apply nth_error_None in E. lia.
Qed.

Lemma filter_seq_asc asc N : StronglySorted lt asc -> (forall q, In q asc -> q < N) -> filter (fun q => mem q asc) (seq 0 N) = asc.
Proof.
  intros Hs Hlt. apply sorted_le_unique.
  - apply sorted_lt_le. assert (G : forall k m, StronglySorted lt (filter (fun q => mem q asc) (seq k m))).
    { intros k m; revert k; induction m as [|m IH]; intros k; cbn [seq filter]; [constructor|].
      destruct (mem k asc); [|apply IH]. constructor; [apply IH|]. apply Forall_forall. intros x Hx. apply filter_In in Hx.
      destruct Hx as [Hx _]. apply in_seq in Hx. lia. }
    apply G.
  - apply sorted_lt_le, Hs.
  - apply NoDup_Permutation; [apply NoDup_filter, seq_NoDup | apply asc_NoDup, Hs|]. intros x. rewrite filter_In, in_seq. split.
    + intros [_ H]. apply mem_In, H.
    + intros H. split; [specialize (Hlt x H); lia | apply mem_In, H].
Qed.

Lemma sort_asc_ok asc qs : increasing_version asc qs -> sort_asc qs = asc.
Proof. intros H. unfold sort_asc. rewrite (sort_desc_asc asc qs H). apply rev_involutive. Qed.
Lemma increasing_self asc qs : increasing_version asc qs -> increasing_version asc asc.
Proof. intros [H _]. split; [exact H | reflexivity]. Qed.
Lemma increasing_seq n : increasing_version (seq 0 n) (seq 0 n).
Proof.
  split; [|reflexivity]. assert (G : forall k, StronglySorted lt (seq k n)); [|apply G].
  induction n as [|n IH]; intros k; cbn; constructor; [apply IH|]. apply Forall_forall. intros x Hx. apply in_seq in Hx. lia.
Qed.

Lemma spread_lt qs N i x : (forall q, In q qs -> q < N) -> spread qs i x -> x < 2 ^ N.
Proof.
  intros Hq [_ H]. apply lt_testbit. intros b Hb. apply H. intros Hi. specialize (Hq b Hi). lia.
Qed.

Lemma complete_assignment_lemma cm asc qs : increasing_version asc qs -> (forall q, In q qs -> q < cm_n cm) ->
  exists S, complete_assignment cm (Some qs) = Ok (2 ^ length qs, S) /\ is_marginal (cm_n cm) (cm_amat cm) asc S.
Proof.
  intros Ha Hq. pose proof Ha as [Hs Hp]. pose proof (asc_NoDup asc Hs) as Hnd. cbn [complete_assignment].
  assert (Hqa : forall q, In q asc -> q < cm_n cm) by (intros q Hin; apply Hq; eapply Permutation_in; eauto).
  assert (Hl : length asc = length qs) by (apply Permutation_length, Hp).
  assert (Hrem : filter (fun q => mem q qs) (seq 0 (cm_n cm)) = asc).
  { rewrite (filter_ext _ (fun q => mem q asc)); [apply filter_seq_asc; assumption|]. intros q.
    apply Bool.eq_iff_eq_true. rewrite !mem_In. split; apply Permutation_in; [apply Permutation_sym|]; exact Hp. }
  rewrite Hrem, Hl, Nat.eqb_refl. unfold keep_indexes. rewrite (sort_asc_ok asc qs Ha).
  destruct (keep_fold asc Hnd) as [Hkl Hks]. set (keep := fold_left _ asc [0]) in *.
  assert (Hb : forallb (fun i => i <? 2 ^ cm_n cm) keep = true).
  { apply forallb_forall. intros x Hx. apply Nat.ltb_lt. apply In_nth with (d := 0) in Hx. destruct Hx as (i & Hi & <-).
    rewrite Hkl in Hi. apply spread_lt with asc i; [exact Hqa | apply Hks, Hi]. }
  rewrite Hb. eexists. split; [reflexivity|]. intros y x X Hy Hx HX.
  rewrite (spread_fun asc x X (nth x keep 0) HX (Hks x Hx)). unfold sum_axes, marginal_entry, sum_lt.
  apply qsum_ext. intros i _. rewrite gather_agrees by exact Hy. reflexivity.
Qed.

(** ** Rearranging *)
Lemma rearranged_agrees asc qs y y' Y : increasing_version asc qs -> rearranged asc qs y y' -> agrees qs Y y' = agrees asc Y y.
Proof.
  intros [_ Hp] Hr. apply Bool.eq_iff_eq_true. rewrite !agrees_spec. split; intros H j q Hj.
  - assert (Hin : In q qs) by (eapply Permutation_in; [exact Hp | eapply nth_error_In; eauto]).
    apply In_nth_error in Hin. destruct Hin as (p & Hpq). rewrite (H p q Hpq). symmetry. eapply Hr; eauto.
  - assert (Hin : In q asc) by (eapply Permutation_in; [apply Permutation_sym, Hp | eapply nth_error_In; eauto]).
    apply In_nth_error in Hin. destruct Hin as (p & Hpq). rewrite (H p q Hpq). eapply Hr; eauto.
Qed.
Lemma rearranged_spread asc qs x x' X : increasing_version asc qs -> rearranged asc qs x x' -> spread asc x X -> spread qs x' X.
Proof.
  intros [_ Hp] Hr [S1 S2]. split.
  - intros j q Hj. assert (Hin : In q asc) by (eapply Permutation_in; [apply Permutation_sym, Hp | eapply nth_error_In; eauto]).
    apply In_nth_error in Hin. destruct Hin as (p & Hpq). rewrite (S1 p q Hpq). eapply Hr; eauto.
  - intros q Hq. apply S2. intros H. apply Hq. eapply Permutation_in; eauto.
Qed.
Lemma marginal_rearranged asc qs N a y y' X : increasing_version asc qs -> rearranged asc qs y y' ->
  marginal_entry N a qs y' X = marginal_entry N a asc y X.
Proof. intros Ha Hr. apply qsum_ext. intros Y _. rewrite (rearranged_agrees asc qs y y' Y Ha Hr). reflexivity. Qed.

(** [sigma] lists the rearranged index of every index. *)
Definition sigma (asc qs : list nat) (i : nat) : nat :=
  psum (seq 0 (length qs)) (fun p => match list_index asc (nth p qs 0) with Some j => Nat.testbit i j | None => false end).

Lemma list_index_at (asc : list nat) j q : NoDup asc -> nth_error asc j = Some q -> list_index asc q = Some j.
Proof.
  revert j; induction asc as [|a asc IH]; intros j Hnd Hj; [destruct j; discriminate|]. apply NoDup_cons_iff in Hnd. destruct Hnd as [Ha Hnd].
  cbn [list_index]. destruct j as [|j]; cbn [nth_error] in Hj.
  - injection Hj as ->. destruct (eqb_spec q q); [reflexivity | congruence].
  - destruct (eqb_spec a q) as [E|_]; [exfalso; apply Ha; rewrite E; eapply nth_error_In; eauto|].
    rewrite (IH j Hnd Hj). reflexivity.
Qed.

Lemma sigma_rearranged asc qs i : increasing_version asc qs -> rearranged asc qs i (sigma asc qs i).
Proof.
  intros [Hs Hp] j p q Hj Hpq. assert (Hpl : p < length qs) by (apply nth_error_Some; congruence).
  unfold sigma. replace p with (nth p (seq 0 (length qs)) 0) at 1 by (rewrite seq_nth by exact Hpl; lia).
  rewrite psum_bit; [|apply seq_NoDup | rewrite seq_length; exact Hpl].
  apply nth_error_nth with (d := 0) in Hpq. rewrite Hpq, (list_index_at asc j q (asc_NoDup asc Hs) Hj). reflexivity.
Qed.
Lemma sigma_lt asc qs i : sigma asc qs i < 2 ^ length qs.
Proof. unfold sigma. apply lt_testbit. intros b Hb. apply psum_bit_out; [apply seq_NoDup|]. rewrite in_seq. lia. Qed.
Lemma sigma_inj asc qs i k : increasing_version asc qs -> i < 2 ^ length qs -> k < 2 ^ length qs ->
  sigma asc qs i = sigma asc qs k -> i = k.
Proof.
  intros Ha Hi Hk E. pose proof Ha as [Hs Hp]. apply testbit_ext with (length qs); [exact Hi | exact Hk|]. intros b Hb.
  rewrite <- (Permutation_length Hp) in Hb. destruct (nth_error asc b) as [q|] eqn:Eq; [|apply nth_error_None in Eq; lia].
  assert (Hin : In q qs) by (eapply Permutation_in; [exact Hp | eapply nth_error_In; eauto]).
  apply In_nth_error in Hin. destruct Hin as (p & Hpq).
  rewrite (sigma_rearranged asc qs i Ha b p q Eq Hpq), (sigma_rearranged asc qs k Ha b p q Eq Hpq), E. reflexivity.
Qed.
Lemma sigma_perm asc qs : increasing_version asc qs ->
  Permutation (map (sigma asc qs) (seq 0 (2 ^ length qs))) (seq 0 (2 ^ length qs)).
Proof.
  intros Ha. apply NoDup_Permutation_bis.
  - apply NoDup_map_inj_in; [apply seq_NoDup|]. intros a b H1 H2. apply in_seq in H1, H2. apply sigma_inj; [exact Ha | lia | lia].
  - rewrite map_length. lia.
  - intros x Hx. apply in_map_iff in Hx. destruct Hx as (i & <- & _). apply in_seq. pose proof (sigma_lt asc qs i). lia.
Qed.
Lemma qsum_perm (l l' : list Qc) : Permutation l l' -> fsum l = fsum l'.
Proof. induction 1; rewrite ?qsum_cons; try congruence. ring. Qed.
Lemma sum_sigma asc qs n (f : nat -> Qc) : increasing_version asc qs -> length qs = n ->
  sum_lt (2 ^ n) (fun i => f (sigma asc qs i)) = sum_lt (2 ^ n) f.
Proof.
  intros Ha <-. unfold sum_lt. rewrite <- (map_map (sigma asc qs) f). apply qsum_perm, Permutation_map, sigma_perm, Ha.
Qed.
Lemma rearranged_fun asc qs i i' k : increasing_version asc qs -> i' < 2 ^ length qs -> k < 2 ^ length qs ->
  rearranged asc qs i i' -> rearranged asc qs i k -> i' = k.
Proof.
  intros [_ Hp] Hi Hk H1 H2. apply testbit_ext with (length qs); [exact Hi | exact Hk|]. intros p Hl.
  destruct (nth_error qs p) as [q|] eqn:Eq; [|apply nth_error_None in Eq; lia].
  assert (Hin : In q asc) by (eapply Permutation_in; [apply Permutation_sym, Hp | eapply nth_error_In; eauto]).
  apply In_nth_error in Hin. destruct Hin as (j & Hj). rewrite <- (H1 j p q Hj Eq). apply (H2 j p q Hj Eq).
Qed.

(** ** Expectation value *)
Lemma dotp_vec n (g : nat -> Qc) vec : length vec = 2 ^ n -> dotp (map g (seq 0 (2 ^ n))) vec = Ok (sum_lt (2 ^ n) (fun y => g y * nth y vec 0)%Qc).
Proof.
  intros Hl. rewrite (list_eq_map_nth vec (fun i => nth i vec 0%Qc) 0%Qc (2 ^ n) Hl ltac:(reflexivity)) at 1. apply dotp_map.
Qed.

Section WithInv.
Variable inv : nat -> qmat -> option qmat.
Variable pinv : nat -> qmat -> qmat.

(** numpy's inverse of the marginal matrix exists and is an inverse. *)
Definition finds_inverse (N : nat) (a : nat -> nat -> Qc) (asc : list nat) : Prop :=
  forall S, is_marginal N a asc S ->
  exists B, inv (2 ^ length asc) S = Some B /\ left_inverse (2 ^ length asc) B S.

Lemma complete_core cm asc qs n vec d T p :
  increasing_version asc qs -> length qs = n -> (forall q, In q qs -> q < cm_n cm) ->
  finds_inverse (cm_n cm) (cm_amat cm) asc -> length vec = 2 ^ n -> length d = 2 ^ n ->
  (forall S y, is_marginal (cm_n cm) (cm_amat cm) asc S -> y < 2 ^ n -> nth y vec 0%Qc = sum_lt (2 ^ n) (fun x => S y x * p x)%Qc) ->
  exists v, (do dm <- complete_mitigation inv pinv cm (Some qs);
    let '(dd, m) := dm in
    do coeffs <- mapM (fun j => dotp (map (fun i => m i j) (seq 0 dd)) d) (seq 0 dd);
    expval_with_stddev coeffs (Some vec) T) = Ok (Some (sum_lt (2 ^ n) (fun x => nth x d 0 * p x)%Qc), v) /\ (0 <= v)%Qc.
Proof.
  intros Ha Hl Hq Hinv Hvec Hd Hp. unfold complete_mitigation. rewrite (sort_asc_ok asc qs Ha).
  pose proof Ha as [_ Hperm]. assert (Hla : length asc = n) by (rewrite <- Hl; apply Permutation_length, Hperm).
  destruct (complete_assignment_lemma cm asc asc (increasing_self _ _ Ha)) as (S & HS & HM).
  { intros q Hin. apply Hq. eapply Permutation_in; eauto. }
  rewrite HS. cbn [bind]. destruct (Hinv S HM) as (B & HB & HL). rewrite Hla in *. rewrite HB.
  set (g := fun j => sum_lt (2 ^ n) (fun i => B i j * nth i d 0)%Qc).
  assert (Hc : mapM (fun j => dotp (map (fun i => B i j) (seq 0 (2 ^ n))) d) (seq 0 (2 ^ n)) = Ok (map g (seq 0 (2 ^ n)))).
  { apply mapM_ok. intros j _. apply dotp_vec, Hd. }
  rewrite Hc. cbn [bind].
  destruct (expval_with_stddev (map g (seq 0 (2 ^ n))) (Some vec) T) as [[e v]|] eqn:E.
  - exists v. split; [|apply (expval_sd_nonneg _ _ _ _ _ E)].
    unfold expval_with_stddev in E. rewrite (dotp_vec n g vec Hvec) in E. cbn [bind] in E.
    match type of E with bind ?m _ = _ => destruct m as [sq|] end; cbn [bind] in E; [|discriminate].
    injection E as <- <-. f_equal. f_equal. f_equal.
    transitivity (sum_lt (2 ^ n) (fun y => sum_lt (2 ^ n) (fun i => sum_lt (2 ^ n) (fun x => nth i d 0 * p x * (B i y * S y x))%Qc))).
    { apply qsum_ext. intros y Hy. apply in_seq in Hy. rewrite (Hp S y HM) by lia. unfold g.
      unfold sum_lt at 1 3. rewrite <- qsum_mul_r. apply qsum_ext. intros i _. unfold sum_lt. rewrite <- qsum_mul. apply qsum_ext. intros; ring. }
    unfold sum_lt. rewrite qsum_swap. apply qsum_ext. intros i Hi. rewrite qsum_swap.
    transitivity (fsum (map (fun x => if eqb i x then (nth i d 0 * p x)%Qc else 0%Qc) (seq 0 (2 ^ n)))).
    + apply qsum_ext. intros x Hx. apply in_seq in Hx. apply in_seq in Hi. rewrite qsum_mul. 
      specialize (HL i x ltac:(lia) ltac:(lia)). unfold sum_lt in HL. rewrite HL. change (eqb i x) with (i =? x). destruct (_ =? _); ring.
    + rewrite (qsum_pick (seq 0 (2 ^ n)) i (fun x => (nth i d 0 * p x)%Qc)); [reflexivity | apply seq_NoDup | exact Hi].
  - exfalso. unfold expval_with_stddev in E. rewrite (dotp_vec n g vec Hvec) in E. cbn [bind] in E.
    rewrite map_map, (dotp_vec n (fun x => (g x * g x)%Qc) vec Hvec) in E. discriminate.
Qed.

Lemma complete_exact_lemma cm asc qs n c diag clbits sel p M d' :
  well_formed n c clbits sel -> total c <> 0%Z ->
  increasing_version asc qs -> length qs = n -> (forall q, In q qs -> q < cm_n cm) ->
  is_marginal (cm_n cm) (cm_amat cm) qs M -> finds_inverse (cm_n cm) (cm_amat cm) asc ->
  (forall d, diag = Some d -> length d = 2 ^ n) ->
  as_listed asc qs n (fun i => nth i (the_diagonal diag n) 0%Qc) d' ->
  (forall y, y < 2 ^ n -> freq c sel y = sum_lt (2 ^ n) (fun x => M y x * p x)%Qc) ->
  exists v, complete_expectation inv pinv cm c diag (Some qs) clbits = Ok (Some (sum_lt (2 ^ n) (fun x => d' x * p x)%Qc), v) /\ (0 <= v)%Qc.
Proof.
  intros Hw HT Ha Hl Hq HM Hinv Hd Hd' Hp. unfold complete_expectation.
  destruct (counts_vector_remap n c clbits sel qs asc Hw HT Ha Hl) as (vec & Hv & Hlv & Hvec).
  rewrite Hv. cbn [bind pv_n pv_vec pv_shots]. rewrite Hl, Nat.eqb_refl. fold (the_diagonal diag n).
  pose proof (sigma_lt asc qs) as Hsl. rewrite Hl in Hsl.
  destruct (complete_core cm asc qs n vec (the_diagonal diag n) (total c) (fun i => p (sigma asc qs i)) Ha Hl Hq Hinv Hlv (the_diagonal_length diag n Hd))
    as (v & E & H0).
  - intros S y HS Hy. rewrite (Hvec y (sigma asc qs y) Hy (Hsl y) (sigma_rearranged asc qs y Ha)), Hp by apply Hsl.
    rewrite <- (sum_sigma asc qs n _ Ha Hl). apply qsum_ext. intros x Hx. apply in_seq in Hx. f_equal.
    pose proof Ha as [Hs Hperm]. assert (Hla : length asc = n) by (rewrite <- Hl; apply Permutation_length, Hperm).
    destruct (keep_fold asc (asc_NoDup asc Hs)) as [_ Hk]. rewrite Hla in Hk. specialize (Hk x ltac:(lia)).
    set (X := nth x _ 0) in Hk. rewrite (HS y x X); [|rewrite Hla; lia | rewrite Hla; lia | exact Hk].
    rewrite (HM (sigma asc qs y) (sigma asc qs x) X); [|rewrite Hl; apply Hsl | rewrite Hl; apply Hsl
      | apply (rearranged_spread asc qs x _ X Ha (sigma_rearranged asc qs x Ha) Hk)].
    apply (marginal_rearranged asc qs _ _ y _ X Ha (sigma_rearranged asc qs y Ha)).
  - exists v. split; [|exact H0]. rewrite E. f_equal. f_equal. f_equal.
    rewrite <- (sum_sigma asc qs n (fun x => (d' x * p x)%Qc) Ha Hl). apply qsum_ext. intros x Hx. apply in_seq in Hx. f_equal.
    symmetry. apply Hd'; [lia | apply Hsl | apply sigma_rearranged, Ha].
Qed.

Lemma complete_exact_none cm n c diag clbits sel p M :
  well_formed n c clbits sel -> total c <> 0%Z -> n <= cm_n cm ->
  is_marginal (cm_n cm) (cm_amat cm) (seq 0 n) M -> finds_inverse (cm_n cm) (cm_amat cm) (seq 0 n) ->
  (forall d, diag = Some d -> length d = 2 ^ n) ->
  (forall y, y < 2 ^ n -> freq c sel y = sum_lt (2 ^ n) (fun x => M y x * p x)%Qc) ->
  exists v, complete_expectation inv pinv cm c diag None clbits
    = Ok (Some (sum_lt (2 ^ n) (fun x => nth x (the_diagonal diag n) 0 * p x)%Qc), v) /\ (0 <= v)%Qc.
Proof.
  intros Hw HT Hn HM Hinv Hd Hp. unfold complete_expectation. rewrite (counts_vector_plain n c clbits sel Hw HT).
  cbn [bind pv_n pv_vec pv_shots]. rewrite seq_length, Nat.eqb_refl. fold (the_diagonal diag n).
  apply (complete_core cm (seq 0 n) (seq 0 n) n (map (freq c sel) (seq 0 (2 ^ n))) (the_diagonal diag n) (total c) p).
  - apply increasing_seq.
  - apply seq_length.
  - intros q Hq. apply in_seq in Hq. lia.
  - exact Hinv.
  - rewrite map_length, seq_length. reflexivity.
  - apply the_diagonal_length, Hd.
  - intros S y HS Hy. rewrite nth_indep with (d' := freq c sel 0) by (rewrite map_length, seq_length; exact Hy).
    rewrite (map_nth (freq c sel)), seq_nth by exact Hy. cbn [Nat.add]. rewrite Hp by exact Hy.
    apply qsum_ext. intros x Hx. apply in_seq in Hx. f_equal.
    destruct (keep_fold (seq 0 n) (seq_NoDup n 0)) as [_ Hk]. rewrite seq_length in Hk. specialize (Hk x ltac:(lia)).
    set (X := nth x _ 0) in Hk.
    rewrite (HM y x X), (HS y x X); try rewrite seq_length; try lia; try exact Hk. reflexivity.
Qed.
End WithInv.

(** A sorted list is read as it stands; the parity does not depend on the order. *)
Lemma rearranged_self asc i i' : i < 2 ^ length asc -> i' < 2 ^ length asc -> NoDup asc -> rearranged asc asc i i' -> i = i'.
Proof.
  intros Hi Hi' Hnd H. apply testbit_ext with (length asc); [exact Hi | exact Hi'|]. intros b Hb.
  destruct (nth_error asc b) as [q|] eqn:E; [|apply nth_error_None in E; lia]. apply (H b b q E E).
Qed.

Lemma qprod_perm (l l' : list Qc) : Permutation l l' -> fprod l = fprod l'.
Proof. induction 1; rewrite ?qprod_cons; try congruence. ring. Qed.

Lemma parity_bits (l : list nat) (i : nat) (f : nat -> bool) :
  (forall j, j < length l -> Nat.testbit i j = f (nth j l 0)) ->
  z_parity_index (length l) i = fprod (map (fun q => if f q then Qcopp 1 else 1%Qc) l).
Proof.
  intros H. unfold z_parity_index. rewrite <- (map_nth_seq l 0) at 2. rewrite map_map. f_equal. apply map_ext_in. intros j Hj.
  apply in_seq in Hj. rewrite H by lia. reflexivity.
Qed.

Lemma parity_rearranged asc qs i i' : increasing_version asc qs -> rearranged asc qs i i' ->
  z_parity_index (length qs) i = z_parity_index (length qs) i'.
Proof.
  intros [Hs Hp] Hr. pose proof (asc_NoDup asc Hs) as Hnd. assert (Hl : length asc = length qs) by (apply Permutation_length, Hp).
  set (f := fun q => match list_index asc q with Some j => Nat.testbit i j | None => false end).
  rewrite (parity_bits qs i' f).
  - rewrite <- Hl, (parity_bits asc i f).
    + apply qprod_perm, Permutation_map, Hp.
    + intros j Hj. unfold f. rewrite (list_index_at asc j _ Hnd); [reflexivity|]. apply nth_error_nth', Hj.
  - intros p Hpl. assert (Ep : nth_error qs p = Some (nth p qs 0)) by (apply nth_error_nth', Hpl).
    assert (Hin : In (nth p qs 0) asc) by (eapply Permutation_in; [apply Permutation_sym, Hp | eapply nth_error_In; eauto]).
    apply In_nth_error in Hin. destruct Hin as (j & Hj). unfold f. rewrite (list_index_at asc j _ Hnd Hj).
    symmetry. eapply Hr; eauto.
Qed.

(** ** Gamma *)
Lemma max_fold (l : list Qc) x : let m := fold_left Qc_max l x in
  (x <= m)%Qc /\ (forall y, In y l -> (y <= m)%Qc) /\ (m = x \/ In m l).
Proof.
  cbv zeta. revert x; induction l as [|a l IH]; intros x; cbn [fold_left].
  - split; [apply Qcle_refl|]. split; [intros y []|]. left; reflexivity.
  - destruct (IH (Qc_max x a)) as (H1 & H2 & H3).
    assert (Hx : (x <= Qc_max x a)%Qc) by (unfold Qc_max; destruct (Qclt_le_dec x a); [apply Qclt_le_weak; assumption | apply Qcle_refl]).
    assert (Ha : (a <= Qc_max x a)%Qc) by (unfold Qc_max; destruct (Qclt_le_dec x a); [apply Qcle_refl | assumption]).
    split; [eapply Qcle_trans; eauto|]. split.
    + intros y [<-|Hy]; [eapply Qcle_trans; eauto | apply H2, Hy].
    + destruct H3 as [H3|H3]; [|right; right; exact H3]. rewrite H3. unfold Qc_max.
      destruct (Qclt_le_dec x a); [right; left; reflexivity | left; reflexivity].
Qed.

Lemma complete_gamma_lemma inv pinv cm asc qubits :
  match qubits with Some qs => increasing_version asc qs | None => asc = seq 0 (cm_n cm) end ->
  (forall q, In q asc -> q < cm_n cm) -> finds_inverse inv (cm_n cm) (cm_amat cm) asc ->
  exists g M B, complete_gamma inv pinv cm qubits = Ok g /\ is_marginal (cm_n cm) (cm_amat cm) asc M /\
    left_inverse (2 ^ length asc) B M /\ max_column_sum (2 ^ length asc) B g.
Proof.
  intros Hq Hlt Hinv. unfold complete_gamma, complete_mitigation.
  assert (Hs : match qubits with Some qs => sort_asc qs | None => seq 0 (cm_n cm) end = asc).
  { destruct qubits as [qs|]; [apply sort_asc_ok, Hq | symmetry; exact Hq]. }
  assert (Ha : increasing_version asc asc) by (destruct qubits as [qs|]; [apply (increasing_self _ _ Hq) | rewrite Hq; apply increasing_seq]).
  assert (E : match qubits with None => seq 0 (cm_n cm) | Some qs => sort_asc qs end = asc) by (destruct qubits; exact Hs).
  rewrite E. destruct (complete_assignment_lemma cm asc asc Ha Hlt) as (S & HS & HM). rewrite HS. cbn [bind].
  destruct (Hinv S HM) as (B & HB & HL). rewrite HB.
  set (col := fun j => fsum (map (fun i => Qc_abs (B i j)) (seq 0 (2 ^ length asc)))).
  eexists. exists S, B. split; [reflexivity|]. split; [exact HM|]. split; [exact HL|].
  destruct (max_fold (map col (seq 1 (2 ^ length asc - 1))) (col 0)) as (H1 & H2 & H3).
  assert (Hd : 1 <= 2 ^ length asc) by (pose proof (Nat.pow_nonzero 2 (length asc)); lia).
  split.
  - destruct H3 as [H3|H3].
    + exists 0. split; [lia|]. symmetry. exact H3.
    + apply in_map_iff in H3. destruct H3 as (j & Hj & Hin). apply in_seq in Hin. exists j. split; [lia | exact Hj].
  - intros j Hj. change (sum_lt _ _) with (col j). destruct j as [|j]; [exact H1|]. apply H2, in_map, in_seq. lia.
Qed.
