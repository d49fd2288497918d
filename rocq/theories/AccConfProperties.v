(** C84: the confidence of the accreditation fitter. *)
From Coq Require Import QArith QArith.Qcanon Reals Qreals Lqa.
From Verif Require Import LinAlg Base Cyc GateMat QSem CountsModel QcFacts DihedralModel RBSeqModel RBSeqSpec RBSeqActProofs StdGates ShotsSpec ShotsProofs AccModel AccSpec AccFitSpec AccFitProofs AccProbProofs AccTrapProofs AccErrSpec AccErrMainProofs AccErrRunProofs AccProperties AccErrProperties AccCredProofs AccCredProperties AccConfSpec AccConfProofs AccHoefProofs.
Local Open Scope list_scope.
Local Open Scope nat_scope.

(** The part of accepted runs, less theta, exceeds the probability of acceptance with
    probability at most p (1 - p) / (runs theta^2), and so at most 1 / (4 runs theta^2). *)
Theorem C84_estimate p theta runs : (0 <= p)%Qc -> (p <= 1)%Qc -> (0 < theta)%Q -> 0 < runs ->
  let P := probability (coin p) 2 runs (covers theta p runs) in
  ((1 - P) * (inject_Z (Z.of_nat runs) * (theta * theta)) <= p * (1 - p) /\ (1 - P) * ((4 # 1) * inject_Z (Z.of_nat runs) * (theta * theta)) <= 1)%Q.
Proof. exact (chebyshev_runs p theta runs). Qed.
Print Assumptions C84_estimate.

(** Hoeffding's inequality: it exceeds it with probability at most exp (- 2 theta^2 runs). *)
Theorem C84_hoeffding p theta runs : (0 <= p)%Qc -> (p <= 1)%Qc -> (0 < theta)%Q -> 0 < runs ->
  (1 - exp (- (2 * Q2R theta ^ 2 * INR runs)) <= Q2R (probability (coin p) 2 runs (covers theta p runs)))%R.
Proof. exact (hoeffding p theta runs). Qed.
Print Assumptions C84_hoeffding.

(** The confidence computed by the fitter is not reached: runs accepted with probability 1/2
    keep below it, unless runs and theta are very small.  Its exponent 2 theta runs^2 stands for
    Hoeffding's 2 theta^2 runs. *)
Theorem C84_confidence_refuted theta f f' : (theta < 1 # 2)%Q -> f_runs f <> 0 -> (0 <= f_traps f)%Z ->
  (inject_Z (Z.of_nat (f_runs f + 1)) <= (2 # 1) * theta * inject_Z (Z.of_nat (f_runs f)) * inject_Z (Z.of_nat (f_runs f)))%Q ->
  (theta < inject_Z (Z.of_nat (f_acc f)) / inject_Z (Z.of_nat (f_runs f)))%Q -> bound_variation_distance theta f = Ok f' ->
  (Q2R (probability (coin (Q2Qc (1 # 2))) 2 (f_runs f) (covers theta (Q2Qc (1 # 2)) (f_runs f))) < f_conf f')%R.
Proof. exact (confidence_wrong theta f f'). Qed.
Print Assumptions C84_confidence_refuted.

(** The bound that a new fitter computes from [runs] runs, of which those in [ys] are accepted,
    is at least [x]. *)
Definition bounds (num runs : nat) (theta x : Q) (ys : list nat) : bool :=
  match bound_variation_distance theta {| f_acc := acceptances ys; f_runs := runs; f_flag := true; f_traps := Z.of_nat num; f_bound := 1; f_conf := 1 |} with
  | Ok f' => Qle_bool x (f_bound f')
  | Err _ => false
  end.

Lemma accepted_most accepts N vs : accepted accepts N vs <= length vs * 2 ^ N.
Proof.
  unfold accepted. induction vs as [|v vs IH]; [cbn; lia|]. cbn [map list_sum fold_right length]. fold (list_sum (map (fun v => length (filter (accepts v) (cube N))) vs)).
  pose proof (AccErrShapeProofs.cube_len N) as CL. assert (length (filter (accepts v) (cube N)) <= 2 ^ N) by (rewrite <- CL; clear; induction (cube N) as [|x l IH]; [cbn; lia|cbn [filter]; destruct (accepts v x); cbn [length]; lia]). lia.
Qed.
(** With probability at least 1 - 1 / (4 runs theta^2), and at least 1 - exp (- 2 theta^2 runs),
    the bound of the fitter after independent runs is at least the probability that the target of an accepted run is struck. *)
Theorem C84_bound_holds {F} {HF : Fld F} gmat r i n tp g2 ops L num (prep : nat -> nat -> bool) (es : nat -> list error) struck :
  std_gates gmat r i -> transpiles gmat n tp -> Forall (native n) ops -> measures_all n ops -> g2 = str "cx" \/ g2 = str "cz" ->
  layer_parser tp g2 n ops = Ok L -> (forall k, length (es k) = length (ly_two L)) -> NoDup struck -> Forall (fun k => k <= num /\ erroneous n (prep k) (es k)) struck ->
  exists N accepts, decides gmat n tp L num prep es N accepts /\
    let all := accepted accepts N (seq 0 (num + 1)) in
    let p := Q2Qc (inject_Z (Z.of_nat all) / inject_Z (Z.of_nat ((num + 1) * 2 ^ N))) in
    (0 <= p)%Qc /\ (p <= 1)%Qc /\
    forall theta runs, (0 < theta)%Q -> 0 < runs ->
    let P := probability (coin p) 2 runs (bounds num runs theta (inject_Z (Z.of_nat (accepted accepts N struck)) / inject_Z (Z.of_nat all))) in
    ((1 - P) * ((4 # 1) * inject_Z (Z.of_nat runs) * (theta * theta)) <= 1)%Q /\ (1 - exp (- (2 * Q2R theta ^ 2 * INR runs)) <= Q2R P)%R.
Proof.
  intros Hs Ht Hn Hm Hg El Hes Hd He. destruct (C83_bound_holds gmat r i n tp g2 ops L num prep es struck Hs Ht Hn Hm Hg El Hes Hd He) as (N & accepts & D & _ & B).
  exists N, accepts. split; [exact D|]. intros all p.
  assert (P2 : 0 < (num + 1) * 2 ^ N) by (clear; assert (0 < 2 ^ N) by (induction N; cbn; lia); lia).
  assert (LA : all <= (num + 1) * 2 ^ N).
  { unfold all. rewrite <- (seq_length (num + 1) 0) at 2. apply accepted_most. }
  assert (LS : accepted accepts N struck <= all). { apply sum_sub; [exact Hd|]. eapply Forall_impl; [|exact He]. cbn. intros k [Hk _]. lia. }
  assert (Ep : (this p == qn all / qn ((num + 1) * 2 ^ N))%Q) by (unfold p; cbn [this Q2Qc]; apply Qred_correct).
  assert (Hp0 : (0 <= p)%Qc). { unfold Qcle. rewrite Ep. apply Qle_shift_div_l; [apply qn_pos; exact P2|]. change (this 0%Qc) with 0%Q. rewrite Qmult_0_l. change 0%Q with (qn 0). apply qn_le. lia. }
  assert (Hp1 : (p <= 1)%Qc). { unfold Qcle. rewrite Ep. apply Qle_shift_div_r; [apply qn_pos; exact P2|]. change (this 1%Qc) with 1%Q. rewrite Qmult_1_l. apply qn_le. exact LA. }
  split; [exact Hp0|]. split; [exact Hp1|]. intros theta runs Hth Hr. set (x := (inject_Z (Z.of_nat (accepted accepts N struck)) / inject_Z (Z.of_nat all))%Q).
  assert (X1 : (x <= 1)%Q).
  { unfold x. destruct (Nat.eq_dec all 0) as [Z0|Z0]; [rewrite Z0; unfold Qdiv; change (/ inject_Z (Z.of_nat 0))%Q with 0%Q; rewrite Qmult_0_r; discriminate|]. apply Qle_shift_div_r; [apply (qn_pos all); lia|]. rewrite Qmult_1_l. apply qn_le. exact LS. }
  destruct (C84_estimate p theta runs Hp0 Hp1 Hth Hr) as [_ C]. pose proof (C84_hoeffding p theta runs Hp0 Hp1 Hth Hr) as C2. cbv zeta. pose proof (coin_distribution p Hp0 Hp1) as Hq.
  assert (M : (probability (coin p) 2 runs (covers theta p runs) <= probability (coin p) 2 runs (bounds num runs theta x))%Qc).
  { apply expect_le; [exact Hq|]. intros ys _. destruct (covers theta p runs ys) eqn:Ec; [|destruct (bounds num runs theta x ys); discriminate]. replace (bounds num runs theta x ys) with true; [apply Qcle_refl|]. symmetry. unfold bounds.
    set (f := {| f_acc := acceptances ys; f_runs := runs; f_flag := true; f_traps := Z.of_nat num; f_bound := 1; f_conf := 1 |}).
    unfold covers in Ec. apply Qle_bool_iff in Ec. rewrite Ep in Ec.
    destruct (Qlt_le_dec theta (inject_Z (Z.of_nat (f_acc f)) / inject_Z (Z.of_nat (f_runs f)))) as [K|K].
    - assert (Hr0 : f_runs f <> 0) by (cbn; lia). destruct (bound_value theta f Hr0 ltac:(cbn; lia) K) as (f' & E & _). rewrite E. apply Qle_bool_iff. exact (B theta f f' Hr0 eq_refl E K Ec).
    - unfold bound_variation_distance. cbn [f_runs f_acc f_traps f_bound f] in *. destruct (Nat.eqb_spec runs 0); [lia|]. apply Qle_bool_iff in K. rewrite K. cbn [f_bound]. apply Qle_bool_iff, X1. }
  set (P1 := probability _ _ _ (covers _ _ _)) in *. set (PB := probability _ _ _ (bounds _ _ _ _)) in *. clearbody P1 PB. unfold Qcle in M. split; [|eapply Rle_trans; [exact C2|apply Qle_Rle, M]]. eapply Qle_trans; [|exact C]. apply Qmult_le_compat_r; [lra|].
  assert (0 < inject_Z (Z.of_nat runs))%Q by (apply (qn_pos runs); lia). nra.
Qed.
Print Assumptions C84_bound_holds.

(** Twenty runs accepted with probability 1/2 and theta = 1/4: the part seen is too large with
    probability at most 1/5. *)
Example C84_example_estimate : let p := Q2Qc (1 # 2) in (4 # 5 <= probability (coin p) 2 20 (covers (1 # 4) p 20))%Q.
Proof.
  intros p. destruct (C84_estimate p (1 # 4) 20 ltac:(discriminate) ltac:(discriminate) ltac:(reflexivity) ltac:(lia)) as [_ H]. set (P := probability _ _ _ _) in *. clearbody P. revert H. generalize (this P). intros q H. change (inject_Z (Z.of_nat 20)) with (20 # 1)%Q in H. lra.
Qed.
(** Two runs and theta = 9/20: three of the four equally likely outcomes are covered, but the
    confidence is more than 3/4. *)
Example C84_example_two c : let p := Q2Qc (1 # 2) in probability (coin p) 2 2 (covers (9 # 20) p 2) = Q2Qc (3 # 4) /\
  exists f', bound_variation_distance (9 # 20) {| f_acc := 2; f_runs := 2; f_flag := true; f_traps := 3; f_bound := 1; f_conf := c |} = Ok f' /\ (Q2R (3 # 4) < f_conf f')%R.
Proof.
  intros p. assert (E : probability (coin p) 2 2 (covers (9 # 20) p 2) = Q2Qc (3 # 4)) by (apply Qc_is_canon; reflexivity). split; [exact E|]. eexists. split; [reflexivity|].
  pose proof (C84_confidence_refuted (9 # 20) {| f_acc := 2; f_runs := 2; f_flag := true; f_traps := 3; f_bound := 1; f_conf := c |} _ ltac:(reflexivity) ltac:(discriminate) ltac:(discriminate) ltac:(discriminate) ltac:(reflexivity) eq_refl) as H.
  cbn [f_runs] in H. fold p in H. rewrite E in H. exact H.
Qed.
(** The circuit of C38 with three traps, all of its circuits struck: after 100 runs with theta =
    1/5 the bound is right with probability at least 15/16. *)
Example C84_example_bound_holds : let es := [fun q => (q =? 2, q =? 2); fun _ => (false, false)] in
  exists L N accepts, layer_parser (fun c => c) (str "cx") 3 ex_ops = Ok L /\ decides ex_mat 3 (fun c => c) L 3 (fun _ _ => false) (fun _ => es) N accepts /\
    let p := Q2Qc (inject_Z (Z.of_nat (accepted accepts N (seq 0 4))) / inject_Z (Z.of_nat (4 * 2 ^ N))) in
    (15 # 16 <= probability (coin p) 2 100 (bounds 3 100 (1 # 5) (inject_Z (Z.of_nat (accepted accepts N [0; 1; 2; 3]%nat)) / inject_Z (Z.of_nat (accepted accepts N (seq 0%nat 4%nat))))))%Q.
Proof.
  cbv zeta. destruct (layer_parser (fun c => c) (str "cx") 3 ex_ops) as [L|] eqn:E; [|vm_compute in E; discriminate]. assert (Hl : length (ly_two L) = 2) by (vm_compute in E; injection E as <-; reflexivity).
  assert (He : Exists (nontrivial 3) [fun q => (q =? 2, q =? 2); fun _ => (false, false)]) by (constructor; exists 2; split; [lia|discriminate]).
  destruct (C84_bound_holds ex_mat rsqrt2 (omega 2) 3 (fun c => c) (str "cx") ex_ops L 3 (fun _ _ => false) (fun _ => [fun q => (q =? 2, q =? 2); fun _ => (false, false)]) [0; 1; 2; 3] ex_std (ex_transpiles 3) ex_native ex_measures (or_introl eq_refl) E) as (N & accepts & D & B).
  - intros _. symmetry. exact Hl.
  - apply (seq_NoDup 4 0).
  - repeat (apply Forall_cons; [split; [lia|left; exact He]|]); apply Forall_nil.
  - cbv zeta in B. destruct B as (_ & _ & B). destruct (B (1 # 5)%Q 100 ltac:(reflexivity) ltac:(lia)) as [B' _]. clear B. rename B' into B. exists L, N, accepts. split; [reflexivity|]. split; [exact D|]. cbv zeta.
    change (seq 0 (3 + 1)) with (seq 0 4) in B. change (3 + 1) with 4 in B. match type of B with ((1 - this ?P) * _ <= 1)%Q => revert B; generalize (this P) end. intros x H. change (inject_Z (Z.of_nat 100)) with (100 # 1)%Q in H. lra.
Qed.
