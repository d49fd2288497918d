(** C77: what a mitigated expectation value of random shots tells. *)
From Coq Require Import QArith QArith.Qcanon.
From Verif Require Import LinAlg Base CountsModel CountsSpec CountsProofs QcFacts ExpvalModel ExpvalSpec ExpvalTensProofs ExpvalCompProofs ShotsSpec Shots2Proofs.
Local Open Scope string_scope.
Local Open Scope list_scope.
Local Open Scope nat_scope.

(** A register with outcome probabilities [p] is read [N] times; every readout is
    random, its errors following the readout matrix.  The tensored mitigator was
    built from that matrix, the observable lies between -1 and 1 and gamma is what
    the mitigator reports.  Then the value it returns is unbiased, its squared
    distance from the true value is on average at most the square of
    [stddev_upper_bound], and the deviation returned with the value is never
    above that bound. *)
Theorem C77_unbiased pinv2 amats ms diag qubits n clbits sel p g N dict :
  selected amats qubits ms -> length ms = n -> Forall stochastic2 ms -> Forall low_error ms ->
  (forall d, diag = Some d -> length d = 2 ^ n) -> (forall x, x < 2 ^ n -> (abs_of (diag_entry diag n x) <= 1)%Qc) ->
  distribution (2 ^ n) p -> tensored_gamma (tensored_init pinv2 amats) qubits = Ok (Some g) -> 0 < N ->
  (forall ys, outcomes n N ys -> counts_shots n clbits sel (dict ys) ys) ->
  let truth := sum_lt (2 ^ n) (fun x => diag_entry diag n x * p x)%Qc in let q := noisy (2 ^ n) (tensor_entry ms) p in
  exists est, (forall ys, outcomes n N ys -> exists v, tensored_expectation (tensored_init pinv2 amats) (dict ys) diag qubits clbits = Ok (Some (est ys), v) /\
      (v <= stddev_bound_sq g (Z.of_nat N))%Qc) /\
    expect q (2 ^ n) N est = truth /\
    (expect q (2 ^ n) N (fun ys => (est ys - truth) * (est ys - truth)) <= stddev_bound_sq g (Z.of_nat N))%Qc.
Proof.
  intros H1 H2 H3 H4 H5 H6 H7 H8 H9 H10 truth q. destruct (tensored_estimator pinv2 amats ms diag qubits n clbits sel g H1 H2 H3 H4 H5 H6 H8) as (f & F1 & F2 & F3).
  assert (S : stochastic (2 ^ n) (tensor_entry ms)) by (rewrite <- H2; apply tensor_stochastic, H3).
  destruct (promised n clbits sel _ (tensor_entry ms) p _ f g 1%Qc N dict F1 S H7 F2 F3 H9 H10) as (est & P1 & P2 & P3 & _). exists est. exact (conj P1 (conj P2 P3)).
Qed.
Print Assumptions C77_unbiased.

(** With at least [required_shots] shots the value is less than [delta] away from
    the true value with probability at least 3/4 (documented: at least 2/3). *)
Theorem C77_required_shots pinv2 amats ms diag qubits n clbits sel p g delta N dict :
  selected amats qubits ms -> length ms = n -> Forall stochastic2 ms -> Forall low_error ms ->
  (forall d, diag = Some d -> length d = 2 ^ n) -> (forall x, x < 2 ^ n -> (abs_of (diag_entry diag n x) <= 1)%Qc) ->
  distribution (2 ^ n) p -> tensored_gamma (tensored_init pinv2 amats) qubits = Ok (Some g) -> 0 < N ->
  (forall ys, outcomes n N ys -> counts_shots n clbits sel (dict ys) ys) ->
  (0 < delta)%Qc -> (shots_for g delta <= Z.of_nat N)%Z ->
  exists est, (forall ys, outcomes n N ys -> exists v, tensored_expectation (tensored_init pinv2 amats) (dict ys) diag qubits clbits = Ok (Some (est ys), v)) /\
    (ofZ 3 <= ofZ 4 * probability (noisy (2 ^ n) (tensor_entry ms) p) (2 ^ n) N (fun ys => within delta (est ys) (sum_lt (2 ^ n) (fun x => diag_entry diag n x * p x))))%Qc.
Proof.
  intros H1 H2 H3 H4 H5 H6 H7 H8 H9 H10 H11 H12. destruct (tensored_estimator pinv2 amats ms diag qubits n clbits sel g H1 H2 H3 H4 H5 H6 H8) as (f & F1 & F2 & F3).
  assert (S : stochastic (2 ^ n) (tensor_entry ms)) by (rewrite <- H2; apply tensor_stochastic, H3).
  destruct (promised n clbits sel _ (tensor_entry ms) p _ f g delta N dict F1 S H7 F2 F3 H9 H10) as (est & P1 & _ & _ & P4). exists est. split; [|exact (P4 H11 H12)].
  intros ys Hy. destruct (P1 ys Hy) as (v & E & _). exists v. exact E.
Qed.
Print Assumptions C77_required_shots.

(** The same for the complete mitigator and any list of qubits: the readout of the
    listed qubits follows the marginal of the calibrated matrix, and the observable
    is given in the order of increasing qubits. *)
Theorem C77_complete inv pinv cm asc qs n diag clbits sel p M d' g delta N dict :
  increasing_version asc qs -> length qs = n -> (forall q, In q qs -> q < cm_n cm) -> stochastic (2 ^ cm_n cm) (cm_amat cm) ->
  is_marginal (cm_n cm) (cm_amat cm) qs M ->
  (forall S, is_marginal (cm_n cm) (cm_amat cm) asc S -> exists B, inv (2 ^ n) S = Some B /\ left_inverse (2 ^ n) B S) ->
  (forall d, diag = Some d -> length d = 2 ^ n) -> as_listed asc qs n (diag_entry diag n) d' ->
  (forall x, x < 2 ^ n -> (abs_of (diag_entry diag n x) <= 1)%Qc) -> distribution (2 ^ n) p ->
  complete_gamma inv pinv cm (Some qs) = Ok g -> 0 < N ->
  (forall ys, outcomes n N ys -> counts_shots n clbits sel (dict ys) ys) ->
  let truth := sum_lt (2 ^ n) (fun x => d' x * p x)%Qc in let q := noisy (2 ^ n) M p in
  exists est, (forall ys, outcomes n N ys -> exists v, complete_expectation inv pinv cm (dict ys) diag (Some qs) clbits = Ok (Some (est ys), v) /\
      (v <= stddev_bound_sq g (Z.of_nat N))%Qc) /\
    expect q (2 ^ n) N est = truth /\
    (expect q (2 ^ n) N (fun ys => (est ys - truth) * (est ys - truth)) <= stddev_bound_sq g (Z.of_nat N))%Qc /\
    ((0 < delta)%Qc -> (shots_for g delta <= Z.of_nat N)%Z -> (ofZ 3 <= ofZ 4 * probability q (2 ^ n) N (fun ys => within delta (est ys) truth))%Qc).
Proof.
  intros H1 H2 H3 H4 H5 H6 H7 H8 H9 H10 H11 H12 H13 truth q.
  assert (Fi : finds_inverse inv (cm_n cm) (cm_amat cm) asc). { unfold finds_inverse. rewrite (Permutation_length (proj2 H1)), H2. exact H6. }
  destruct (complete_estimator inv pinv cm asc qs n diag clbits sel M d' g H1 H2 H3 H5 Fi H7 H8 H9 H11) as (f & F1 & F2 & F3).
  assert (Nd : NoDup qs) by (eapply Permutation_NoDup; [apply (proj2 H1)|apply asc_NoDup, (proj1 H1)]).
  assert (S : stochastic (2 ^ n) M) by (rewrite <- H2; apply (marginal_stochastic (cm_n cm) (cm_amat cm) qs M Nd H3 H4 H5)).
  exact (promised n clbits sel _ M p d' f g delta N dict F1 S H10 F2 F3 H12 H13).
Qed.
Print Assumptions C77_complete.

(** The required number of shots is the least for which the bound on the standard
    deviation is at most half of [delta]. *)
Theorem C77_least g delta N : 0 < N -> (0 < delta)%Qc -> (shots_for g delta <= Z.of_nat N)%Z <-> (ofZ 4 * stddev_bound_sq g (Z.of_nat N) <= delta * delta)%Qc.
Proof. exact (shots_for_iff g delta N). Qed.
Print Assumptions C77_least.

(** Every sequence of outcomes has a dictionary of counts. *)
Theorem C77_counts n ys : 1 <= n -> exists c, counts_shots n None None c ys.
Proof. intros H. exists (dict_of n ys). exact (dict_counts n ys H). Qed.
Print Assumptions C77_counts.

(** The number of shots does not take the size of the observable into account:
    for an observable with the values 100 and -100, perfect readout and [delta]
    = 1, four shots are said to suffice, but the value is right with probability
    6/16 only. *)
Definition perfect : bool -> bool -> Qc := fun i j => if Bool.eqb i j then 1%Qc else 0%Qc.
Theorem C77_scale_refuted : ~ (forall pinv2 amats ms diag qubits n clbits sel p g delta N dict,
  selected amats qubits ms -> length ms = n -> Forall stochastic2 ms -> Forall low_error ms ->
  (forall d, diag = Some d -> length d = 2 ^ n) ->
  distribution (2 ^ n) p -> tensored_gamma (tensored_init pinv2 amats) qubits = Ok (Some g) -> 0 < N ->
  (forall ys, outcomes n N ys -> counts_shots n clbits sel (dict ys) ys) ->
  (0 < delta)%Qc -> (shots_for g delta <= Z.of_nat N)%Z ->
  exists est, (forall ys, outcomes n N ys -> exists v, tensored_expectation (tensored_init pinv2 amats) (dict ys) diag qubits clbits = Ok (Some (est ys), v)) /\
    (ofZ 2 <= ofZ 3 * probability (noisy (2 ^ n) (tensor_entry ms) p) (2 ^ n) N (fun ys => within delta (est ys) (sum_lt (2 ^ n) (fun x => diag_entry diag n x * p x))))%Qc).
Proof.
  intros H. set (p := fun _ : nat => (1 / ofZ 2)%Qc). set (E := fun ys => tensored_expectation (tensored_init (fun a => a) [perfect]) (dict_of 1 ys) (Some [ofZ 100; ofZ (-100)]) None None).
  destruct (H (fun a => a) [perfect] [perfect] (Some [ofZ 100; ofZ (-100)]) None 1 None None p 1%Qc 1%Qc 4 (dict_of 1)) as (est & He & K).
  - reflexivity.
  - reflexivity.
  - constructor; [|constructor]. split; [intros [] []; cbv; discriminate|intros []; apply Qc_is_canon; reflexivity].
  - constructor; [|constructor]. reflexivity.
  - intros d [= <-]. reflexivity.
  - split; [intros x _; cbv; discriminate|apply Qc_is_canon; reflexivity].
  - vm_compute. repeat f_equal.
  - lia.
  - intros ys _. apply dict_counts. lia.
  - reflexivity.
  - vm_compute. discriminate.
  - unfold probability in K. erewrite ShotsProofs.expect_ext in K.
    2: { intros ys Hy. assert (O : outcomes 1 4 ys) by exact (ShotsProofs.in_sequences 2 4 ys Hy). destruct (He ys O) as (v & Ev). replace (est ys) with (match E ys with Ok (Some e, _) => e | _ => 0%Qc end) by (unfold E; rewrite Ev; reflexivity). reflexivity. }
    revert K. apply Qclt_not_le. vm_compute. reflexivity.
Qed.
Print Assumptions C77_scale_refuted.

(** One qubit whose readout flips with probability 1/8: gamma is 4/3, and 8 shots
    give the parity to less than 1 with probability at least 3/4. *)
Definition flipped (i j : bool) : Qc := if Bool.eqb i j then (ofZ 7 / ofZ 8)%Qc else (1 / ofZ 8)%Qc.
Example C77_example : exists g, tensored_gamma (tensored_init (fun a => a) [flipped]) None = Ok (Some g) /\ this g = (4 # 3)%Q /\ shots_for g 1%Qc = 8%Z /\
  exists est, (forall ys, outcomes 1 8 ys -> exists v, tensored_expectation (tensored_init (fun a => a) [flipped]) (dict_of 1 ys) None None None = Ok (Some (est ys), v)) /\
    (ofZ 3 <= ofZ 4 * probability (noisy 2 (tensor_entry [flipped]) (fun x => if x =? 0 then 1 else 0)%Qc) 2 8 (fun ys => within 1 (est ys) 1))%Qc.
Proof.
  destruct (tensored_gamma (tensored_init (fun a => a) [flipped]) None) as [[g|]|] eqn:Eg; try (vm_compute in Eg; discriminate).
  assert (Hg : this g = (4 # 3)%Q) by (vm_compute in Eg; injection Eg as <-; reflexivity).
  assert (Hs : shots_for g 1%Qc = 8%Z) by (vm_compute in Eg; injection Eg as <-; reflexivity).
  exists g. split; [reflexivity|]. split; [exact Hg|]. split; [exact Hs|].
  destruct (C77_required_shots (fun a => a) [flipped] [flipped] None None 1 None None (fun x => if x =? 0 then 1 else 0)%Qc g 1%Qc 8 (dict_of 1)) as (est & E1 & E2).
  - reflexivity.
  - reflexivity.
  - constructor; [|constructor]. split; [intros [] []; cbv; discriminate|intros []; apply Qc_is_canon; reflexivity].
  - constructor; [|constructor]. reflexivity.
  - discriminate.
  - intros [|[|x]] Hx; [cbv; discriminate|cbv; discriminate|cbn in Hx; lia].
  - split; [intros [|x] _; cbv; discriminate|apply Qc_is_canon; reflexivity].
  - exact Eg.
  - lia.
  - intros ys _. apply dict_counts. lia.
  - reflexivity.
  - rewrite Hs. discriminate.
  - exists est. split; [exact E1|]. replace (1%Qc) with (sum_lt (2 ^ 1) (fun x => diag_entry None 1 x * (if x =? 0 then 1 else 0))%Qc) at 6; [exact E2|apply Qc_is_canon; reflexivity].
Qed.
(** Two of three qubits, listed in decreasing order, with perfect readout. *)
Example C77_complete_example : exists g, complete_gamma (fun _ m => Some m) (fun _ m => m) {| cm_n := 3; cm_amat := identity_matrix |} (Some [2; 0]) = Ok g /\ this g = 1%Q /\
  increasing_version [0; 2] [2; 0] /\ stochastic (2 ^ 3) identity_matrix /\ shots_for g (1 / ofZ 10)%Qc = 400%Z.
Proof.
  eexists. split; [reflexivity|]. split; [vm_compute; reflexivity|]. split; [|split; [|vm_compute; reflexivity]].
  - split; [repeat constructor|apply perm_swap].
  - intros x Hx. do 8 (destruct x as [|x]; [split; [intros y _; unfold identity_matrix; destruct (y =? _); cbv; discriminate|apply Qc_is_canon; reflexivity]|]). cbn in Hx. lia.
Qed.
