(** The statements of C29-C33 and C59 in the vocabulary of the specification. *)
From Coq Require Import QArith QArith.Qcanon Lqa Btauto.
From Verif Require Import LinAlg Base ResultFacts CountsModel CountsSpec CountsProofs BasisSem QcFacts ExpvalModel ExpvalSpec
  ExpvalProofs ExpvalVecProofs ExpvalTensProofs ExpvalGammaProofs ExpvalCompProofs ExpvalCalProofs.
Open Scope nat_scope.

Lemma the_diagonal_entry diag n i : i < 2 ^ n -> nth i (the_diagonal diag n) 0%Qc = diag_entry diag n i.
Proof. intros Hi. destruct diag as [d|]; [reflexivity|]. apply the_diagonal_none, Hi. Qed.

Lemma diagonal_sum diag n (p : nat -> Qc) :
  sum_lt (2 ^ n) (fun x => nth x (the_diagonal diag n) 0 * p x)%Qc = sum_lt (2 ^ n) (fun x => diag_entry diag n x * p x)%Qc.
Proof. apply qsum_ext. intros x Hx. apply in_seq in Hx. rewrite the_diagonal_entry by lia. reflexivity. Qed.

(** ** Tensored *)
Lemma tensored_value pinv2 amats ms c diag qubits n clbits sel :
  well_formed n c clbits sel -> total c <> 0%Z -> selected amats qubits ms -> length ms = n -> Forall invertible2 ms ->
  (forall d, diag = Some d -> length d = 2 ^ n) ->
  exists g v, (forall x, x < 2 ^ n -> sum_lt (2 ^ n) (fun y => g y * tensor_entry ms y x)%Qc = diag_entry diag n x) /\
    tensored_expectation (tensored_init pinv2 amats) c diag qubits clbits
    = Ok (Some (mean_of (fun k => g (binary_value 0 (outcome_sel sel k))) c), v) /\
    ((0 < total c)%Z -> nonneg c -> v = (var_of (fun k => g (binary_value 0 (outcome_sel sel k))) c / ofZ (total c))%Qc) /\ (0 <= v)%Qc.
Proof.
  intros Hw HT Hs Hl Hi Hd. destruct (tensored_expectation_lemma pinv2 amats ms c diag qubits n clbits sel Hw HT Hs Hl Hd) as (v & H1 & H2 & H3).
  exists (tens_coeff pinv2 ms (the_diagonal diag n) n), v. split; [|split; [exact H1 | split; assumption]].
  intros x Hx. rewrite (tens_coeff_spec pinv2 ms _ n x Hl Hi Hx). apply the_diagonal_entry, Hx.
Qed.

Lemma tensored_exact pinv2 amats ms c diag qubits n clbits sel p :
  well_formed n c clbits sel -> total c <> 0%Z -> selected amats qubits ms -> length ms = n -> Forall invertible2 ms ->
  (forall d, diag = Some d -> length d = 2 ^ n) ->
  (forall y, y < 2 ^ n -> freq c sel y = sum_lt (2 ^ n) (fun x => tensor_entry ms y x * p x)%Qc) ->
  exists v, tensored_expectation (tensored_init pinv2 amats) c diag qubits clbits
    = Ok (Some (sum_lt (2 ^ n) (fun x => diag_entry diag n x * p x)%Qc), v) /\ (0 <= v)%Qc.
Proof.
  intros Hw HT Hs Hl Hi Hd Hp. destruct (tensored_exact_lemma pinv2 amats ms c diag qubits n clbits sel p Hw HT Hs Hl Hi Hd Hp) as (v & H1 & H2).
  exists v. rewrite H1, diagonal_sum. auto.
Qed.

(** ** Complete *)
Lemma complete_exact inv pinv cm asc qs n c diag clbits sel p M d' :
  well_formed n c clbits sel -> total c <> 0%Z ->
  increasing_version asc qs -> length qs = n -> (forall q, In q qs -> q < cm_n cm) ->
  is_marginal (cm_n cm) (cm_amat cm) qs M ->
  (forall S, is_marginal (cm_n cm) (cm_amat cm) asc S -> exists B, inv (2 ^ n) S = Some B /\ left_inverse (2 ^ n) B S) ->
  (forall d, diag = Some d -> length d = 2 ^ n) ->
  as_listed asc qs n (diag_entry diag n) d' ->
  (forall y, y < 2 ^ n -> freq c sel y = sum_lt (2 ^ n) (fun x => M y x * p x)%Qc) ->
  exists v, complete_expectation inv pinv cm c diag (Some qs) clbits = Ok (Some (sum_lt (2 ^ n) (fun x => d' x * p x)%Qc), v) /\ (0 <= v)%Qc.
Proof.
  intros Hw HT Ha Hl Hq HM Hinv Hd Hd' Hp.
  assert (Hla : length asc = n) by (rewrite <- Hl; apply Permutation_length, Ha).
  apply (complete_exact_lemma inv pinv cm asc qs n c diag clbits sel p M d'); try assumption.
  - intros S HS. rewrite Hla. apply Hinv, HS.
  - intros i i' Hi Hi' Hr. rewrite the_diagonal_entry by exact Hi. apply Hd'; assumption.
Qed.

Lemma as_listed_sorted asc n d : StronglySorted lt asc -> length asc = n -> as_listed asc asc n d d.
Proof.
  intros Hs Hl i i' Hi Hi' Hr. rewrite <- Hl in Hi, Hi'. rewrite (rearranged_self asc i i' Hi Hi' (asc_NoDup asc Hs) Hr). reflexivity.
Qed.
Lemma as_listed_parity asc qs n : increasing_version asc qs -> length qs = n -> as_listed asc qs n (z_parity_index n) (z_parity_index n).
Proof. intros Ha Hl i i' _ _ Hr. symmetry. rewrite <- Hl. apply (parity_rearranged asc qs i i' Ha Hr). Qed.

Lemma complete_exact_sorted inv pinv cm qs n c diag clbits sel p M :
  well_formed n c clbits sel -> total c <> 0%Z ->
  StronglySorted lt qs -> length qs = n -> (forall q, In q qs -> q < cm_n cm) ->
  is_marginal (cm_n cm) (cm_amat cm) qs M ->
  (forall S, is_marginal (cm_n cm) (cm_amat cm) qs S -> exists B, inv (2 ^ n) S = Some B /\ left_inverse (2 ^ n) B S) ->
  (forall d, diag = Some d -> length d = 2 ^ n) ->
  (forall y, y < 2 ^ n -> freq c sel y = sum_lt (2 ^ n) (fun x => M y x * p x)%Qc) ->
  exists v, complete_expectation inv pinv cm c diag (Some qs) clbits
    = Ok (Some (sum_lt (2 ^ n) (fun x => diag_entry diag n x * p x)%Qc), v) /\ (0 <= v)%Qc.
Proof.
  intros Hw HT Hs Hl Hq HM Hinv Hd Hp.
  apply (complete_exact inv pinv cm qs qs n c diag clbits sel p M); try assumption.
  - split; [exact Hs | reflexivity].
  - apply as_listed_sorted; assumption.
Qed.

Lemma complete_exact_parity inv pinv cm asc qs n c clbits sel p M :
  well_formed n c clbits sel -> total c <> 0%Z ->
  increasing_version asc qs -> length qs = n -> (forall q, In q qs -> q < cm_n cm) ->
  is_marginal (cm_n cm) (cm_amat cm) qs M ->
  (forall S, is_marginal (cm_n cm) (cm_amat cm) asc S -> exists B, inv (2 ^ n) S = Some B /\ left_inverse (2 ^ n) B S) ->
  (forall y, y < 2 ^ n -> freq c sel y = sum_lt (2 ^ n) (fun x => M y x * p x)%Qc) ->
  exists v, complete_expectation inv pinv cm c None (Some qs) clbits
    = Ok (Some (sum_lt (2 ^ n) (fun x => z_parity_index n x * p x)%Qc), v) /\ (0 <= v)%Qc.
Proof.
  intros Hw HT Ha Hl Hq HM Hinv Hp.
  apply (complete_exact inv pinv cm asc qs n c None clbits sel p M); try assumption.
  - discriminate.
  - apply as_listed_parity; assumption.
Qed.

Lemma complete_exact_all inv pinv cm n c diag clbits sel p M :
  well_formed n c clbits sel -> total c <> 0%Z -> n <= cm_n cm ->
  is_marginal (cm_n cm) (cm_amat cm) (seq 0 n) M ->
  (forall S, is_marginal (cm_n cm) (cm_amat cm) (seq 0 n) S -> exists B, inv (2 ^ n) S = Some B /\ left_inverse (2 ^ n) B S) ->
  (forall d, diag = Some d -> length d = 2 ^ n) ->
  (forall y, y < 2 ^ n -> freq c sel y = sum_lt (2 ^ n) (fun x => M y x * p x)%Qc) ->
  exists v, complete_expectation inv pinv cm c diag None clbits
    = Ok (Some (sum_lt (2 ^ n) (fun x => diag_entry diag n x * p x)%Qc), v) /\ (0 <= v)%Qc.
Proof.
  intros Hw HT Hn HM Hinv Hd Hp.
  destruct (complete_exact_none inv pinv cm n c diag clbits sel p M Hw HT Hn HM) as (v & H1 & H2); try assumption.
  - intros S HS. rewrite seq_length. apply Hinv, HS.
  - exists v. rewrite H1, diagonal_sum. auto.
Qed.

(** The marginal of the whole register is the matrix itself. *)
Lemma full_marginal n a M : is_marginal n a (seq 0 n) M -> forall y x, y < 2 ^ n -> x < 2 ^ n -> M y x = a y x.
Proof.
  intros HM y x Hy Hx. unfold is_marginal in HM. rewrite seq_length in HM.
  assert (Hsp : spread (seq 0 n) x x).
  { split.
    - intros j q Hj. assert (Hl : j < n) by (rewrite <- (seq_length n 0); apply nth_error_Some; congruence).
      apply nth_error_nth with (d := 0) in Hj. rewrite seq_nth in Hj by exact Hl. subst q. reflexivity.
    - intros q Hq. apply testbit_lt with n; [exact Hx|]. rewrite in_seq in Hq. lia. }
  rewrite (HM y x x Hy Hx Hsp). unfold marginal_entry, sum_lt.
  rewrite (qsum_ext _ (fun Y => if eqb y Y then a Y x else 0%Qc)).
  - rewrite (qsum_pick (seq 0 (2 ^ n)) y (fun Y => a Y x)); [reflexivity | apply seq_NoDup | apply in_seq; lia].
  - intros Y HY. apply in_seq in HY. change (eqb y Y) with (y =? Y).
    replace (agrees (seq 0 n) Y y) with (y =? Y); [reflexivity|]. apply Bool.eq_iff_eq_true. rewrite Nat.eqb_eq, agrees_spec. split.
    + intros -> j q Hj. assert (Hl : j < n) by (rewrite <- (seq_length n 0); apply nth_error_Some; congruence).
      apply nth_error_nth with (d := 0) in Hj. rewrite seq_nth in Hj by exact Hl. subst q. reflexivity.
    + intros H. apply testbit_ext with n; [exact Hy | lia|]. intros b Hb. symmetry. apply H.
      rewrite nth_error_nth' with (d := 0) by (rewrite seq_length; lia). rewrite seq_nth by lia. reflexivity.
Qed.

Lemma identity_marginal N qs M : NoDup qs -> (forall q, In q qs -> q < N) -> is_marginal N identity_matrix qs M ->
  forall y x, y < 2 ^ length qs -> x < 2 ^ length qs -> M y x = identity_matrix y x.
Proof.
  intros Hnd Hq HM y x Hy Hx. destruct (keep_fold qs Hnd) as [_ Hk]. specialize (Hk x Hx). set (X := nth x _ 0) in Hk.
  rewrite (HM y x X Hy Hx Hk). unfold marginal_entry, sum_lt, identity_matrix.
  rewrite (qsum_ext _ (fun Y => if eqb X Y then if agrees qs X y then 1%Qc else 0%Qc else 0%Qc)).
  - rewrite (qsum_pick (seq 0 (2 ^ N)) X (fun _ => if agrees qs X y then 1%Qc else 0%Qc)); [|apply seq_NoDup|].
    + replace (agrees qs X y) with (y =? x); [reflexivity|]. apply Bool.eq_iff_eq_true. rewrite Nat.eqb_eq, agrees_spec.
      destruct Hk as [S1 S2]. split.
      * intros -> j q Hj. apply S1, Hj.
      * intros H. apply testbit_ext with (length qs); [exact Hy | exact Hx|]. intros b Hb.
        destruct (nth_error qs b) as [q|] eqn:E; [|apply nth_error_None in E; lia]. rewrite <- (H b q E). apply S1, E.
    + apply in_seq. pose proof (spread_lt qs N x X Hq Hk). lia.
  - intros Y _. change (eqb X Y) with (X =? Y). rewrite (Nat.eqb_sym X). destruct (Nat.eqb_spec Y X) as [->|]; destruct (agrees qs _ y); reflexivity.
Qed.

Lemma marginal_some N a qs : NoDup qs -> exists M, is_marginal N a qs M.
Proof.
  intros Hnd. destruct (keep_fold qs Hnd) as [_ Hk].
  exists (fun y x => marginal_entry N a qs y (nth x (fold_left (fun idx i => idx ++ map (fun x => x + 2 ^ i) idx) qs [0]) 0)).
  intros y x X Hy Hx HX. rewrite (spread_fun qs x X _ HX (Hk x Hx)). reflexivity.
Qed.

Lemma complete_identity inv pinv N asc qs n c diag clbits sel d' :
  well_formed n c clbits sel -> total c <> 0%Z ->
  increasing_version asc qs -> length qs = n -> (forall q, In q qs -> q < N) ->
  (forall S, (forall y x, y < 2 ^ n -> x < 2 ^ n -> S y x = identity_matrix y x) ->
     exists B, inv (2 ^ n) S = Some B /\ left_inverse (2 ^ n) B S) ->
  (forall d, diag = Some d -> length d = 2 ^ n) ->
  as_listed asc qs n (diag_entry diag n) d' ->
  exists v, complete_expectation inv pinv {| cm_n := N; cm_amat := identity_matrix |} c diag (Some qs) clbits
    = Ok (Some (mean_of (fun k => d' (binary_value 0 (outcome_sel sel k))) c), v) /\ (0 <= v)%Qc.
Proof.
  intros Hw HT Ha Hl Hq Hinv Hd Hd'. pose proof Ha as [Hs Hp].
  assert (Hla : length asc = n) by (rewrite <- Hl; apply Permutation_length, Hp).
  assert (Hnd : NoDup qs) by (eapply Permutation_NoDup; [exact Hp | apply asc_NoDup, Hs]).
  destruct (marginal_some N identity_matrix qs Hnd) as (M & HM).
  destruct (complete_exact inv pinv {| cm_n := N; cm_amat := identity_matrix |} asc qs n c diag clbits sel (freq c sel) M d' Hw HT Ha Hl)
    as (v & H1 & H2); try assumption.
  - intros S HS. apply Hinv. intros y x Hy Hx. apply (identity_marginal N asc S); try assumption; try (rewrite Hla; assumption).
    + apply asc_NoDup, Hs.
    + intros q Hin. apply Hq. eapply Permutation_in; eauto.
  - intros y Hy. unfold sum_lt. rewrite (qsum_ext _ (fun x => if eqb y x then freq c sel x else 0%Qc)).
    + rewrite (qsum_pick (seq 0 (2 ^ n)) y (freq c sel)); [reflexivity | apply seq_NoDup | apply in_seq; lia].
    + intros x Hx. apply in_seq in Hx.
      rewrite (identity_marginal N qs M Hnd Hq HM y x); [|rewrite Hl; lia | rewrite Hl; lia].
      unfold identity_matrix. change (eqb y x) with (y =? x). destruct (y =? x); ring.
  - exists v. rewrite H1. split; [|exact H2]. f_equal. f_equal. f_equal. rewrite (mean_freq n c clbits sel d' Hw HT).
    apply qsum_ext. intros; ring.
Qed.

Lemma complete_gamma_all inv pinv cm asc qubits :
  match qubits with Some qs => increasing_version asc qs | None => asc = seq 0 (cm_n cm) end ->
  (forall q, In q asc -> q < cm_n cm) ->
  (forall S, is_marginal (cm_n cm) (cm_amat cm) asc S -> exists B, inv (2 ^ length asc) S = Some B /\ left_inverse (2 ^ length asc) B S) ->
  exists g M B, complete_gamma inv pinv cm qubits = Ok g /\ is_marginal (cm_n cm) (cm_amat cm) asc M /\
    left_inverse (2 ^ length asc) B M /\ max_column_sum (2 ^ length asc) B g.
Proof. intros H1 H2 H3. apply complete_gamma_lemma; assumption. Qed.

(** ** Calibration *)
Lemma labels_complete n : 1 <= n -> exists ls, method_labels n (str "complete") = Ok ls /\ NoDup ls /\
  forall s, In s ls <-> length s = n /\ is_bits s.
Proof.
  intros Hn. exists (count_keys n). split; [reflexivity|].
  destruct (count_keys_spec_lemma n Hn) as (_ & H1 & H2 & _). auto.
Qed.

Lemma labels_tensored n : method_labels n (str "tensored") = Ok [repeat "0"%char n; repeat "1"%char n].
Proof. reflexivity. Qed.
Lemma labels_ctmp n method : method = str "CTMP" \/ method = str "ctmp" ->
  exists singles, method_labels n method = Ok ([repeat "0"%char n; repeat "1"%char n] ++ singles) /\
    length singles = n /\ forall i, i < n -> exists s, nth_error singles i = Some s /\ excited n i s.
Proof.
  intros H. exists (map (fun i => repeat ch0 (n - i - 1) ++ [ch1] ++ repeat ch0 i) (seq 0 n)). split; [destruct H as [->| ->]; reflexivity|].
  split; [rewrite map_length, seq_length; reflexivity|]. intros i Hi.
  exists (repeat ch0 (n - i - 1) ++ [ch1] ++ repeat ch0 i). split; [|apply ctmp_label_excited, Hi].
  rewrite nth_error_map, nth_error_nth' with (d := 0) by (rewrite seq_length; exact Hi). rewrite seq_nth by exact Hi. reflexivity.
Qed.
Lemma labels_unknown n method : method <> str "complete" -> method <> str "tensored" -> method <> str "CTMP" -> method <> str "ctmp" ->
  method_labels n method = Err QiskitError.
Proof.
  intros H1 H2 H3 H4. unfold method_labels.
  destruct (eqb_spec method (str "tensored")); [congruence|]. destruct (eqb_spec method (str "CTMP")); [congruence|].
  destruct (eqb_spec method (str "ctmp")); [congruence|]. destruct (eqb_spec method (str "complete")); [congruence|]. reflexivity.
Qed.

Lemma method_labels_bits n method ls : 1 <= n -> method_labels n method = Ok ls -> forall s, In s ls -> length s = n /\ is_bits s.
Proof.
  intros Hn. unfold method_labels. destruct (eqb_spec method (str "tensored")) as [->|_].
  - intros [= <-] s [<-|[<-|[]]]; (split; [apply repeat_length | apply repeat_bits; auto]).
  - destruct (eqb method (str "CTMP") || eqb method (str "ctmp")).
    + intros [= <-] s Hs. destruct Hs as [<-|[<-|Hs]]; [split; [apply repeat_length | apply repeat_bits; auto] | split; [apply repeat_length | apply repeat_bits; auto]|].
      apply in_map_iff in Hs. destruct Hs as (i & <- & Hi). apply in_seq in Hi. split; [rewrite app_length; cbn [length]; rewrite !repeat_length; lia|].
      intros c Hc. apply in_app_iff in Hc. destruct Hc as [Hc|[<-|Hc]]; [left; eapply repeat_spec; eauto | right; reflexivity | left; eapply repeat_spec; eauto].
    + destruct (eqb method (str "complete")); [|discriminate]. intros [= <-] s Hs.
      destruct (count_keys_spec_lemma n Hn) as (_ & _ & H2 & _). apply H2, Hs.
Qed.

Lemma circuits_lemma n method labels ls :
  match labels with Some l => l = ls /\ forall s, In s ls -> length s = n /\ is_bits s | None => 1 <= n /\ method_labels n method = Ok ls end ->
  exists cs ms, meas_mitigator_circuits n method labels = Ok (cs, ms) /\
    map mt_cal ms = ls /\ map noiseless_outcome cs = ls /\
    (forall m, In m ms -> mt_experiment m = Some (str "meas_mit") /\ mt_method m = Some method) /\
    (forall c, In c cs -> c_nq c = n /\ c_ncl c = n).
Proof.
  intros H. assert (Hls : match labels with Some l => Ok l | None => method_labels n method end = Ok ls).
  { destruct labels as [l|]; [destruct H as [-> _]; reflexivity | apply H]. }
  assert (Hb : forall s, In s ls -> length s = n /\ is_bits s).
  { destruct labels as [l|]; [apply H|]. destruct H as [Hn H]. apply (method_labels_bits n method ls Hn H). }
  unfold meas_mitigator_circuits. rewrite Hls. cbn [bind]. clear Hls H.
  assert (Hc : exists cs, mapM (calibration_circuit n) ls = Ok cs /\ map noiseless_outcome cs = ls /\ (forall c, In c cs -> c_nq c = n /\ c_ncl c = n)).
  { induction ls as [|l ls IH]; [exists []; split; [reflexivity|]; split; [reflexivity | intros c []]|].
    destruct (Hb l (or_introl eq_refl)) as [Hl1 Hl2].
    destruct (calibration_circuit_lemma n l Hl1 Hl2) as (c & Ec & E1 & E2 & E3 & _).
    destruct IH as (cs & Ecs & E4 & E5); [intros; apply Hb; right; assumption|].
    exists (c :: cs). cbn [mapM]. rewrite Ec. cbn [bind]. rewrite Ecs. cbn [bind map]. split; [reflexivity|]. split; [congruence|].
    intros c' [<-|Hin]; [auto | apply E5, Hin]. }
  destruct Hc as (cs & Ecs & E1 & E2). rewrite Ecs. cbn [bind]. exists cs. eexists. split; [reflexivity|].
  split; [rewrite map_map; cbn; apply map_id|]. split; [exact E1|]. split; [|exact E2].
  intros m Hm. apply in_map_iff in Hm. destruct Hm as (l & <- & _). auto.
Qed.

Lemma calibration_all counts ms cs :
  Forall2 (fun i c => counts i = Ok c) (seq 0 (length ms)) cs ->
  (forall m, In m ms -> mt_experiment m = Some (str "meas_mit") -> is_bits (mt_cal m) /\ mt_cal m <> [] /\ mt_method m <> None) ->
  exists d nq meth, calibration_data counts ms = Ok (d, nq, meth) /\
    forall y x, joint_full d y x
      = recorded (map (fun mc => (match mt_experiment (fst mc) with
                                  | Some e => if eqb e (str "meas_mit") then Some (mt_cal (fst mc)) else None
                                  | None => None end, snd mc)) (combine ms cs)) y x.
Proof.
  intros HF Hm. destruct (calibration_data_lemma counts ms cs HF) as (d & Hd & Hj).
  - intros m Hin Hc. apply Hm; [exact Hin|]. unfold is_cal in Hc. destruct (mt_experiment m) as [e|]; [|discriminate].
    destruct (eqb_spec e (str "meas_mit")); [congruence | discriminate].
  - do 3 eexists. split; [exact Hd|]. intros y x. rewrite Hj. f_equal. apply map_ext. intros [m c]. unfold exp_of, is_cal. cbn [fst snd].
    destruct (mt_experiment m) as [e|]; [|reflexivity]. destruct (eqb e (str "meas_mit")); reflexivity.
Qed.

Lemma fit_tensored_lemma pinv2 data n tm : fit_tensored pinv2 data n = Ok tm ->
  length (tm_amats tm) = n /\ tm = tensored_init pinv2 (tm_amats tm) /\
  forall q a, nth_error (tm_amats tm) q = Some a ->
    forall (i j : bool), a i j = (ofZ (joint_shots data n [q] (Nat.b2n i) (Nat.b2n j)) / ofZ (prepared_shots data n [q] (Nat.b2n j)))%Qc /\
      (a false j + a true j)%Qc = 1%Qc.
Proof.
  unfold fit_tensored. intros H. inv_bind H. injection H as <-. cbn [tensored_init tm_amats].
  match goal with E : mapM _ _ = Ok ?ms |- _ => rename ms into mm; rename E into Hm end.
  apply mapM_inv in Hm.
  assert (Hlen : length mm = n) by (apply Forall2_length' in Hm; rewrite seq_length in Hm; auto).
  split; [exact Hlen|]. split; [reflexivity|]. intros q a Hq.
  assert (Hl : q < n) by (rewrite <- Hlen; apply nth_error_Some; congruence).
  assert (Hq' : nth_error (seq 0 n) q = Some q) by (rewrite nth_error_nth' with (d := 0) by (rewrite seq_length; exact Hl); rewrite seq_nth by exact Hl; reflexivity).
  pose proof (Forall2_nth _ _ _ q q a Hm Hq' Hq) as E. cbv beta in E.
  destruct (assignment_local_lemma data n [q]) as [[E' _]|(A & E' & _ & HA & Hs)]; rewrite E' in E; [discriminate|].
  cbn [bind snd] in E. injection E as <-. intros i j. unfold mat2_of. split; [apply HA|].
  specialize (Hs (Nat.b2n j)). cbn [length Nat.pow Nat.mul Nat.add] in Hs. specialize (Hs ltac:(destruct j; cbn; lia)).
  rewrite <- Hs. unfold sum_lt. cbn [seq map Nat.b2n]. rewrite !qsum_cons. change (fsum []) with 0%Qc. ring.
Qed.
