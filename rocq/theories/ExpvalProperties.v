(** C29-C33 and C59: expectation values with measurement error mitigation. *)
From Coq Require Import QArith QArith.Qcanon.
From Verif Require Import LinAlg Base CountsModel CountsSpec BasisSem QcFacts ExpvalModel ExpvalSpec ExpvalProofs ExpvalVecProofs
  ExpvalTensProofs ExpvalGammaProofs ExpvalCompProofs ExpvalCalProofs ExpvalMainProofs.
Local Open Scope string_scope.
Local Open Scope list_scope.
Local Open Scope nat_scope.

(** ** C29 *)

(** The expectation value is the mean of the observable over the shots, the
    squared standard deviation its variance over the shots. *)
Theorem C29_mean_and_variance n c diag clbits sel :
  well_formed n c clbits sel -> nonneg c -> (0 < total c)%Z ->
  (forall d, diag = Some d -> 2 ^ n <= length d) ->
  let f := fun s => observable diag (outcome_sel sel s) in
  expectation_value c diag clbits = Ok (Some (mean_of f c), (var_of f c / ofZ (total c))%Qc).
Proof. exact (expectation_value_lemma n c diag clbits sel). Qed.
Print Assumptions C29_mean_and_variance.

(** The parity needs no assumption on the keys. *)
Theorem C29_parity_any_keys c : nonneg c -> (0 < total c)%Z ->
  expectation_value c None None = Ok (Some (mean_of z_parity c), (var_of z_parity c / ofZ (total c))%Qc).
Proof. exact (expectation_parity_any_lemma c). Qed.
Print Assumptions C29_parity_any_keys.

(** The mean lies between the bounds of the observable. *)
Theorem C29_bounds f c lo hi : nonneg c -> (0 < total c)%Z ->
  (forall k v, In (k, v) c -> (lo <= f k)%Qc /\ (f k <= hi)%Qc) ->
  (lo <= mean_of f c)%Qc /\ (mean_of f c <= hi)%Qc.
Proof. exact (mean_bounds_lemma f c lo hi). Qed.
Print Assumptions C29_bounds.

(** The standard deviation is never undefined, whatever the counts. *)
Theorem C29_deviation_defined c diag clbits e v : expectation_value c diag clbits = Ok (e, v) -> (0 <= v)%Qc.
Proof. exact (expectation_sd_lemma c diag clbits e v). Qed.
Print Assumptions C29_deviation_defined.

(** Without shots the value is undefined (nan) and the deviation 0. *)
Theorem C29_zero_shots c diag : c <> [] -> total c = 0%Z ->
  (exists e, expectation_value c diag None = Err e) \/ expectation_value c diag None = Ok (None, 0%Qc).
Proof. exact (expectation_zero_shots_lemma c diag). Qed.
Print Assumptions C29_zero_shots.

Definition ex_counts : counts := [(str "01", 3%Z); (str "11", 1%Z)].
Example C29_example : well_formed 2 ex_counts None None /\ nonneg ex_counts /\ (0 < total ex_counts)%Z /\
  exists e v, expectation_value ex_counts None None = Ok (Some e, v) /\ (this e == -1 # 2)%Q /\ (this v == 3 # 16)%Q.
Proof.
  assert (H : forall k v, In (k, v) ex_counts -> (k = str "01" /\ v = 3%Z) \/ (k = str "11" /\ v = 1%Z)).
  { intros k v [[= <- <-]|[[= <- <-]|[]]]; auto. }
  split; [|split; [|split; [reflexivity|]]].
  - split; [lia|]. split.
    + split; [discriminate|]. split.
      * repeat constructor; cbn; intros HH; repeat destruct HH as [HH|HH]; try discriminate; auto.
      * intros k v Hk. destruct (H k v Hk) as [[-> _]|[-> _]]; (split; [reflexivity|]); intros c Hc; cbn in Hc; repeat destruct Hc as [Hc|Hc]; auto; destruct Hc.
    + intros k v Hk. destruct (H k v Hk) as [[-> _]|[-> _]]; reflexivity.
  - intros k v Hk. destruct (H k v Hk) as [[_ ->]|[_ ->]]; lia.
  - do 2 eexists. split; [reflexivity|]. split; vm_compute; reflexivity.
Qed.

(** ** C30 *)

(** Without a qubit list, element [i] is the relative frequency of [i]. *)
Theorem C30_plain n c clbits sel : well_formed n c clbits sel -> total c <> 0%Z ->
  counts_probability_vector c None clbits None
  = Ok {| pv_n := n; pv_vec := Some (map (freq c sel) (seq 0 (2 ^ n))); pv_shots := total c |}.
Proof. exact (counts_vector_plain n c clbits sel). Qed.
Print Assumptions C30_plain.

(** With a list of distinct qubits, the frequency of outcome [i'], whose bit [p]
    belongs to the [p]-th listed qubit, is found at the index [i] whose bits are
    in the order of increasing qubit numbers. *)
Theorem C30_remapped n c clbits sel qs asc : well_formed n c clbits sel -> total c <> 0%Z ->
  increasing_version asc qs -> length qs = n ->
  exists vec, counts_probability_vector c (Some qs) clbits None
    = Ok {| pv_n := n; pv_vec := Some vec; pv_shots := total c |} /\ length vec = 2 ^ n /\
    forall i i', i < 2 ^ n -> i' < 2 ^ n -> rearranged asc qs i i' -> nth i vec 0%Qc = freq c sel i'.
Proof. exact (counts_vector_remap n c clbits sel qs asc). Qed.
Print Assumptions C30_remapped.

(** Every outcome has its place. *)
Theorem C30_every_outcome asc qs i' : increasing_version asc qs -> exists i, i < 2 ^ length qs /\ rearranged asc qs i i'.
Proof. exact (rearranged_exists asc qs i'). Qed.
Print Assumptions C30_every_outcome.

Example C30_example : exists vec, counts_probability_vector [(str "001", 1%Z); (str "110", 3%Z)] (Some [2; 0; 1]) None None
  = Ok {| pv_n := 3; pv_vec := Some vec; pv_shots := 4%Z |} /\
  map this vec = map (fun q => Qred q) [0; 0; 0; 3 # 4; 1 # 4; 0; 0; 0]%Q.
Proof. eexists. split; [reflexivity|]. vm_compute. reflexivity. Qed.

(** A list of classical bits that is not increasing is silently sorted, so that
    [qubits[i]] is not the qubit measured into [clbits[i]], as documented: qubit 0
    was measured into bit 1 (value 0), qubit 1 into bit 0 (value 1), so the
    outcome is 2; it is reported at 1. *)
Theorem C30_clbits_order_refuted : ~ (forall c qs clbits i,
  length qs = length clbits -> NoDup qs -> NoDup clbits -> c = [(str "01", 1%Z)] ->
  (forall p q cb, nth_error qs p = Some q -> nth_error clbits p = Some cb ->
     Nat.testbit i q = eqb (qubit_bit (str "01") cb) "1"%char) ->
  i < 2 ^ length qs ->
  exists vec, counts_probability_vector c (Some qs) (Some clbits) None = Ok {| pv_n := length qs; pv_vec := Some vec; pv_shots := 1%Z |} /\
    nth i vec 0%Qc = 1%Qc).
Proof.
  intros H. destruct (H [(str "01", 1%Z)] [0; 1] [1; 0] 2) as (vec & E & Hv); [reflexivity | | | reflexivity | | cbn; lia|].
  - repeat constructor; cbn; intuition lia.
  - repeat constructor; cbn; intuition lia.
  - intros [|[|p]] q cb; cbn; try (destruct p; discriminate); intros [= <-] [= <-]; reflexivity.
  - vm_compute in E. injection E as <-. apply (f_equal this) in Hv. vm_compute in Hv. discriminate.
Qed.
Print Assumptions C30_clbits_order_refuted.

(** ** C31 *)

(** Mitigation replaces the observable [d] by the observable [g] with
    [A^T g = d], [A] being the tensor product of the assignment matrices of the
    measured qubits; value and deviation are those of [g] on the noisy counts. *)
Theorem C31_mitigated_observable pinv2 amats ms c diag qubits n clbits sel :
  well_formed n c clbits sel -> total c <> 0%Z -> selected amats qubits ms -> length ms = n -> Forall invertible2 ms ->
  (forall d, diag = Some d -> length d = 2 ^ n) ->
  exists g v, (forall x, x < 2 ^ n -> sum_lt (2 ^ n) (fun y => g y * tensor_entry ms y x)%Qc = diag_entry diag n x) /\
    tensored_expectation (tensored_init pinv2 amats) c diag qubits clbits
    = Ok (Some (mean_of (fun k => g (binary_value 0 (outcome_sel sel k))) c), v) /\
    ((0 < total c)%Z -> nonneg c -> v = (var_of (fun k => g (binary_value 0 (outcome_sel sel k))) c / ofZ (total c))%Qc) /\ (0 <= v)%Qc.
Proof. exact (tensored_value pinv2 amats ms c diag qubits n clbits sel). Qed.
Print Assumptions C31_mitigated_observable.

(** Hence it is exact on the noisy frequencies [A p]. *)
Theorem C31_exact pinv2 amats ms c diag qubits n clbits sel p :
  well_formed n c clbits sel -> total c <> 0%Z -> selected amats qubits ms -> length ms = n -> Forall invertible2 ms ->
  (forall d, diag = Some d -> length d = 2 ^ n) ->
  (forall y, y < 2 ^ n -> freq c sel y = sum_lt (2 ^ n) (fun x => tensor_entry ms y x * p x)%Qc) ->
  exists v, tensored_expectation (tensored_init pinv2 amats) c diag qubits clbits
    = Ok (Some (sum_lt (2 ^ n) (fun x => diag_entry diag n x * p x)%Qc), v) /\ (0 <= v)%Qc.
Proof. exact (tensored_exact pinv2 amats ms c diag qubits n clbits sel p). Qed.
Print Assumptions C31_exact.

(** Gamma is the largest absolute column sum of the inverse of the tensor
    product, for readout matrices with flip probabilities summing to less
    than 1. *)
Theorem C31_gamma pinv2 amats ms qubits :
  selected amats qubits ms -> Forall stochastic2 ms -> Forall low_error ms ->
  exists g, tensored_gamma (tensored_init pinv2 amats) qubits = Ok (Some g) /\ (1 <= g)%Qc /\
    forall B, left_inverse (2 ^ length ms) B (tensor_entry ms) -> max_column_sum (2 ^ length ms) B g.
Proof. exact (tensored_gamma_lemma pinv2 amats ms qubits). Qed.
Print Assumptions C31_gamma.

(** The overhead is the least integer not below gamma squared. *)
Theorem C31_overhead g : (g * g <= ofZ (overhead_of g))%Qc /\ (forall z, (g * g <= ofZ z)%Qc -> (overhead_of g <= z)%Z).
Proof. exact (overhead_lemma g). Qed.
Print Assumptions C31_overhead.

(** The reported matrix is the tensor product for all qubits and for the first
    [k] of them. *)
Theorem C31_matrix_partial mats qubits k :
  1 <= k <= length mats -> (qubits = None /\ k = length mats \/ qubits = Some (seq 0 k)) ->
  exists m, tensored_matrix mats qubits = Ok (2 ^ k, m) /\
    forall i j, i < 2 ^ k -> j < 2 ^ k -> m i j = tensor_entry (firstn k mats) i j.
Proof. exact (tensored_matrix_lemma mats qubits k). Qed.
Print Assumptions C31_matrix_partial.

(** The assignment fidelity is the mean of the diagonal of the tensor product. *)
Theorem C31_fidelity pinv2 amats ms qubits : selected amats qubits ms ->
  tensored_fidelity (tensored_init pinv2 amats) qubits
  = Ok (sum_lt (2 ^ length ms) (fun x => tensor_entry ms x x) / ofZ (Z.of_nat (2 ^ length ms)))%Qc.
Proof. exact (tensored_fidelity_lemma pinv2 amats ms qubits). Qed.
Print Assumptions C31_fidelity.

Definition qfrac (a b : Z) : Qc := (ofZ a / ofZ b)%Qc.
(** A readout matrix with flip probabilities [a/8] (of 0) and [b/8] (of 1). *)
Definition ex_mat (a b : Z) : bool -> bool -> Qc := fun i j =>
  match i, j with
  | false, false => qfrac (8 - a) 8 | true, false => qfrac a 8
  | false, true => qfrac b 8 | true, true => qfrac (8 - b) 8
  end.
Example C31_example : Forall stochastic2 [ex_mat 1 2; ex_mat 0 1] /\ Forall low_error [ex_mat 1 2; ex_mat 0 1] /\
  Forall invertible2 [ex_mat 1 2; ex_mat 0 1] /\
  selected [ex_mat 1 2; ex_mat 3 3; ex_mat 0 1] (Some [0; 2]) [ex_mat 1 2; ex_mat 0 1] /\
  (* the noisy frequencies of the state "11" *)
  exists e v, tensored_expectation (tensored_init (fun a => a) [ex_mat 1 2; ex_mat 3 3; ex_mat 0 1])
      [(str "00", 2%Z); (str "01", 6%Z); (str "10", 14%Z); (str "11", 42%Z)] (Some [ofZ 5; ofZ 7; ofZ 11; ofZ 13]) (Some [0; 2]) None
    = Ok (Some e, v) /\ this e = inject_Z 13.
Proof.
  assert (Hc : forall a b : Z, (0 <= a <= 8)%Z -> (0 <= b <= 8)%Z -> stochastic2 (ex_mat a b)).
  { intros a b Ha Hb. split.
    - intros [] []; apply Qc_div_nonneg; try (apply iz_nonneg; lia); apply iz_pos; lia.
    - intros []; unfold ex_mat, qfrac; change ofZ with iz; unfold Qcdiv; rewrite <- Qcmult_plus_distr_l, <- iz_add.
      + replace (b + (8 - b))%Z with 8%Z by lia. apply Qcmult_inv_r. apply iz_neq_0. lia.
      + replace (8 - a + a)%Z with 8%Z by lia. apply Qcmult_inv_r. apply iz_neq_0. lia. }
  split; [repeat constructor; apply Hc; lia|]. split; [repeat constructor|]. split; [repeat constructor; intros E; apply (f_equal this) in E; vm_compute in E; discriminate|].
  split; [repeat constructor|]. do 2 eexists. split; [reflexivity|]. vm_compute. reflexivity.
Qed.

(** Gamma is not the norm of the inverse, and even negative, when readout
    flips are more likely than not. *)
Theorem C31_gamma_negative_refuted : ~ (forall pinv2 amats g, Forall stochastic2 amats -> Forall invertible2 amats ->
  tensored_gamma (tensored_init pinv2 amats) None = Ok (Some g) -> (1 <= g)%Qc).
Proof.
  intros H. set (x := fun i j : bool => if Bool.eqb i j then 0%Qc else 1%Qc).
  destruct (tensored_gamma (tensored_init (fun a => a) [x]) None) as [[g|]|] eqn:E; try (vm_compute in E; discriminate).
  specialize (H (fun a => a) [x] g). rewrite E in H.
  assert (Hg : (this g == -1)%Q) by (vm_compute in E; injection E as <-; reflexivity).
  assert (Hx : stochastic2 x).
  { split; [intros [] []; cbv; discriminate | intros []; apply Qc_is_canon; reflexivity]. }
  specialize (H (Forall_cons _ Hx (Forall_nil _))). specialize (H ltac:(repeat constructor; intros Ex; apply (f_equal this) in Ex; vm_compute in Ex; discriminate) eq_refl).
  unfold Qcle in H. rewrite Hg in H. vm_compute in H. apply H. reflexivity.
Qed.
Print Assumptions C31_gamma_negative_refuted.

(** The matrices reported for other qubit lists are not those of the list. *)
Theorem C31_subset_matrix_refuted : ~ (forall mats qs ms, Forall2 (fun q a => nth_error mats q = Some a) qs ms -> qs <> [] -> NoDup qs ->
  exists m, tensored_matrix mats (Some qs) = Ok (2 ^ length qs, m) /\
    forall i j, i < 2 ^ length qs -> j < 2 ^ length qs -> m i j = tensor_entry ms i j).
Proof.
  intros H. destruct (H [ex_mat 1 1; ex_mat 2 2] [1; 0] [ex_mat 2 2; ex_mat 1 1]) as (m & E & Hm).
  - repeat constructor.
  - discriminate.
  - repeat constructor; cbn; intuition lia.
  - cbn in E. injection E as <-. specialize (Hm 0 0 ltac:(cbn; lia) ltac:(cbn; lia)). apply (f_equal this) in Hm. vm_compute in Hm. discriminate.
Qed.
Print Assumptions C31_subset_matrix_refuted.
Example C31_subset_matrix_raises : tensored_matrix [ex_mat 1 1; ex_mat 2 2; ex_mat 3 3] (Some [1; 2]) = Err IndexError.
Proof. reflexivity. Qed.

(** Without a qubit list and with more calibrated than measured qubits, no
    error is raised and the value is wrong, even for the constant observable 1. *)
Theorem C31_surplus_refuted : ~ (forall pinv2 amats c e v, Forall invertible2 amats -> well_formed 1 c None None ->
  tensored_expectation (tensored_init pinv2 amats) c (Some [1; 1]%Qc) None None = Ok (Some e, v) -> e = 1%Qc).
Proof.
  intros H. set (a := ex_mat 1 2). set (c := [(str "0", 1%Z)] : counts).
  destruct (tensored_expectation (tensored_init (fun a => a) [a; a]) c (Some [1; 1]%Qc) None None) as [[[e|] v]|] eqn:E;
    try (vm_compute in E; discriminate).
  assert (He : (this e == 4 # 5)%Q) by (vm_compute in E; injection E as <- <-; reflexivity).
  specialize (H (fun a => a) [a; a] c e v). rewrite H in He; [vm_compute in He; discriminate | | | exact E].
  - repeat constructor; intros Ex; apply (f_equal this) in Ex; vm_compute in Ex; discriminate.
  - split; [lia|]. split; [split; [discriminate|]; split|].
    + repeat constructor; cbn; auto.
    + intros k v' [[= <- <-]|[]]. split; [reflexivity|]. intros ch [<-|[]]. left; reflexivity.
    + intros k v' [[= <- <-]|[]]. reflexivity.
Qed.
Print Assumptions C31_surplus_refuted.

(** ** C32 *)

(** For every list of distinct qubits, if numpy inverts the matrix of the
    (sorted) qubits, the value on noisy frequencies [A p] is exact for the
    observable read in the order of increasing qubits. *)
Theorem C32_exact_rearranged inv pinv cm asc qs n c diag clbits sel p M d' :
  well_formed n c clbits sel -> total c <> 0%Z ->
  increasing_version asc qs -> length qs = n -> (forall q, In q qs -> q < cm_n cm) ->
  is_marginal (cm_n cm) (cm_amat cm) qs M ->
  (forall S, is_marginal (cm_n cm) (cm_amat cm) asc S -> exists B, inv (2 ^ n) S = Some B /\ left_inverse (2 ^ n) B S) ->
  (forall d, diag = Some d -> length d = 2 ^ n) ->
  as_listed asc qs n (diag_entry diag n) d' ->
  (forall y, y < 2 ^ n -> freq c sel y = sum_lt (2 ^ n) (fun x => M y x * p x)%Qc) ->
  exists v, complete_expectation inv pinv cm c diag (Some qs) clbits = Ok (Some (sum_lt (2 ^ n) (fun x => d' x * p x)%Qc), v) /\ (0 <= v)%Qc.
Proof. exact (complete_exact inv pinv cm asc qs n c diag clbits sel p M d'). Qed.
Print Assumptions C32_exact_rearranged.

(** Hence exact for increasing lists, for the parity, and without a list. *)
Theorem C32_exact_sorted inv pinv cm qs n c diag clbits sel p M :
  well_formed n c clbits sel -> total c <> 0%Z ->
  StronglySorted lt qs -> length qs = n -> (forall q, In q qs -> q < cm_n cm) ->
  is_marginal (cm_n cm) (cm_amat cm) qs M ->
  (forall S, is_marginal (cm_n cm) (cm_amat cm) qs S -> exists B, inv (2 ^ n) S = Some B /\ left_inverse (2 ^ n) B S) ->
  (forall d, diag = Some d -> length d = 2 ^ n) ->
  (forall y, y < 2 ^ n -> freq c sel y = sum_lt (2 ^ n) (fun x => M y x * p x)%Qc) ->
  exists v, complete_expectation inv pinv cm c diag (Some qs) clbits
    = Ok (Some (sum_lt (2 ^ n) (fun x => diag_entry diag n x * p x)%Qc), v) /\ (0 <= v)%Qc.
Proof. exact (complete_exact_sorted inv pinv cm qs n c diag clbits sel p M). Qed.
Print Assumptions C32_exact_sorted.

Theorem C32_exact_parity inv pinv cm asc qs n c clbits sel p M :
  well_formed n c clbits sel -> total c <> 0%Z ->
  increasing_version asc qs -> length qs = n -> (forall q, In q qs -> q < cm_n cm) ->
  is_marginal (cm_n cm) (cm_amat cm) qs M ->
  (forall S, is_marginal (cm_n cm) (cm_amat cm) asc S -> exists B, inv (2 ^ n) S = Some B /\ left_inverse (2 ^ n) B S) ->
  (forall y, y < 2 ^ n -> freq c sel y = sum_lt (2 ^ n) (fun x => M y x * p x)%Qc) ->
  exists v, complete_expectation inv pinv cm c None (Some qs) clbits
    = Ok (Some (sum_lt (2 ^ n) (fun x => z_parity_index n x * p x)%Qc), v) /\ (0 <= v)%Qc.
Proof. exact (complete_exact_parity inv pinv cm asc qs n c clbits sel p M). Qed.
Print Assumptions C32_exact_parity.

Theorem C32_exact_no_list inv pinv cm n c diag clbits sel p M :
  well_formed n c clbits sel -> total c <> 0%Z -> n <= cm_n cm ->
  is_marginal (cm_n cm) (cm_amat cm) (seq 0 n) M ->
  (forall S, is_marginal (cm_n cm) (cm_amat cm) (seq 0 n) S -> exists B, inv (2 ^ n) S = Some B /\ left_inverse (2 ^ n) B S) ->
  (forall d, diag = Some d -> length d = 2 ^ n) ->
  (forall y, y < 2 ^ n -> freq c sel y = sum_lt (2 ^ n) (fun x => M y x * p x)%Qc) ->
  exists v, complete_expectation inv pinv cm c diag None clbits
    = Ok (Some (sum_lt (2 ^ n) (fun x => diag_entry diag n x * p x)%Qc), v) /\ (0 <= v)%Qc.
Proof. exact (complete_exact_all inv pinv cm n c diag clbits sel p M). Qed.
Print Assumptions C32_exact_no_list.

(** On the whole register the marginal matrix is the matrix itself. *)
Theorem C32_whole_register n a M : is_marginal n a (seq 0 n) M -> forall y x, y < 2 ^ n -> x < 2 ^ n -> M y x = a y x.
Proof. exact (full_marginal n a M). Qed.
Print Assumptions C32_whole_register.

(** With perfect readout the value is the mean over the counts of the
    observable, read in the order of increasing qubits. *)
Theorem C32_identity inv pinv N asc qs n c diag clbits sel d' :
  well_formed n c clbits sel -> total c <> 0%Z ->
  increasing_version asc qs -> length qs = n -> (forall q, In q qs -> q < N) ->
  (forall S, (forall y x, y < 2 ^ n -> x < 2 ^ n -> S y x = identity_matrix y x) ->
     exists B, inv (2 ^ n) S = Some B /\ left_inverse (2 ^ n) B S) ->
  (forall d, diag = Some d -> length d = 2 ^ n) ->
  as_listed asc qs n (diag_entry diag n) d' ->
  exists v, complete_expectation inv pinv {| cm_n := N; cm_amat := identity_matrix |} c diag (Some qs) clbits
    = Ok (Some (mean_of (fun k => d' (binary_value 0 (outcome_sel sel k))) c), v) /\ (0 <= v)%Qc.
Proof. exact (complete_identity inv pinv N asc qs n c diag clbits sel d'). Qed.
Print Assumptions C32_identity.

(** Increasing lists leave the observable as it is; the parity is the same in
    any order. *)
Theorem C32_as_listed_sorted asc n d : StronglySorted lt asc -> length asc = n -> as_listed asc asc n d d.
Proof. exact (as_listed_sorted asc n d). Qed.
Print Assumptions C32_as_listed_sorted.
Theorem C32_as_listed_parity asc qs n : increasing_version asc qs -> length qs = n -> as_listed asc qs n (z_parity_index n) (z_parity_index n).
Proof. exact (as_listed_parity asc qs n). Qed.
Print Assumptions C32_as_listed_parity.

(** Gamma is the largest absolute column sum of the inverse. *)
Theorem C32_gamma inv pinv cm asc qubits :
  match qubits with Some qs => increasing_version asc qs | None => asc = seq 0 (cm_n cm) end ->
  (forall q, In q asc -> q < cm_n cm) ->
  (forall S, is_marginal (cm_n cm) (cm_amat cm) asc S -> exists B, inv (2 ^ length asc) S = Some B /\ left_inverse (2 ^ length asc) B S) ->
  exists g M B, complete_gamma inv pinv cm qubits = Ok g /\ is_marginal (cm_n cm) (cm_amat cm) asc M /\
    left_inverse (2 ^ length asc) B M /\ max_column_sum (2 ^ length asc) B g.
Proof. exact (complete_gamma_all inv pinv cm asc qubits). Qed.
Print Assumptions C32_gamma.

(** An observable on a list that is not increasing is evaluated on the wrong
    qubits: even with perfect readout, mitigation changes the value. *)
Theorem C32_permuted_refuted : ~ (forall inv pinv N qs n c d sel,
  well_formed n c None sel -> total c <> 0%Z -> NoDup qs -> length qs = n -> (forall q, In q qs -> q < N) ->
  (forall S, (forall y x, y < 2 ^ n -> x < 2 ^ n -> S y x = identity_matrix y x) ->
     exists B, inv (2 ^ n) S = Some B /\ left_inverse (2 ^ n) B S) ->
  length d = 2 ^ n ->
  exists v v' e, complete_expectation inv pinv {| cm_n := N; cm_amat := identity_matrix |} c (Some d) (Some qs) None = Ok (Some e, v) /\
    expectation_value c (Some d) None = Ok (Some e, v')).
Proof.
  intros H.
  destruct (H (fun _ _ => Some identity_matrix) (fun _ m => m) 2 [1; 0] 2 [(str "01", 1%Z)] [0; 1; 0; 0]%Qc None) as (v & v' & e & H1 & H2).
  - split; [lia|]. split; [split; [discriminate|]; split|].
    + repeat constructor; cbn; auto.
    + intros k w [[= <- <-]|[]]. split; [reflexivity|]. intros ch [<-|[<-|[]]]; [left | right]; reflexivity.
    + intros k w [[= <- <-]|[]]. reflexivity.
  - cbn. lia.
  - repeat constructor; cbn; intuition lia.
  - reflexivity.
  - intros q [<-|[<-|[]]]; lia.
  - intros S HS. exists identity_matrix. split; [reflexivity|]. intros x x' Hx Hx'. unfold sum_lt.
    rewrite (qsum_ext _ (fun y => if eqb x y then S y x' else 0%Qc)).
    + rewrite (qsum_pick (seq 0 (2 ^ 2)) x (fun y => S y x')); [apply HS; assumption | apply seq_NoDup | apply in_seq; lia].
    + intros y _. unfold identity_matrix. change (eqb x y) with (x =? y). destruct (x =? y); ring.
  - reflexivity.
  - vm_compute in H1. injection H1 as <- _. vm_compute in H2. injection H2 as E _. discriminate E.
Qed.
Print Assumptions C32_permuted_refuted.

Example C32_example : exists e v,
  complete_expectation (fun _ m => Some identity_matrix) (fun _ m => m) {| cm_n := 3; cm_amat := identity_matrix |}
    [(str "01", 3%Z); (str "11", 1%Z)] (Some [ofZ 2; ofZ 3; ofZ 5; ofZ 7]) (Some [0; 2]) None = Ok (Some e, v) /\ (this e == 4)%Q.
Proof. do 2 eexists. split; [reflexivity|]. vm_compute. reflexivity. Qed.

(** ** C33 *)

(** For any calibration data and any list of qubits: either a column has no
    shots and an error is raised, or the result is the matrix of relative
    frequencies among the shots without error on the other qubits, and its
    columns sum to 1. *)
Theorem C33_local data n qs :
  (assignment_matrix data n (Some qs) = Err QiskitError /\ exists x, x < 2 ^ length qs /\ prepared_shots data n qs x = 0%Z) \/
  exists A, assignment_matrix data n (Some qs) = Ok (2 ^ length qs, A) /\
    (forall x, x < 2 ^ length qs -> prepared_shots data n qs x <> 0%Z) /\
    (forall y x, A y x = (ofZ (joint_shots data n qs y x) / ofZ (prepared_shots data n qs x))%Qc) /\
    (forall x, x < 2 ^ length qs -> sum_lt (2 ^ length qs) (fun y => A y x) = 1%Qc).
Proof. exact (assignment_local_lemma data n qs). Qed.
Print Assumptions C33_local.

(** The same for the whole register. *)
Theorem C33_full data n : (forall p m v, In (p, m, v) (cal_shots data) -> p < 2 ^ n /\ m < 2 ^ n) ->
  (assignment_matrix data n None = Err QiskitError /\ exists x, x < 2 ^ n /\ prepared_full data x = 0%Z) \/
  exists A, assignment_matrix data n None = Ok (2 ^ n, A) /\
    (forall x, x < 2 ^ n -> prepared_full data x <> 0%Z) /\
    (forall y x, A y x = (ofZ (joint_full data y x) / ofZ (prepared_full data x))%Qc) /\
    (forall x, x < 2 ^ n -> sum_lt (2 ^ n) (fun y => A y x) = 1%Qc).
Proof. exact (assignment_full_lemma data n). Qed.
Print Assumptions C33_full.

(** The whole register is the list of qubits in decreasing order: the first
    listed qubit is the most significant bit. *)
Theorem C33_full_is_decreasing_list data n y x :
  (forall p m v, In (p, m, v) (cal_shots data) -> p < 2 ^ n /\ m < 2 ^ n) ->
  joint_shots data n (rev (seq 0 n)) y x = joint_full data y x /\
  prepared_shots data n (rev (seq 0 n)) x = prepared_full data x.
Proof. exact (full_is_reversed_lemma data n y x). Qed.
Print Assumptions C33_full_is_decreasing_list.

Definition ex_cal : cal_data := [(0, [(0, 3%Z); (1, 1%Z)]); (1, [(1, 4%Z)]); (2, [(2, 2%Z); (0, 2%Z)]); (3, [(3, 4%Z)])].
Example C33_example : (forall p m v, In (p, m, v) (cal_shots ex_cal) -> p < 2 ^ 2 /\ m < 2 ^ 2) /\
  (exists A, assignment_matrix ex_cal 2 None = Ok (4, A) /\ map (fun y => this (A y 0)) (seq 0 4) = map Qred [3 # 4; 1 # 4; 0; 0]%Q) /\
  (exists A, assignment_matrix ex_cal 2 (Some [0; 1]) = Ok (4, A) /\ map (fun y => this (A y 0)) (seq 0 4) = map Qred [3 # 4; 0; 1 # 4; 0]%Q) /\
  assignment_matrix [(0, [(0, 3%Z)])] 1 None = Err QiskitError.
Proof.
  split; [|split; [|split; [|reflexivity]]].
  - intros p m v H. cbn in H. repeat destruct H as [[= <- <- <-]|H]; cbn; try lia; destruct H.
  - eexists. split; [reflexivity|]. vm_compute. reflexivity.
  - eexists. split; [reflexivity|]. vm_compute. reflexivity.
Qed.

(** ** C59 *)

(** The calibration circuits, for given labels or those of the method, prepare
    and measure exactly the basis states recorded in their metadata. *)
Theorem C59_circuits n method labels ls :
  match labels with Some l => l = ls /\ forall s, In s ls -> length s = n /\ is_bits s | None => 1 <= n /\ method_labels n method = Ok ls end ->
  exists cs ms, meas_mitigator_circuits n method labels = Ok (cs, ms) /\
    map mt_cal ms = ls /\ map noiseless_outcome cs = ls /\
    (forall m, In m ms -> mt_experiment m = Some (str "meas_mit") /\ mt_method m = Some method) /\
    (forall c, In c cs -> c_nq c = n /\ c_ncl c = n).
Proof. exact (circuits_lemma n method labels ls). Qed.
Print Assumptions C59_circuits.

(** The labels of the methods. *)
Theorem C59_complete_labels n : 1 <= n -> exists ls, method_labels n (str "complete") = Ok ls /\ NoDup ls /\
  forall s, In s ls <-> length s = n /\ is_bits s.
Proof. exact (labels_complete n). Qed.
Print Assumptions C59_complete_labels.
Theorem C59_tensored_labels n : method_labels n (str "tensored") = Ok [repeat "0"%char n; repeat "1"%char n].
Proof. exact (labels_tensored n). Qed.
Print Assumptions C59_tensored_labels.
Theorem C59_ctmp_labels n method : method = str "CTMP" \/ method = str "ctmp" ->
  exists singles, method_labels n method = Ok ([repeat "0"%char n; repeat "1"%char n] ++ singles) /\
    length singles = n /\ forall i, i < n -> exists s, nth_error singles i = Some s /\ excited n i s.
Proof. exact (labels_ctmp n method). Qed.
Print Assumptions C59_ctmp_labels.
Theorem C59_unknown_method n method : method <> str "complete" -> method <> str "tensored" -> method <> str "CTMP" -> method <> str "ctmp" ->
  method_labels n method = Err QiskitError.
Proof. exact (labels_unknown n method). Qed.
Print Assumptions C59_unknown_method.

(** The calibration data add up the counts of all the experiments with the same
    prepared state, ignoring experiments that are not calibrations. *)
Theorem C59_calibration_data counts ms cs :
  Forall2 (fun i c => counts i = Ok c) (seq 0 (length ms)) cs ->
  (forall m, In m ms -> mt_experiment m = Some (str "meas_mit") -> is_bits (mt_cal m) /\ mt_cal m <> [] /\ mt_method m <> None) ->
  exists d nq meth, calibration_data counts ms = Ok (d, nq, meth) /\
    forall y x, joint_full d y x
      = recorded (map (fun mc => (match mt_experiment (fst mc) with
                                  | Some e => if eqb e (str "meas_mit") then Some (mt_cal (fst mc)) else None
                                  | None => None end, snd mc)) (combine ms cs)) y x.
Proof. exact (calibration_all counts ms cs). Qed.
Print Assumptions C59_calibration_data.

(** The matrices of the tensored fit are the frequencies of flips of each qubit
    among shots without error on the others. *)
Theorem C59_fit_tensored pinv2 data n tm : fit_tensored pinv2 data n = Ok tm ->
  length (tm_amats tm) = n /\ tm = tensored_init pinv2 (tm_amats tm) /\
  forall q a, nth_error (tm_amats tm) q = Some a ->
    forall (i j : bool), a i j = (ofZ (joint_shots data n [q] (Nat.b2n i) (Nat.b2n j)) / ofZ (prepared_shots data n [q] (Nat.b2n j)))%Qc /\
      (a false j + a true j)%Qc = 1%Qc.
Proof. exact (fit_tensored_lemma pinv2 data n tm). Qed.
Print Assumptions C59_fit_tensored.

Example C59_example : exists cs ms, meas_mitigator_circuits 3 (str "CTMP") None = Ok (cs, ms) /\
  map mt_cal ms = map str ["000"; "111"; "001"; "010"; "100"] /\
  map noiseless_outcome cs = map str ["000"; "111"; "001"; "010"; "100"].
Proof. do 2 eexists. split; [reflexivity|]. split; reflexivity. Qed.
Example C59_fit_example : exists tm, fit_tensored (fun a => a) [(0, [(0, 3%Z); (1, 1%Z)]); (3, [(3, 4%Z)])] 2 = Ok tm.
Proof. eexists. reflexivity. Qed.
