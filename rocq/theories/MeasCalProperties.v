(** Properties C06-C12: measurement calibration. *)
From Coq Require Import QArith.
From Verif Require Import LinAlg Base CountsModel CountsSpec CountsProofs BasisSem MeasCalModel MeasCalSpec
  MeasCalCircProofs MeasCalFitProofs MeasCalFidProofs MeasCalFilterProofs MeasCalTensorProofs MeasCalSubsetProofs.
Open Scope nat_scope.

(** * C06 *)

(** Every returned circuit, run without noise, reads the outcome in its own
    name (padded with zeros on the left when the classical register is larger
    than needed), and measures the pattern's qubits into successive bits. *)
Theorem C06_circuits_read_back_label mp qr cr lab circs pat :
  tensored_meas_cal mp qr cr lab = Ok (circs, pat) -> concat pat <> [] ->
  forall c, In c circs -> exists b,
    c_name c = lab ++ str "cal_" ++ b /\
    length b = length (concat pat) /\ is_bits b /\ length b <= c_ncl c /\
    noiseless_outcome c = repeat "0"%char (c_ncl c - length b) ++ b /\
    measurements (c_body c) = combine (concat pat) (seq 0 (length (concat pat))).
Proof. intros H Hne. exact (proj2 (proj2 (C06_lemma _ _ _ _ _ _ H Hne))). Qed.
Print Assumptions C06_circuits_read_back_label.

(** The call succeeds for every pattern of distinct qubits and registers large
    enough. *)
Theorem C06_tensored_succeeds pat q cr lab :
  NoDup (concat pat) -> concat pat <> [] -> (forall x, In x (concat pat) -> x < q) ->
  (match cr with Some c => length (concat pat) <= c | None => True end) ->
  exists circs, tensored_meas_cal (Some pat) (Some q) cr lab = Ok (circs, pat).
Proof. exact (C06_succeeds_lemma pat q cr lab). Qed.
Print Assumptions C06_tensored_succeeds.

(** Without a register, one just large enough for the pattern is used; without
    a pattern, all qubits of the register are. *)
Theorem C06_default_register pat cr lab :
  NoDup (concat pat) -> concat pat <> [] ->
  (match cr with Some c => length (concat pat) <= c | None => True end) ->
  exists circs q, tensored_meas_cal (Some pat) None cr lab = Ok (circs, pat) /\
    In q (concat pat) /\ (forall x, In x (concat pat) -> x <= q) /\ forall c, In c circs -> c_nq c = q + 1.
Proof. exact (C06_default_register_lemma pat cr lab). Qed.
Print Assumptions C06_default_register.

Theorem C06_whole_register q cr lab : 1 <= q ->
  (match cr with Some c => q <= c | None => True end) ->
  exists circs, tensored_meas_cal None (Some q) cr lab = Ok (circs, [seq 0 q]).
Proof. exact (C06_whole_register_lemma q cr lab). Qed.
Print Assumptions C06_whole_register.

Theorem C06_complete_read_back ql qr cr lab circs labels :
  complete_meas_cal ql qr cr lab = Ok (circs, labels) ->
  let used := match ql with Some l => l | None => seq 0 (match qr with Some q => q | None => 0 end) end in
  used <> [] ->
  labels = count_keys (length used) /\ NoDup used /\
  map c_name circs = map (fun b => lab ++ str "cal_" ++ b) labels /\
  forall c b, In c circs -> c_name c = lab ++ str "cal_" ++ b ->
    length used <= c_ncl c /\
    noiseless_outcome c = repeat "0"%char (c_ncl c - length used) ++ b /\
    measurements (c_body c) = combine used (seq 0 (length used)).
Proof. exact (complete_lemma ql qr cr lab circs labels). Qed.
Print Assumptions C06_complete_read_back.

Example C06_example :
  exists circs, tensored_meas_cal (Some [[2; 4]; [1]]) None None (str "x") = Ok (circs, [[2; 4]; [1]]) /\
    length circs = 4 /\ In (str "xcal_110") (map c_name circs) /\
    map noiseless_outcome circs = [str "000"; str "001"; str "110"; str "111"].
Proof. eexists. split; [vm_compute; reflexivity|]. vm_compute. auto 6. Qed.

(** * C07 *)

(** [2^m] circuits with distinct names; every state of every group is prepared
    by exactly [2^(m - size)] of them. *)
Theorem C07_labels_complete mp qr cr lab circs pat :
  tensored_meas_cal mp qr cr lab = Ok (circs, pat) -> concat pat <> [] ->
  exists m labels,
    In m (map (@length nat) pat) /\ (forall g, In g pat -> length g <= m) /\
    map c_name circs = map (fun b => lab ++ str "cal_" ++ b) labels /\
    length circs = 2 ^ m /\ NoDup (map c_name circs) /\
    forall g y, g < length pat -> length y = length (nth g pat []) -> is_bits y ->
      length (filter (fun b => eqb (group_part (map (@length nat) pat) g b) y) labels)
      = 2 ^ (m - length y).
Proof. exact (C07_lemma mp qr cr lab circs pat). Qed.
Print Assumptions C07_labels_complete.

Theorem C07_repeated_qubit_rejected pat qr cr lab :
  ~ NoDup (concat pat) -> tensored_meas_cal (Some pat) qr cr lab = Err QiskitError.
Proof. exact (C07_reject_lemma pat qr cr lab). Qed.
Print Assumptions C07_repeated_qubit_rejected.

Theorem C07_no_input_rejected cr lab :
  tensored_meas_cal None None cr lab = Err QiskitError /\ complete_meas_cal None None cr lab = Err QiskitError.
Proof. split; reflexivity. Qed.
Print Assumptions C07_no_input_rejected.

Example C07_example : tensored_meas_cal (Some [[0; 1]; [1]]) None None [] = Err QiskitError.
Proof. reflexivity. Qed.

(** * C08 *)

(** After any history of calls that ended normally, the matrices are the
    pooled conditional frequencies of the data present at the last rebuild. *)
Theorem C08_matrices_are_frequencies r0 pat sub lab f0' ops f :
  tensored_fitter r0 pat sub lab = Ok f0' -> run_history f0' ops = Ok f ->
  let sizes := map (@length nat) pat in
  let labels := match sub with Some l => l | None => map count_keys sizes end in
  Forall2 complete_labels sizes labels ->
  match snapshot [] None ((r0, true) :: ops) with
  | None => ft_cal f = None
  | Some rs => exists ms, ft_cal f = Some ms /\ length ms = length pat /\
      forall sh, data_ok lab (fold_right Nat.add 0 sizes) rs sh ->
      forall g i j, g < length pat -> i < 2 ^ nth g sizes 0 -> j < 2 ^ nth g sizes 0 ->
        nth g ms (fun _ _ => 0%Q) i j
        = frequency (pooled sizes g sh (nth i (nth g labels []) []) (nth j (nth g labels []) []))
                    (prepared_shots sizes g sh (nth j (nth g labels []) []))
  end.
Proof. exact (C08_history_lemma r0 pat sub lab f0' ops f). Qed.
Print Assumptions C08_matrices_are_frequencies.

(** Well-formed data is always accepted. *)
Theorem C08_no_error rs pat lab sh :
  (forall g, In g pat -> g <> []) ->
  data_ok lab (fold_right Nat.add 0 (map (@length nat) pat)) rs sh ->
  exists f, tensored_fitter (Some rs) pat None lab = Ok f.
Proof. exact (C08_no_error_lemma rs pat lab sh). Qed.
Print Assumptions C08_no_error.

(** These frequencies form, in every column, a probability vector, or zeros
    when nothing was prepared. *)
Theorem C08_columns_stochastic_or_zero sizes labels g sh x :
  Forall2 complete_labels sizes labels -> g < length sizes ->
  well_formed_shots (fold_right Nat.add 0 sizes) sh ->
  let col i := frequency (pooled sizes g sh (nth i (nth g labels []) []) x) (prepared_shots sizes g sh x) in
  (prepared_shots sizes g sh x <> 0%Z -> (qsum (map col (seq 0%nat (2 ^ nth g sizes 0)%nat)) == 1)%Q) /\
  (prepared_shots sizes g sh x = 0%Z -> forall i, col i = 0%Q) /\
  ((forall p m c, In (p, m, c) sh -> (0 <= c)%Z) -> forall i, (0 <= col i)%Q).
Proof. exact (frequency_columns sizes labels g sh x). Qed.
Print Assumptions C08_columns_stochastic_or_zero.

(** Order and batching of the experiments do not matter. *)
Theorem C08_order_and_batching_irrelevant lab sizes labels rs rs' sh ms ms' :
  Forall2 complete_labels sizes labels ->
  data_ok lab (fold_right Nat.add 0 sizes) rs sh -> Permutation (concat rs) (concat rs') ->
  (forall r, In r rs' -> NoDup (map e_name r)) ->
  build_matrices lab sizes labels rs = Ok ms -> build_matrices lab sizes labels rs' = Ok ms' ->
  forall g i j, g < length sizes -> i < 2 ^ nth g sizes 0 -> j < 2 ^ nth g sizes 0 ->
    nth g ms (fun _ _ => 0%Q) i j = nth g ms' (fun _ _ => 0%Q) i j.
Proof.
  intros Hl Hd Hp Hnd Hb Hb' g i j Hg Hi Hj.
  destruct (data_ok_perm _ _ _ _ _ Hd Hp Hnd) as (sh' & Hd' & Hps).
  destruct (build_matrices_spec lab sizes labels rs sh Hl Hd) as (m1 & E1 & _ & S1).
  destruct (build_matrices_spec lab sizes labels rs' sh' Hl Hd') as (m2 & E2 & _ & S2).
  rewrite Hb in E1. injection E1 as ->. rewrite Hb' in E2. injection E2 as ->.
  rewrite S1, S2 by assumption. rewrite (pooled_perm _ _ _ _ _ _ Hps), (prepared_perm _ _ _ _ _ Hps). reflexivity.
Qed.
Print Assumptions C08_order_and_batching_irrelevant.

(** Noiseless runs of the calibration circuits give identity matrices. *)
Theorem C08_noiseless_calibration_is_identity pat qr lab circs pat' n :
  tensored_meas_cal (Some pat) qr None lab = Ok (circs, pat') -> pat <> [] -> (forall g, In g pat -> g <> []) ->
  (forall c, In c circs -> (0 < n c)%Z) ->
  exists f ms, tensored_fitter (Some [noiseless_result n circs]) pat None lab = Ok f /\ ft_cal f = Some ms /\
    forall g i j, g < length pat -> i < 2 ^ length (nth g pat []) -> j < 2 ^ length (nth g pat []) ->
       (nth g ms (fun _ _ => 0%Q) i j == if (i =? j)%nat then 1 else 0)%Q.
Proof.
  intros H H1 H2 H3. destruct (noiseless_fit_lemma pat qr lab circs pat' n H H1 H2 H3) as (f & ms & Hf & Hm & Hi & _).
  exists f, ms. auto.
Qed.
Print Assumptions C08_noiseless_calibration_is_identity.

(** With a classical register larger than the number of qubits the fitter
    looks at the wrong characters: a noiseless run of the calibration circuits
    does not give the identity. *)
Theorem C08_wide_register_refuted :
  exists circs f ms,
    tensored_meas_cal (Some [[0]]) (Some 1) (Some 2) [] = Ok (circs, [[0]]) /\
    tensored_fitter (Some [noiseless_result (fun _ => 100%Z) circs]) [[0]] None [] = Ok f /\
    ft_cal f = Some ms /\ ~ (nth 0 ms (fun _ _ => 0%Q) 1%nat 1%nat == 1)%Q.
Proof.
  eexists _, _, _. split; [vm_compute; reflexivity|]. split; [vm_compute; reflexivity|].
  split; [cbn [ft_cal]; reflexivity|]. vm_compute. intros H; discriminate H.
Qed.
Print Assumptions C08_wide_register_refuted.

(** Two experiments with the same name in one result: the first is counted
    twice and the second not at all. *)
Theorem C08_repeated_name_refuted :
  let r := [ {| e_name := str "cal_0"; e_counts := [(str "0", 10%Z)] |};
             {| e_name := str "cal_0"; e_counts := [(str "1", 10%Z)] |} ] in
  let sh := [(str "0", str "0", 10%Z); (str "0", str "1", 10%Z)] in
  exps_shots [] r [[(str "0", str "0", 10%Z)]; [(str "0", str "1", 10%Z)]] /\
  exists f ms, tensored_fitter (Some [r]) [[0]] None [] = Ok f /\ ft_cal f = Some ms /\
    ~ (nth 0 ms (fun _ _ => 0%Q) 0%nat 0%nat
       == frequency (pooled [1%nat] 0%nat sh (str "0") (str "0")) (prepared_shots [1%nat] 0%nat sh (str "0")))%Q.
Proof.
  split.
  - assert (Hb : is_bits (str "0")) by (intros c [<-|[]]; left; reflexivity).
    constructor; [|constructor; [|constructor]].
    + apply (ES_cal [] (str "0") [(str "0", 10%Z)]); [discriminate | exact Hb].
    + apply (ES_cal [] (str "0") [(str "1", 10%Z)]); [discriminate | exact Hb].
  - eexists _, _. split; [vm_compute; reflexivity|]. split; [cbn [ft_cal]; reflexivity|].
    vm_compute. intros H; discriminate H.
Qed.
Print Assumptions C08_repeated_name_refuted.

(** Non-vacuity: a noisy two-group calibration with an extra foreign circuit. *)
Example C08_example :
  let r := [ {| e_name := str "cal_00"; e_counts := [(str "00", 90%Z); (str "01", 10%Z)] |};
             {| e_name := str "cal_11"; e_counts := [(str "11", 80%Z); (str "01", 20%Z)] |};
             {| e_name := str "bell"; e_counts := [(str "11", 5%Z)] |} ] in
  (exists sh, data_ok [] 2 [r] sh) /\
  exists f ms, tensored_fitter (Some [r]) [[3]; [5]] None [] = Ok f /\ ft_cal f = Some ms /\
    (nth 0 ms (fun _ _ => 0%Q) 1%nat 0%nat == 1 # 10)%Q /\ (nth 1 ms (fun _ _ => 0%Q) 0%nat 1%nat == 1 # 5)%Q.
Proof.
  split.
  - eexists. split; [|split].
    + intros r [<-|[]]. cbn. repeat constructor; cbn; intuition discriminate.
    + intros r e [<-|[]] He. repeat (destruct He as [<-|He]; [discriminate|]). destruct He.
    + eexists. split; [|split; [reflexivity|]].
      * cbn [concat app]. constructor; [|constructor; [|constructor; [|constructor]]].
        -- apply (ES_cal [] (str "00") [(str "00", 90%Z); (str "01", 10%Z)]); [discriminate|].
           intros c Hc; cbn in Hc; intuition.
        -- apply (ES_cal [] (str "11") [(str "11", 80%Z); (str "01", 20%Z)]); [discriminate|].
           intros c Hc; cbn in Hc; intuition.
        -- apply ES_foreign. intros u v E. assert (Hl := f_equal (@length ascii) E). rewrite !app_length in Hl. cbn in Hl.
           destruct u; [discriminate E | cbn in Hl; lia].
      * intros p m c Hin. cbn in Hin. repeat (destruct Hin as [[= <- <- <-]|Hin]; [cbn; repeat split; try (intros a Ha; cbn in Ha; intuition) |]). destruct Hin.
  - eexists _, _. split; [vm_compute; reflexivity|]. split; [cbn [ft_cal]; reflexivity|]. vm_compute. auto.
Qed.

(** * C09 *)

(** [MeasurementFilter]: the pseudo-inverse of an invertible calibration
    matrix is its inverse ([left_inverse]), which is all that is assumed of
    [scipy.linalg.pinv]. *)
Theorem C09_filter_undoes_noise {F} {HF : Fld F} pinv lsq labels cal (d : dict pystr F) x :
  NoDup labels -> NoDup (dkeys d) -> (forall k, In k (dkeys d) -> In k labels) ->
  left_inverse (length labels) (pinv cal) cal ->
  (forall i, i < length labels ->
     value_at d (nth i labels []) = fsum (map (fun k => fmul (cal i k) (x (nth k labels []))) (seq 0 (length labels)))) ->
  exists r, mf_apply_dict pinv lsq labels cal d PseudoInverse = Ok r /\ lists_nonzero r labels x.
Proof. exact (C09_mf_lemma pinv lsq labels cal d x). Qed.
Print Assumptions C09_filter_undoes_noise.

Theorem C09_filter_keeps_shots {F} {HF : Fld F} pinv lsq labels cal (d : dict pystr F) :
  NoDup labels -> NoDup (dkeys d) -> (forall k, In k (dkeys d) -> In k labels) ->
  left_inverse (length labels) cal (pinv cal) -> columns_sum_one (length labels) cal ->
  exists r, mf_apply_dict pinv lsq labels cal d PseudoInverse = Ok r /\ total_value r = total_value d.
Proof. exact (C09_mf_total_lemma pinv lsq labels cal d). Qed.
Print Assumptions C09_filter_keeps_shots.

(** [TensoredFilter]: the same for the tensor product of any number of
    calibration matrices. *)
Theorem C09_tensored_undoes_noise {F} {HF : Fld F} pinv (gs : list (cal_group F)) (d : dict pystr F) x :
  Forall group_ok gs -> 0 < groups_width gs ->
  NoDup (dkeys d) -> (forall k, In k (dkeys d) -> length k = groups_width gs /\ is_bits k) ->
  (forall g, In g gs -> left_inverse (2 ^ cg_size g) (pinv (cg_matrix g)) (cg_matrix g)) ->
  (forall y, length y = groups_width gs -> is_bits y ->
     value_at d y = fsum (map (fun z => fmul (kron (map (fun g => (cg_size g, cg_named g)) gs) y z) (x z))
                              (all_bits (groups_width gs)))) ->
  exists r, tf_apply_pinv pinv (map cg_labels gs) (map cg_matrix gs) d = Ok r /\
    lists_nonzero r (all_bits (groups_width gs)) x.
Proof. exact (C09_tf_lemma pinv gs d x). Qed.
Print Assumptions C09_tensored_undoes_noise.

Theorem C09_tensored_keeps_shots {F} {HF : Fld F} pinv (gs : list (cal_group F)) (d : dict pystr F) :
  Forall group_ok gs -> 0 < groups_width gs ->
  NoDup (dkeys d) -> (forall k, In k (dkeys d) -> length k = groups_width gs /\ is_bits k) ->
  (forall g, In g gs -> left_inverse (2 ^ cg_size g) (cg_matrix g) (pinv (cg_matrix g))) ->
  (forall g, In g gs -> columns_sum_one (2 ^ cg_size g) (cg_matrix g)) ->
  exists r, tf_apply_pinv pinv (map cg_labels gs) (map cg_matrix gs) d = Ok r /\ total_value r = total_value d.
Proof. exact (C09_tf_total_lemma pinv gs d). Qed.
Print Assumptions C09_tensored_keeps_shots.

(** Non-vacuity: two groups, each with error rate 1/4, inverse 3/2, -1/2. *)
Definition ex_cal (i j : nat) : Qcanon.Qc := if i =? j then qc 3 4 else qc 1 4.
Definition ex_inv (m : nat -> nat -> Qcanon.Qc) (i j : nat) : Qcanon.Qc := if i =? j then qc 3 2 else qc (-1) 2.
Definition ex_group : cal_group Qcanon.Qc :=
  {| cg_size := 1; cg_labels := [str "0"; str "1"]; cg_matrix := ex_cal;
     cg_named := fun a b => if eqb a b then qc 3 4 else qc 1 4 |}.
Example C09_example :
  left_inverse 2 (ex_inv ex_cal) ex_cal /\ columns_sum_one 2 ex_cal /\ named [str "0"; str "1"] ex_cal (cg_named ex_group) /\
  match tf_apply_pinv ex_inv (map cg_labels [ex_group; ex_group]) (map cg_matrix [ex_group; ex_group])
    [(str "00", qc 9 1); (str "01", qc 3 1); (str "10", qc 3 1); (str "11", qc 1 1)] with
  | Ok r => map (fun kv => (fst kv, Qcanon.this (snd kv))) r = [(str "00", (16 # 1)%Q)]
  | Err _ => False
  end.
Proof.
  split; [|split; [|split]].
  - intros [|[|i]] [|[|j]] Hi Hj; try lia; apply Qcanon.Qc_is_canon; vm_compute; reflexivity.
  - intros [|[|j]] Hj; try lia; apply Qcanon.Qc_is_canon; vm_compute; reflexivity.
  - intros [|[|i]] [|[|j]] Hi Hj; cbn in Hi, Hj; try lia; reflexivity.
  - vm_compute. reflexivity.
Qed.

(** * C10 *)

Theorem C10_unknown_label_rejected {F} {HF : Fld F} pinv lsq labels cal (d : dict pystr F) meth k :
  In k (dkeys d) -> ~ In k labels -> mf_apply_dict pinv lsq labels cal d meth = Err QiskitError.
Proof. exact (C10_label_lemma pinv lsq labels cal d meth k). Qed.
Print Assumptions C10_unknown_label_rejected.

Theorem C10_bad_length_rejected {F} {HF : Fld F} pinv lsq labels cal (data : list F) meth :
  labels <> [] -> length data mod length labels <> 0 ->
  mf_apply_list pinv lsq labels cal data meth = Err QiskitError.
Proof. exact (C10_length_lemma pinv lsq labels cal data meth). Qed.
Print Assumptions C10_bad_length_rejected.

(** Unknown methods are rejected for dictionaries and for non-empty lists. *)
Theorem C10_unknown_method_rejected {F} {HF : Fld F} pinv lsq labels cal :
  (forall d : dict pystr F, mf_apply_dict pinv lsq labels cal d OtherMethod = Err QiskitError) /\
  (forall data : list F, labels <> [] -> data <> [] -> mf_apply_list pinv lsq labels cal data OtherMethod = Err QiskitError).
Proof.
  split; [intros d|intros data H1 H2; exact (C10_method_list_lemma pinv lsq labels cal data H1 H2)].
  destruct (forallb (fun k => mem k labels) (dkeys d)) eqn:E.
  - apply C10_method_dict_lemma. intros k Hk. rewrite forallb_forall in E. apply mem_In, E, Hk.
  - unfold mf_apply_dict. rewrite E. reflexivity.
Qed.
Print Assumptions C10_unknown_method_rejected.

(** ... but not for an empty list. *)
Theorem C10_unknown_method_empty_list_refuted {F} {HF : Fld F} pinv lsq (cal : nat -> nat -> F) :
  exists labels data, labels <> [] /\ mf_apply_list pinv lsq labels cal data OtherMethod <> Err QiskitError.
Proof. exists [str "0"; str "1"], []. split; [discriminate|]. cbn. discriminate. Qed.
Print Assumptions C10_unknown_method_empty_list_refuted.

(** A list of blocks is corrected block by block. *)
Theorem C10_blocks_independent {F} {HF : Fld F} pinv lsq labels cal meth (blocks : list (list F)) outs :
  labels <> [] -> Forall (fun b => length b = length labels) blocks ->
  Forall2 (fun b o => mf_apply_list pinv lsq labels cal b meth = Ok o) blocks outs ->
  mf_apply_list pinv lsq labels cal (concat blocks) meth = Ok (concat outs).
Proof. exact (C10_blocks_lemma pinv lsq labels cal meth blocks outs). Qed.
Print Assumptions C10_blocks_independent.

(** A dictionary gives the numbers of the corresponding list. *)
Theorem C10_dict_matches_list {F} {HF : Fld F} pinv lsq labels cal (d : dict pystr F) meth (out : list F) :
  labels <> [] -> NoDup labels -> NoDup (dkeys d) -> (forall k, In k (dkeys d) -> In k labels) ->
  mf_apply_list pinv lsq labels cal (map (value_at d) labels) meth = Ok out -> length out = length labels ->
  exists r, mf_apply_dict pinv lsq labels cal d meth = Ok r /\ NoDup (map fst r) /\
    forall y v, In (y, v) r <-> v <> f0 /\ exists i, nth_error labels i = Some y /\ nth_error out i = Some v.
Proof. exact (C10_dict_list_lemma pinv lsq labels cal d meth out). Qed.
Print Assumptions C10_dict_matches_list.

Example C10_example :
  let out m := match m with Ok l => map Qcanon.this l | Err _ => [] end in
  out (mf_apply_list ex_inv (fun _ v => v) [str "0"; str "1"] ex_cal [qc 3 1; qc 1 1; qc 1 1; qc 3 1] PseudoInverse)
  = [(4 # 1)%Q; (0 # 1)%Q; (0 # 1)%Q; (4 # 1)%Q].
Proof. vm_compute. reflexivity. Qed.

(** * C11 *)

(** What [subset_fitter] computes on a product calibration: the product of the
    calibrations of the qubits in mirrored positions. *)
Theorem C11_subset_calibrates_mirrored_qubits {F} {HF : Fld F} ql sub (A : nat -> ascii -> ascii -> F) (cal : nat -> nat -> F) :
  fadd f1 f1 <> f0 ->
  NoDup ql -> NoDup sub -> sub <> [] -> incl sub ql ->
  (forall r c, r < length ql -> c = "0"%char \/ c = "1"%char -> fadd (A r "0"%char c) (A r "1"%char c) = f1) ->
  named (count_keys (length ql)) cal
    (fun y x => fprod (map (fun r => A r (qubit_bit y r) (qubit_bit x r)) (seq 0 (length ql)))) ->
  exists m, subset_matrix ql (count_keys (length ql)) cal sub = Ok (count_keys (length sub), m) /\
    named (count_keys (length sub)) m
      (fun y x => fprod (map (fun k => A (length ql - 1 - index_in ql (nth k sub 0)) (cat y k) (cat x k)) (seq 0 (length sub)))).
Proof. exact (C11_actual_lemma ql sub A cal). Qed.
Print Assumptions C11_subset_calibrates_mirrored_qubits.

(** It is the calibration of the requested qubits when the requested positions
    are symmetric (in particular when all qubits are requested in order). *)
Theorem C11_subset_symmetric_partial {F} {HF : Fld F} ql sub (A : nat -> ascii -> ascii -> F) (cal : nat -> nat -> F) :
  fadd f1 f1 <> f0 ->
  NoDup ql -> NoDup sub -> sub <> [] -> incl sub ql ->
  (forall r c, r < length ql -> c = "0"%char \/ c = "1"%char -> fadd (A r "0"%char c) (A r "1"%char c) = f1) ->
  named (count_keys (length ql)) cal
    (fun y x => fprod (map (fun r => A r (qubit_bit y r) (qubit_bit x r)) (seq 0 (length ql)))) ->
  (forall r, r < length sub ->
     index_in ql (nth r sub 0) + index_in ql (nth (length sub - 1 - r) sub 0) = length ql - 1) ->
  exists m, subset_matrix ql (count_keys (length ql)) cal sub = Ok (count_keys (length sub), m) /\
    named (count_keys (length sub)) m
      (fun y x => fprod (map (fun r => A (index_in ql (nth r sub 0)) (qubit_bit y r) (qubit_bit x r)) (seq 0 (length sub)))).
Proof. exact (C11_mirrored_lemma ql sub A cal). Qed.
Print Assumptions C11_subset_symmetric_partial.

(** In general it is not: with a perfect qubit 0 and a qubit 1 that always
    reads 0, the calibration returned for qubit 0 is that of qubit 1. *)
Definition ex_A (r : nat) (y x : ascii) : Qcanon.Qc :=
  if r =? 0 then (if eqb y x then qc 1 1 else qc 0 1) else (if eqb y "0"%char then qc 1 1 else qc 0 1).
Definition ex_cal2 (i j : nat) : Qcanon.Qc :=
  let ls := count_keys 2 in
  fprod (map (fun r => ex_A r (qubit_bit (nth i ls []) r) (qubit_bit (nth j ls []) r)) (seq 0 2)).
Theorem C11_subset_refuted :
  (forall r c, r < 2 -> c = "0"%char \/ c = "1"%char -> fadd (ex_A r "0"%char c) (ex_A r "1"%char c) = f1) /\
  exists m, subset_matrix [0; 1] (count_keys 2) ex_cal2 [0] = Ok (count_keys 1, m) /\
    m 1 1 <> ex_A 0 "1"%char "1"%char /\ m 1 1 = ex_A 1 "1"%char "1"%char.
Proof.
  split.
  - intros [|[|r]] c Hr [-> | ->]; try lia; apply Qcanon.Qc_is_canon; vm_compute; reflexivity.
  - eexists. split; [reflexivity|]. split.
    + intros E. apply (f_equal Qcanon.this) in E. vm_compute in E. discriminate E.
    + apply Qcanon.Qc_is_canon. vm_compute. reflexivity.
Qed.
Print Assumptions C11_subset_refuted.

(** * C12 *)

Theorem C12_fidelity_is_mean_diagonal f ms g ls m :
  ft_cal f = Some ms -> nth_error (ft_labels f) g = Some ls -> nth_error ms g = Some m ->
  NoDup ls -> ls <> [] ->
  exists q, readout_fidelity f g None = Ok q /\
    (q == qsum (map (fun i => m i i) (seq 0 (length ls))) / inject_Z (Z.of_nat (length ls)))%Q.
Proof. exact (readout_fidelity_diag f ms g ls m). Qed.
Print Assumptions C12_fidelity_is_mean_diagonal.

Theorem C12_fidelity_in_unit_interval f ms g ls m :
  ft_cal f = Some ms -> nth_error (ft_labels f) g = Some ls -> nth_error ms g = Some m ->
  NoDup ls -> ls <> [] -> (forall i, i < length ls -> (0 <= m i i <= 1)%Q) ->
  exists q, readout_fidelity f g None = Ok q /\ (0 <= q <= 1)%Q.
Proof. exact (C12_bounds_lemma f ms g ls m). Qed.
Print Assumptions C12_fidelity_in_unit_interval.

Theorem C12_noiseless_fidelity_is_one pat qr lab circs pat' n :
  tensored_meas_cal (Some pat) qr None lab = Ok (circs, pat') -> pat <> [] -> (forall g, In g pat -> g <> []) ->
  (forall c, In c circs -> (0 < n c)%Z) ->
  exists f, tensored_fitter (Some [noiseless_result n circs]) pat None lab = Ok f /\
    forall g, g < length pat -> exists q, readout_fidelity f g None = Ok q /\ (q == 1)%Q.
Proof.
  intros H H1 H2 H3. destruct (noiseless_fit_lemma pat qr lab circs pat' n H H1 H2 H3) as (f & ms & Hf & _ & _ & Hr).
  exists f. auto.
Qed.
Print Assumptions C12_noiseless_fidelity_is_one.

Theorem C12_no_calibration_rejected pat sub lab f g labels :
  tensored_fitter None pat sub lab = Ok f -> readout_fidelity f g labels = Err QiskitError.
Proof.
  unfold tensored_fitter. destruct (match sub with None => _ | Some _ => _ end) as [l|]; cbn [bind add_data]; [|discriminate].
  intros [= <-]. reflexivity.
Qed.
Print Assumptions C12_no_calibration_rejected.

Example C12_example :
  let r := [ {| e_name := str "cal_0"; e_counts := [(str "0", 90%Z); (str "1", 10%Z)] |};
             {| e_name := str "cal_1"; e_counts := [(str "1", 80%Z); (str "0", 20%Z)] |} ] in
  match tensored_fitter (Some [r]) [[0]] None [] with
  | Ok f => match readout_fidelity f 0 None with Ok q => Qred q = (17 # 20)%Q | _ => False end
  | _ => False
  end.
Proof. vm_compute. reflexivity. Qed.
