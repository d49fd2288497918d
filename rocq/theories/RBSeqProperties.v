(** Properties C22-C25 and C58: randomized benchmarking sequences. *)
From Coq Require Import QArith Sorted.
From Verif Require Import Base LinAlg QSem Cyc GateMat PyStr DihedralModel DihedralSpec DihedralGateProofs DihedralAlgebraProofs DihedralSetProofs
  RBSeqModel RBSeqSpec RBSeqProofs RBSeqActProofs RBSeqRunProofs RBSeqTopProofs RBSeqIdProofs RBSeqDihProofs RBSeqFinalProofs.
Open Scope nat_scope.

(** ** C22 *)

(** Every returned circuit is a body, for purity the rotations, and the
    measurements.  The body acts as the identity (up to a factor), and so do
    its gates on each of the patterns alone. *)
Theorem C22_circuits_are_identities {F : Type} {HF : Fld F} (gmat : pystr -> list Q -> bits -> bits -> F) grp a out t valid k css s cs i c N :
  randomized_benchmarking_seq grp a = Ok out -> rb_group_of (a_group _ a) = Ok t -> contract gmat grp a t valid ->
  returned out k = Some css -> nth_error css s = Some cs -> nth_error cs i = Some c ->
  (forall q, In q (concat (default_pattern (a_pat _ a))) -> q < N) ->
  exists body, cbody c = body ++ rots_of (default_pattern (a_pat _ a)) k ++ measurements (concat (default_pattern (a_pat _ a))) /\
    identity_on gmat N (gates body) /\
    forall pat, In pat (default_pattern (a_pat _ a)) -> identity_on gmat N (within pat (gates body)).
Proof. exact (identity_final gmat grp a out t valid k css s cs i c N). Qed.
Print Assumptions C22_circuits_are_identities.

(** So, purity aside, the circuits leave the ground state as it is. *)
Theorem C22_ground_state_returns {F : Type} {HF : Fld F} (gmat : pystr -> list Q -> bits -> bits -> F) grp a out t valid k css s cs i c N :
  randomized_benchmarking_seq grp a = Ok out -> rb_group_of (a_group _ a) = Ok t -> contract gmat grp a t valid ->
  returned out k = Some css -> (forall d, k <> KPur d) -> nth_error css s = Some cs -> nth_error cs i = Some c ->
  (forall q, In q (concat (default_pattern (a_pat _ a))) -> q < N) ->
  exists z, z <> 0%F /\ forall x, length x = N -> QSem.run (map (op_of gmat) (gates (cbody c))) (ground N) x = (z * ground N x)%F.
Proof. exact (ground_final gmat grp a out t valid k css s cs i c N). Qed.
Print Assumptions C22_ground_state_returns.

(** Valid arguments are accepted, whatever is drawn. *)
Theorem C22_valid_arguments_accepted {F : Type} {HF : Fld F} (gmat : pystr -> list Q -> bits -> bits -> F) grp a t mult inter valid :
  NoDup (concat (default_pattern (a_pat _ a))) -> concat (default_pattern (a_pat _ a)) <> [] ->
  (a_pur _ a = true -> forall p q, In p (default_pattern (a_pat _ a)) -> In q (default_pattern (a_pat _ a)) -> length p = length q) ->
  (forall l, a_inter _ a = Some l -> map (ielem_qubits grp) l = map (@length nat) (default_pattern (a_pat _ a))) ->
  rb_group_of (a_group _ a) = Ok t -> handle_interleaved_elem grp t (a_inter _ a) = Ok inter ->
  handle_length_multiplier (a_mult _ a) (length (default_pattern (a_pat _ a))) (a_pur _ a) = Ok mult -> Forall (fun m => is_int m = true) mult ->
  default_lv (a_lv _ a) <> [] -> contract gmat grp a t valid ->
  exists out, randomized_benchmarking_seq grp a = Ok out.
Proof. exact (accepted gmat grp a t mult inter valid). Qed.
Print Assumptions C22_valid_arguments_accepted.

(** The CNOT-dihedral group of dihedral.py meets the contract on one to eight
    qubits, with the usual matrices of the gates, for any random elements that
    are valid and any test of invertibility. *)
Theorem C22_dihedral_group_lawful det_odd draw n : decides_invertible det_odd -> 1 <= n <= 8 ->
  lawful gate_mat (dihedral_group det_odd draw) n (in_use n) /\ h_involution gate_mat.
Proof. intros Hd Hn. split; [exact (dihedral_lawful det_odd Hd draw n Hn) | exact h_twice]. Qed.
Print Assumptions C22_dihedral_group_lawful.

(** So CNOT-dihedral sequences on patterns of up to eight qubits, interleaved or
    not, leave the ground state as it is. *)
Theorem C22_dihedral_sequences {det_odd draw clifford} a out k css s cs i c N :
  let grp := fun t => match t with TClifford => clifford | TDihedral => dihedral_group det_odd draw end in
  decides_invertible det_odd ->
  (forall pat rs j, In pat (default_pattern (a_pat grp a)) -> exists e, draw (length pat) rs j = Ok e /\ wf_cdi (length pat) e /\ w0 (dpoly e) = 0%Z) ->
  rb_group_of (a_group grp a) = Ok TDihedral -> (forall pat, In pat (default_pattern (a_pat grp a)) -> 1 <= length pat <= 8) ->
  (forall l p pat ie, a_inter grp a = Some l -> nth_error (default_pattern (a_pat grp a)) p = Some pat -> nth_error l p = Some ie ->
     exists e, handle_one grp TDihedral ie = Ok e /\ wf_cdi (length pat) e /\ w0 (dpoly e) = 0%Z) ->
  randomized_benchmarking_seq grp a = Ok out -> returned out k = Some css -> (forall d, k <> KPur d) ->
  nth_error css s = Some cs -> nth_error cs i = Some c ->
  (forall q, In q (concat (default_pattern (a_pat grp a))) -> q < N) ->
  exists z, z <> cy0 /\ forall x, length x = N -> QSem.run (map (op_of gate_mat) (gates (cbody c))) (ground N) x = cymul z (ground N x).
Proof. exact (dihedral_final a out k css s cs i c N). Qed.
Print Assumptions C22_dihedral_sequences.

(** An example with two patterns, an interleaved element and aligned steps. *)
Definition ex_draw (n : nat) (rs : option Z) (k : nat) : result cdi :=
  from_circuit n auto_name [gu1 (Z.of_nat k mod 8) 0; gx 0; gcx 0 (n - 1)].
Definition ex_grp (t : group_type) : group := dihedral_group brute_force ex_draw.
Definition ex_args : seq_args ex_grp := {|
  a_nseeds := 1; a_lv := Some [1; 2]; a_pat := Some [[3; 1]; [0; 2]]; a_mult := MSeq [NInt 1; NInt 2]; a_off := 4%Z; a_align := true;
  a_inter := Some [ICircuit ex_grp 2 (str "foo") [gcx 0 1]; ICircuit ex_grp 2 (str "bar") [gx 1]];
  a_pur := false; a_group := Some (str "CNOT-Dihedral"); a_rs := Some 5%Z |}.

Example C22_example : exists out, randomized_benchmarking_seq ex_grp ex_args = Ok out /\ (forall n rs j, 2 <= n <= 8 -> exists e, ex_draw n rs j = Ok e /\ wf_cdi n e /\ w0 (dpoly e) = 0%Z) /\
  exists c cs, returned out KInt = Some [cs] /\ nth_error cs 1 = Some c /\ cname c = str "rb_cnotdihedral_interleaved_Z_length_1_seed_4" /\ length (gates (cbody c)) = 25.
Proof.
  eexists. split; [vm_compute; reflexivity|]. split.
  - intros n rs j Hn. destruct (from_circuit_spec n auto_name [gu1 (Z.of_nat j mod 8) 0; gx 0; gcx 0 (n - 1)] ltac:(lia) auto_name_free) as (e & E & W & Z & _).
    + intros g [<-|[<-|[<-|[]]]]; (split; [cbn; intros q H; intuition lia | cbn; try discriminate]). unfold gate_action. cbn [gname gcx eqb gqubits].
      change (eqb (str "cx") (str "x")) with false. destruct (Nat.eqb_spec 0 (n - 1)); [lia|]. discriminate.
    + exists e. auto.
  - eexists. eexists. split; [reflexivity|]. split; [reflexivity|]. vm_compute. auto.
Qed.

(** ** C23 *)

(** All the returned circuits are explained by one log of drawn elements: every
    draw is used once; in circuit [i] of seed [s] the first [lv[i]] steps of
    that seed, in every step the patterns in order and each as often as its
    multiplier says, the interleaved element after each random one, the circuit
    undoing their product, the measurements, and the expected name. *)
Theorem C23_circuits_follow_the_draws grp a out : randomized_benchmarking_seq grp a = Ok out ->
  exists t mult inter logs,
    rb_group_of (a_group _ a) = Ok t /\
    handle_length_multiplier (a_mult _ a) (length (default_pattern (a_pat _ a))) (a_pur _ a) = Ok mult /\
    handle_interleaved_elem grp t (a_inter _ a) = Ok inter /\
    explained grp a out t mult inter logs.
Proof.
  intros H. destruct (run_explained grp a out H) as (t & mult & inter & logs & H1 & H2 & H3 & _ & H4 & _). exists t, mult, inter, logs. auto.
Qed.
Print Assumptions C23_circuits_follow_the_draws.

(** xdata has the numbers of elements drawn. *)
Theorem C23_xdata_counts_elements grp a out : randomized_benchmarking_seq grp a = Ok out ->
  exists t mult inter logs, rb_group_of (a_group _ a) = Ok t /\ handle_interleaved_elem grp t (a_inter _ a) = Ok inter /\
    explained grp a out t mult inter logs /\
    length (xdata_of out) = length mult /\
    forall p row z i, p < length (default_pattern (a_pat _ a)) -> nth_error (xdata_of out) p = Some row -> nth_error row i = Some (NInt z) ->
      exists r, nth_error (default_lv (a_lv _ a)) i = Some r /\
        forall s steps, nth_error logs s = Some steps -> r <= length steps ->
          drawn_for (grp t) p (firstn r steps) = Z.to_nat z /\
          length (elements (grp t) None p (firstn r steps)) = Z.to_nat z.
Proof. exact (xdata_counts grp a out). Qed.
Print Assumptions C23_xdata_counts_elements.

(** A circuit is returned for every length, provided the lengths are ascending
    and not zero. *)
Theorem C23_one_circuit_per_length_partial grp a out k css s cs : randomized_benchmarking_seq grp a = Ok out ->
  ascending (default_lv (a_lv _ a)) -> returned out k = Some css -> length css = a_nseeds _ a /\ (nth_error css s = Some cs -> length cs = length (default_lv (a_lv _ a))).
Proof.
  intros H Ha Hr. destruct (run_explained grp a out H) as (t & mult & inter & logs & _ & _ & _ & _ & Ex & _).
  destruct (ex_circuits _ _ _ _ _ _ _ Ex k css Hr) as [E X]. split; [exact E|]. intros Hs. destruct (X s cs Hs) as (steps & _ & _ & L & _). exact (L Ha).
Qed.
Print Assumptions C23_one_circuit_per_length_partial.

Definition ex_draw1 (n : nat) (rs : option Z) (k : nat) : result cdi := from_circuit n auto_name [gu1 (Z.of_nat k mod 8) 0; gx 0].
Definition ex_grp1 (t : group_type) : group := dihedral_group brute_force ex_draw1.
Definition args1 (nseeds : nat) (lv : list nat) (m : mult_arg) (rs : option Z) : seq_args ex_grp1 := {|
  a_nseeds := nseeds; a_lv := Some lv; a_pat := Some [[0]]; a_mult := m; a_off := 0%Z; a_align := false;
  a_inter := None; a_pur := false; a_group := None; a_rs := rs |}.
(** Names of the circuits and the lengths in xdata. *)
Definition names_of (r : result seq_out) : option (list (list pystr) * list (list num)) :=
  match r with Ok (OStd css x) => Some (map (map cname) css, x) | _ => None end.

(** With a zero, descending or repeated length, circuits are missing though
    xdata lists their lengths. *)
Theorem C23_one_circuit_per_length_refuted :
  names_of (randomized_benchmarking_seq ex_grp1 (args1 1 [0; 1] (MScalar (NInt 1)) None)) = Some ([[]], [[NInt 0; NInt 1]]) /\
  names_of (randomized_benchmarking_seq ex_grp1 (args1 1 [5; 3] (MScalar (NInt 1)) None)) = Some ([[]], [[NInt 5; NInt 3]]) /\
  names_of (randomized_benchmarking_seq ex_grp1 (args1 1 [1; 1; 2] (MScalar (NInt 1)) None)) = Some ([[str "rb_length_0_seed_0"]], [[NInt 1; NInt 1; NInt 2]]).
Proof. vm_compute. auto. Qed.
Print Assumptions C23_one_circuit_per_length_refuted.

(** Two returned circuits never have the same name. *)
Theorem C23_names_distinct grp a out k css s cs i c k' css' s' cs' i' c' : randomized_benchmarking_seq grp a = Ok out ->
  returned out k = Some css -> nth_error css s = Some cs -> nth_error cs i = Some c ->
  returned out k' = Some css' -> nth_error css' s' = Some cs' -> nth_error cs' i' = Some c' ->
  cname c = cname c' -> k = k' /\ s = s' /\ i = i'.
Proof. exact (names_final grp a out k css s cs i c k' css' s' cs' i' c'). Qed.
Print Assumptions C23_names_distinct.

(** The fitters (fitters.py:267-296, 321-337) take the type from the name of
    any circuit up to '_length', the seed from the number after the last '_',
    and look for type + '_length_%d_seed_%d': these are the names. *)
Theorem C23_names_looked_up grp a out k css s cs i c s' cs' i' c' : randomized_benchmarking_seq grp a = Ok out ->
  returned out k = Some css -> nth_error css s = Some cs -> nth_error cs i = Some c -> nth_error css s' = Some cs' -> nth_error cs' i' = Some c' ->
  undec (last (split "_" (cname c)) []) = Ok (Z.of_nat s + a_off _ a)%Z /\
  cname c' = before (str "_length") (cname c) ++ str "_length_" ++ dec i' ++ str "_seed_" ++ zdec (Z.of_nat s' + a_off _ a).
Proof. exact (names_looked_up grp a out k css s cs i c s' cs' i' c'). Qed.
Print Assumptions C23_names_looked_up.

Example C23_example :
  names_of (randomized_benchmarking_seq ex_grp1 (args1 2 [1; 3] (MScalar (NInt 2)) (Some 7%Z)))
  = Some ([[str "rb_length_0_seed_0"; str "rb_length_1_seed_0"]; [str "rb_length_0_seed_1"; str "rb_length_1_seed_1"]], [[NInt 2; NInt 6]]) /\
  ascending [1; 3].
Proof. split; [vm_compute; reflexivity | cbn; lia]. Qed.

(** ** C24 *)

(** Accepted patterns. *)
Theorem C24_pattern_accepted_iff pattern pur inter :
  (exists r, check_pattern pattern pur inter = Ok r) <->
  NoDup (concat pattern) /\ concat pattern <> [] /\
  (pur = true -> forall a b, In a pattern -> In b pattern -> length a = length b) /\
  (forall dims, inter = Some dims -> dims = map (@length nat) pattern).
Proof.
  split.
  - intros [r H]. destruct (check_pattern_inv pattern pur inter r H) as (A & B & C & D & _). auto.
  - intros (A & B & C & D). exact (check_pattern_total pattern pur inter A B C D).
Qed.
Print Assumptions C24_pattern_accepted_iff.

(** What is returned: the flat list, its largest qubit, the largest dimension.
    Other patterns raise ValueError. *)
Theorem C24_pattern_values pattern pur inter :
  match check_pattern pattern pur inter with
  | Ok (flat, m, d) => flat = concat pattern /\ is_max m flat /\ is_max d (map (@length nat) pattern)
  | Err e => e = ValueError
  end.
Proof. exact (check_pattern_values pattern pur inter). Qed.
Print Assumptions C24_pattern_values.

Example C24_example : check_pattern [[3; 1]; [0]; [2; 7; 5]] false None = Ok ([3; 1; 0; 2; 7; 5], 7, 3) /\
  check_pattern [[3; 1]; [0]] true None = Err ValueError /\ check_pattern [[3; 1]; [1]] false None = Err ValueError /\
  check_pattern [[3; 1]; [0]] false (Some [1; 2]) = Err ValueError.
Proof. vm_compute. auto. Qed.

(** A sequence of multipliers is accepted if and only if it is a non-empty
    sequence of positive integers, one for each pattern, and this is not
    purity benchmarking. *)
Theorem C24_multiplier_sequence_iff l n pur m :
  handle_length_multiplier (MSeq l) n pur = Ok m <->
  m = l /\ pur = false /\ length l = n /\ l <> [] /\ forall x, In x l -> exists z, x = NInt z /\ (1 <= z)%Z.
Proof. exact (multiplier_sequence_iff l n pur m). Qed.
Print Assumptions C24_multiplier_sequence_iff.

(** A scalar is copied for each pattern. *)
Theorem C24_multiplier_scalar x n pur : handle_length_multiplier (MScalar x) n pur = Ok (repeat x n).
Proof. reflexivity. Qed.
Print Assumptions C24_multiplier_scalar.

(** Scalars are not checked: zero and negative numbers give sequences without
    random elements, and a fraction fails later with TypeError. *)
Theorem C24_multiplier_scalar_refuted :
  (exists out, randomized_benchmarking_seq ex_grp1 (args1 1 [2] (MScalar (NInt (-3))) None) = Ok out /\
    xdata_of out = [[NInt (-6)]] /\ map (map cbody) (match out with OStd css _ => css | _ => [] end) = [[[CGate (gid 0); CMeasure 0 0]]]) /\
  randomized_benchmarking_seq ex_grp1 (args1 1 [2] (MScalar (NFloat (3 # 2))) None) = Err TypeError /\
  randomized_benchmarking_seq ex_grp1 (args1 1 [2] (MSeq [NFloat (3 # 2)]) None) = Err ValueError.
Proof. split; [eexists; split; [vm_compute; reflexivity|]; vm_compute; auto | vm_compute; auto]. Qed.
Print Assumptions C24_multiplier_scalar_refuted.

(** Names of groups: exactly those of the documentation of [group_gates] and two
    more; everything else raises QiskitError. *)
Theorem C24_group_names_iff g :
  match rb_group_of g with
  | Ok TClifford => g = None \/ exists s, g = Some s /\ In s (map str ["0"; "Clifford"; "clifford"]%string)
  | Ok TDihedral => exists s, g = Some s /\ In s (map str ["1"; "Non-Clifford"; "CNOT-Dihedral"; "NonCliffordCNOTDihedral"]%string)
  | Err e => e = QiskitError /\ exists s, g = Some s /\ ~ In s (map str ["0"; "Clifford"; "clifford"; "1"; "Non-Clifford"; "CNOT-Dihedral"; "NonCliffordCNOTDihedral"]%string)
  end.
Proof. exact (group_names_iff g). Qed.
Print Assumptions C24_group_names_iff.

(** A missing comma in rb_groups.py:43-44: two listed names are refused and
    their concatenation is accepted. *)
Theorem C24_group_names_refuted :
  rb_group_of (Some (str "NonClifford")) = Err QiskitError /\ rb_group_of (Some (str "CNOTDihedral")) = Err QiskitError /\
  rb_group_of (Some (str "NonCliffordCNOTDihedral")) = Ok TDihedral.
Proof. vm_compute. auto. Qed.
Print Assumptions C24_group_names_refuted.

(** ** C25 *)

(** With purity, for every seed and every [d] below 3^n there is the list of
    circuits of that choice; every choice of Z, X or Y for the qubits of a
    pattern is the choice of exactly one [d]; the name of the circuit carries
    the letters, and the rotations stand between the body and the measurements. *)
Theorem C25_bases_enumerated dim l : length l = dim -> (forall c, In c l -> zxy c) ->
  exists d, (d < 3 ^ dim /\ letters dim d = l) /\ forall d', d' < 3 ^ dim -> letters dim d' = l -> d' = d.
Proof.
  intros Hl Hz. destruct (letters_onto dim l Hl Hz) as (d & Hd & E). exists d. split; [split; assumption|].
  intros d' Hd' E'. apply (letters_inj dim d' d Hd' Hd). congruence.
Qed.
Print Assumptions C25_bases_enumerated.

Theorem C25_purity_circuits grp a out : randomized_benchmarking_seq grp a = Ok out -> a_pur _ a = true ->
  let dim := length (qubits_of (default_pattern (a_pat _ a)) 0) in
  (forall d, (exists css, returned out (KPur d) = Some css) <-> d < 3 ^ dim) /\
  exists t mult inter logs, explained grp a out t mult inter logs /\
  forall d css s cs i c, returned out (KPur d) = Some css -> nth_error css s = Some cs -> nth_error cs i = Some c ->
    exists prefix suffix body, cname c = prefix ++ letters dim d ++ suffix /\
      cbody c = body ++ rotations (default_pattern (a_pat _ a)) dim d ++ measurements (concat (default_pattern (a_pat _ a))) /\
      exists steps r, nth_error logs s = Some steps /\ nth_error (default_lv (a_lv _ a)) i = Some r /\
        body = expected_body (grp t) (default_pattern (a_pat _ a)) inter (a_align _ a) KStd (firstn r steps).
Proof. exact (purity_circuits grp a out). Qed.
Print Assumptions C25_purity_circuits.

(** A measurement in the computational basis after rx(pi/2) is a measurement of
    Y (up to the sign), and after ry(pi/2) of X: the gate followed by Z is Y (X)
    followed by the gate, up to a factor. *)
Theorem C25_rotations_measure :
  same_action gate_mat 1 [g1 "rx" [2%Q]; g1 "z" []] [g1 "y" []; g1 "rx" [2%Q]] /\
  same_action gate_mat 1 [g1 "ry" [2%Q]; g1 "z" []] [g1 "x" []; g1 "ry" [2%Q]].
Proof. exact rotations_measure. Qed.
Print Assumptions C25_rotations_measure.

(** So the letters X and Y in the names are swapped. *)
Theorem C25_letters_refuted :
  ~ same_action gate_mat 1 [g1 "rx" [2%Q]; g1 "z" []] [g1 "x" []; g1 "rx" [2%Q]] /\
  ~ same_action gate_mat 1 [g1 "ry" [2%Q]; g1 "z" []] [g1 "y" []; g1 "ry" [2%Q]].
Proof. exact letters_swapped. Qed.
Print Assumptions C25_letters_refuted.

Definition purity_args : seq_args ex_grp1 := {|
  a_nseeds := 1; a_lv := Some [1]; a_pat := Some [[1]; [4]]; a_mult := MScalar (NInt 1); a_off := 0%Z; a_align := false;
  a_inter := None; a_pur := true; a_group := None; a_rs := None |}.
Example C25_example : exists out, randomized_benchmarking_seq ex_grp1 purity_args = Ok out /\
  returned out (KPur 3) = None /\
  option_map (map (map cname)) (returned out (KPur 2)) = Some [[str "rb_purity_Y_length_0_seed_0"]] /\
  map (fun d => letters 2 d) (seq 0 9) = map str ["ZZ"; "XZ"; "YZ"; "ZX"; "XX"; "YX"; "ZY"; "XY"; "YY"]%string.
Proof. eexists. split; [vm_compute; reflexivity|]. vm_compute. auto. Qed.

(** ** C58 *)

(** A positive seed: the seeds of the draws grow strictly, over all the seeds,
    lengths and patterns; so all the draws are different. *)
Theorem C58_positive_seed grp a out z : randomized_benchmarking_seq grp a = Ok out -> a_rs _ a = Some z -> (0 < z)%Z ->
  exists t mult inter logs, explained grp a out t mult inter logs /\ StronglySorted olt (seeds_of logs) /\ Forall (above z) (seeds_of logs).
Proof.
  intros H Hz Hp. destruct (run_explained grp a out H) as (t & mult & inter & logs & _ & _ & _ & _ & Ex & Hc). exists t, mult, inter, logs. split; [exact Ex|].
  rewrite Hz in Hc. exact (chain_all_pos grp t logs 0 z Hp Hc).
Qed.
Print Assumptions C58_positive_seed.

(** Without a seed the generator is never seeded. *)
Theorem C58_no_seed grp a out : randomized_benchmarking_seq grp a = Ok out -> a_rs _ a = None ->
  exists t mult inter logs, explained grp a out t mult inter logs /\ Forall (eq None) (seeds_of logs).
Proof.
  intros H Hz. destruct (run_explained grp a out H) as (t & mult & inter & logs & _ & _ & _ & _ & Ex & Hc). exists t, mult, inter, logs. split; [exact Ex|].
  rewrite Hz in Hc. exact (chain_all_none grp t logs 0 Hc).
Qed.
Print Assumptions C58_no_seed.

(** The seed 0 is taken for no seed where it is increased, but not where it is
    used: all the elements are drawn with the seed 0. *)
Theorem C58_zero_seed_refuted grp a out : randomized_benchmarking_seq grp a = Ok out -> a_rs _ a = Some 0%Z ->
  exists t mult inter logs, explained grp a out t mult inter logs /\ Forall (eq (Some 0%Z)) (seeds_of logs).
Proof.
  intros H Hz. destruct (run_explained grp a out H) as (t & mult & inter & logs & _ & _ & _ & _ & Ex & Hc). exists t, mult, inter, logs. split; [exact Ex|].
  rewrite Hz in Hc. exact (chain_all_zero grp t logs 0 Hc).
Qed.
Print Assumptions C58_zero_seed_refuted.

(** The elements drawn with each seed. *)
Definition echo_draw (n : nat) (rs : option Z) (k : nat) : result cdi :=
  from_circuit n auto_name [gu1 (match rs with Some z => z | None => 0 end mod 8) 0].
Definition echo_grp (t : group_type) : group := dihedral_group brute_force echo_draw.
Definition angles (r : result seq_out) : list (list (list Q)) :=
  match r with Ok (OStd css _) => map (map (fun c => flat_map (fun i => match i with CGate g => gparams g | _ => [] end) (cbody c))) css | _ => [] end.
Definition echo_args (rs : option Z) : seq_args echo_grp := {|
  a_nseeds := 2; a_lv := Some [2]; a_pat := Some [[0]]; a_mult := MScalar (NInt 1); a_off := 0%Z; a_align := false;
  a_inter := None; a_pur := false; a_group := None; a_rs := rs |}.
(** Seeds 2, 3; 5, 7, and for a negative seed 0, 0; 0, 0. *)
Example C58_example :
  angles (randomized_benchmarking_seq echo_grp (echo_args (Some 1%Z))) = [[[2; 3; -5]]; [[5; 7; -4]]]%Q /\
  angles (randomized_benchmarking_seq echo_grp (echo_args (Some (-1)%Z))) = [[[]]; [[]]].
Proof. vm_compute. auto. Qed.
