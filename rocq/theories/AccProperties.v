(** C36-C39: accreditation (one-time pads, layers, traps, fitter). *)
From Coq Require Import QArith Qcanon Qreals Reals Lqa.
From Verif Require Import LinAlg Base Cyc GateMat ResultFacts QSem CountsModel DihedralModel RBSeqModel RBSeqSpec RBSeqActProofs StdGates
  AccModel AccSpec AccFitSpec AccLayerProofs AccQotpProofs AccProbProofs AccTrapProofs AccFitProofs.
Local Open Scope string_scope.
Local Open Scope list_scope.
Local Open Scope nat_scope.

(** ** The assumptions on the gates and on the transpiler can be met *)

(** The usual matrices, with u2(0, pi) for the Hadamard gate. *)
Definition ex_mat (name : pystr) (params : list Q) (o i : bits) : cyc :=
  if eqb name (str "u2") then gate_mat (str "h") [] o i else gate_mat name params o i.
Definition ex_w (a : cyc) : cyc := cymul a (cconj a).
Lemma ex_std : std_gates ex_mat rsqrt2 (omega 2).
Proof.
  constructor; intros; try (destruct a, b); try (destruct a', b'); try (destruct a'); try (destruct b'); apply cyc_ext; apply Qc_is_canon; vm_compute; reflexivity.
Qed.
Lemma ex_weighing : weighing ex_w.
Proof. constructor; intros; apply cyc_ext; try (destruct a, b); cbn; ring. Qed.
Lemma ex_transpiles n : transpiles ex_mat n (fun c => c).
Proof. intros c H. split; [exact H|]. apply same_refl. Qed.

(** A circuit on three qubits: a Hadamard gate, two controlled-not gates, a
    phase, and the measurement of all the qubits. *)
Definition u2g (q : nat) : cinstr := CGate {| gname := str "u2"; gparams := [0%Q; 4%Q]; gqubits := [q] |}.
Definition u1g (q : nat) : cinstr := CGate {| gname := str "u1"; gparams := [3%Q]; gqubits := [q] |}.
Definition cxg (c t : nat) : cinstr := CGate {| gname := str "cx"; gparams := []; gqubits := [c; t] |}.
Definition ex_ops : list cinstr := [u2g 0; cxg 0 1; u1g 1; cxg 1 2; CMeasure 0 0; CMeasure 1 1; CMeasure 2 2].
Definition ex_rnd (k : nat) : bool := Nat.odd (k / 3 + k * k).

Lemma ex_native : Forall (native 3) ex_ops.
Proof.
  unfold ex_ops. repeat apply Forall_cons; try apply Forall_nil; cbn; try lia;
    first [left; split; [tauto|eexists; split; [reflexivity|lia]] | right; split; [reflexivity|]; split; [reflexivity|]; eexists _, _; split; [reflexivity|lia]].
Qed.
Lemma ex_measures : measures_all 3 ex_ops.
Proof.
  split.
  - intros q c H. cbn in H. repeat destruct H as [H|H]; try discriminate; try contradiction; injection H as <- <-; lia.
  - intros q H. destruct q as [|[|[|q]]]; [cbn; tauto..|lia].
Qed.
Lemma ex_total : total ex_mat ex_w 3 ex_ops <> f0.
Proof. intros E. apply (f_equal ca) in E. apply (f_equal this) in E. vm_compute in E. discriminate. Qed.

(** ** C36 *)

(** Whatever the pads, the probability of a key of a padded circuit is the
    probability, for the original circuit, of the corrected key.  Amplitudes in any field
    with the usual gates; [w] is for example the squared modulus; all the qubits are measured
    into the classical bits of the same numbers.  The first transpilation (to u1, u2, u3, cx) is
    not part of the statement. *)
Theorem C36_distribution_preserved {F} {HF : Fld F} {K} {HK : Fld K} gmat (w : F -> K) r i tp n g2 ops num rnd out :
  weighing w -> std_gates gmat r i -> transpiles gmat n tp ->
  Forall (native n) ops -> measures_all n ops -> total gmat w n ops <> f0 ->
  qotp tp g2 n ops num rnd = Ok out ->
  length out = num /\ forall circ postp, In (circ, postp) out -> length postp = n /\
    forall key, is_key n key -> prob gmat w n n circ key = prob gmat w n n ops (shift_key key postp).
Proof. intros Hw Hs Ht. exact (qotp_preserves gmat w Hw r i Hs tp n Ht g2 ops num rnd out). Qed.
Print Assumptions C36_distribution_preserved.

(** The padded circuits exist. *)
Theorem C36_no_failure {F} {HF : Fld F} {K} {HK : Fld K} gmat (w : F -> K) r i tp n g2 ops num rnd :
  weighing w -> std_gates gmat r i -> transpiles gmat n tp -> Forall (native n) ops -> g2 = str "cx" \/ g2 = str "cz" ->
  exists out, qotp tp g2 n ops num rnd = Ok out.
Proof. intros Hw Hs Ht. exact (qotp_total gmat r i Hs tp n Ht g2 ops num rnd). Qed.
Print Assumptions C36_no_failure.

(** Correcting counts moves every count to the key with the pads added, and
    different keys to different keys. *)
Theorem C36_corrected_counts n xs c : length xs = n -> NoDup (map fst c) -> Forall (fun kv => is_key n (fst kv)) c ->
  qotp_correct_counts c (rev xs) = map (fun kv => (shift_key (fst kv) (rev xs), snd kv)) c /\
  NoDup (map (fun kv => shift_key (fst kv) (rev xs)) c) /\
  (forall cl, length cl = n -> shift_key (key_of cl) (rev xs) = key_of (xors cl xs)).
Proof.
  intros Hx Hd Hk. split; [apply (correct_counts_map n); assumption|]. split.
  - rewrite <- map_map with (f := fst) (g := fun k => shift_key k (rev xs)). rewrite <- Forall_map with (f := fst) (P := is_key n) in Hk.
    induction (map fst c) as [|k l IH]; [constructor|]. apply NoDup_cons_iff in Hd. apply Forall_cons_iff in Hk. cbn. constructor; [|apply IH; tauto].
    intros Hin. apply in_map_iff in Hin. destruct Hin as (k' & E & Hin). destruct Hk as [Hk Hks]. rewrite Forall_forall in Hks.
    apply (shift_inj n xs) in E; auto. subst k'. tauto.
  - intros cl Hcl. apply shift_key_of. lia.
Qed.
Print Assumptions C36_corrected_counts.

(** Not when only some of the qubits are measured, or into other classical bits:
    the correction is ordered by qubit, not by classical bit.  With the only
    measurement of qubit 0 of 2, the padded circuit below always gives "1", which
    is left uncorrected, while the original always gives "0"; with swapped
    classical bits, "10" is "corrected" to "11", and the original gives "00". *)
Definition pad0 (k : nat) : bool := k =? 4.
Theorem C36_other_measurements_refuted :
  (exists circ postp, qotp (fun c => c) (str "cx") 2 [CMeasure 0 0] 1 pad0 = Ok [(circ, postp)] /\
    (exists key, possible ex_mat 2 1 circ key /\ ~ possible ex_mat 2 1 [CMeasure 0 0] (shift_key key postp))) /\
  (exists circ postp, qotp (fun c => c) (str "cx") 2 [CMeasure 0 1; CMeasure 1 0] 1 pad0 = Ok [(circ, postp)] /\
    (exists key, possible ex_mat 2 2 circ key /\ ~ possible ex_mat 2 2 [CMeasure 0 1; CMeasure 1 0] (shift_key key postp))).
Proof.
  assert (G : forall ops y, length y = 2 -> gates ops = [] -> final ex_mat 2 ops y <> f0 -> y = [false; false]).
  { intros ops y Hy Hg H. unfold final in H. rewrite Hg in H. cbn [map run fold_left] in H. unfold ground in H. destruct (eqb_spec y (repeat false 2)); [assumption|contradiction]. }
  split; eexists _, _; (split; [reflexivity|]).
  - exists (str "1"). split.
    + exists [true; false]. split; [reflexivity|]. split; [|reflexivity]. intros E. apply (f_equal ca) in E. apply (f_equal this) in E. vm_compute in E. discriminate.
    + intros (y & Hy & H & E). apply G in H; [|exact Hy|reflexivity]. subst y. discriminate.
  - exists (str "10"). split.
    + exists [true; false]. split; [reflexivity|]. split; [|reflexivity]. intros E. apply (f_equal ca) in E. apply (f_equal this) in E. vm_compute in E. discriminate.
    + intros (y & Hy & H & E). apply G in H; [|exact Hy|reflexivity]. subst y. discriminate.
Qed.
Print Assumptions C36_other_measurements_refuted.

Example C36_example : exists out, qotp (fun c => c) (str "cz") 3 ex_ops 2 ex_rnd = Ok out /\
  map snd out = [[false; true; false]; [false; true; false]] /\
  length out = 2 /\ forall circ postp, In (circ, postp) out -> length postp = 3 /\
    forall key, is_key 3 key -> prob ex_mat ex_w 3 3 circ key = prob ex_mat ex_w 3 3 ex_ops (shift_key key postp).
Proof.
  destruct (qotp (fun c => c) (str "cz") 3 ex_ops 2 ex_rnd) as [out|] eqn:E; [|vm_compute in E; discriminate]. exists out. split; [reflexivity|]. split.
  - vm_compute in E. injection E as <-. vm_compute. reflexivity.
  - exact (C36_distribution_preserved ex_mat ex_w rsqrt2 (omega 2) (fun c => c) 3 (str "cz") ex_ops 2 ex_rnd out ex_weighing ex_std (ex_transpiles 3) ex_native ex_measures ex_total E).
Qed.

(** ** C37 *)

(** The layers, alternating, act like the circuit; they start and end with a
    single-qubit layer; the two-qubit layers hold disjoint gates of the given
    name; the measurements are kept. *)
Theorem C37_layers_preserve {F} {HF : Fld F} gmat r i tp g2 n ops L :
  std_gates gmat r i -> transpiles gmat n tp -> Forall (native n) ops -> layer_parser tp g2 n ops = Ok L ->
  same_action gmat n (gates (woven (ly_single L) (ly_two L))) (gates ops) /\
  length (ly_single L) = S (length (ly_two L)) /\
  Forall (Forall (one_qubit n)) (ly_single L) /\ Forall (layer2 g2 n) (ly_two L) /\
  ly_meas L = measures ops /\ ly_gate L = g2 /\ ly_n L = n.
Proof. intros Hs. exact (layer_parser_correct gmat r i Hs tp g2 n ops L). Qed.
Print Assumptions C37_layers_preserve.

Theorem C37_no_failure tp g2 n ops : g2 = str "cx" \/ g2 = str "cz" -> Forall (native n) ops -> exists L, layer_parser tp g2 n ops = Ok L.
Proof. exact (layer_parser_total tp g2 n ops). Qed.
Print Assumptions C37_no_failure.

(** Any other gate raises QiskitError. *)
Theorem C37_other_gates_refused tp g2 n ops g : In (CGate g) ops ->
  ~ In (gname g) (map str ["u1"; "u2"; "u3"; "cx"]) ->
  (forall g', In (CGate g') ops -> length (gqubits g') >= 2 \/ (length (gqubits g') >= 1 /\ gname g' <> str "cx")) ->
  layer_parser tp g2 n ops = Err QiskitError.
Proof. intros Hg Hn. apply (layer_parser_refuses tp g2 n ops g Hg); intros E; apply Hn; rewrite E; cbn; tauto. Qed.
Print Assumptions C37_other_gates_refused.

(** A measurement before the end is moved to the end: a circuit that measures a
    qubit and then acts on it has the same layers as the circuit that acts first. *)
Theorem C37_early_measurement_refuted tp g2 n q c name ps : In name ["u1"; "u2"; "u3"] ->
  let u := CGate {| gname := str name; gparams := ps; gqubits := [q] |} in
  layer_parser tp g2 n [CMeasure q c; u] = layer_parser tp g2 n [u; CMeasure q c] /\
  exists L, layer_parser tp g2 n [CMeasure q c; u] = Ok L.
Proof. intros H. cbv zeta. repeat destruct H as [<-|H]; try contradiction; (split; [reflexivity|eexists; reflexivity]). Qed.
Print Assumptions C37_early_measurement_refuted.

Example C37_example : exists L, layer_parser (fun c => c) (str "cx") 3 ex_ops = Ok L /\ length (ly_two L) = 2 /\
  same_action ex_mat 3 (gates (woven (ly_single L) (ly_two L))) (gates ex_ops) /\
  layer_parser (fun c => c) (str "cx") 3 (had 0 :: ex_ops) = Err QiskitError.
Proof.
  destruct (layer_parser (fun c => c) (str "cx") 3 ex_ops) as [L|] eqn:E; [|vm_compute in E; discriminate]. exists L. split; [reflexivity|]. split; [vm_compute in E; injection E as <-; reflexivity|].
  split; [|vm_compute; reflexivity]. apply (C37_layers_preserve ex_mat rsqrt2 (omega 2) (fun c => c) (str "cx") 3 ex_ops L ex_std (ex_transpiles 3) ex_native E).
Qed.

(** ** C38 *)

(** The traps give zeros whatever the random choices; the target gives an
    outcome of the original circuit. *)
Theorem C38_traps_return_zeros {F} {HF : Fld F} gmat r i n tp g2 ops L rnd num v out pos :
  std_gates gmat r i -> transpiles gmat n tp -> Forall (native n) ops -> measures_all n ops ->
  layer_parser tp g2 n ops = Ok L -> generate_circuits tp L rnd num v = Ok (out, pos) ->
  length out = S num /\ forall k circ postp, nth_error out k = Some (circ, postp) -> length postp = n /\
    (k <> v -> (exists key, possible gmat n n circ key) /\ forall key, possible gmat n n circ key -> is_key n key /\ shift_key key postp = repeat ch0 n) /\
    (k = v -> forall key, possible gmat n n circ key -> is_key n key /\ possible gmat n n ops (shift_key key postp)).
Proof. intros Hs Ht. exact (traps_return_zeros gmat r i Hs n tp Ht g2 ops L rnd num v out pos). Qed.
Print Assumptions C38_traps_return_zeros.

Theorem C38_no_failure {F} {HF : Fld F} gmat r i n tp g2 ops L rnd num v :
  std_gates gmat r i -> transpiles gmat n tp -> Forall (native n) ops -> g2 = str "cx" \/ g2 = str "cz" ->
  layer_parser tp g2 n ops = Ok L -> exists o, generate_circuits tp L rnd num v = Ok o.
Proof. intros Hs Ht. exact (generate_total gmat r i Hs n tp Ht g2 ops L rnd num v). Qed.
Print Assumptions C38_no_failure.

(** A run on single shots, without noise, is accepted, and its output is an
    outcome of the original circuit. *)
Theorem C38_noiseless_run_accepted {F} {HF : Fld F} gmat r i n tp g2 ops L rnd num v out pos c ks w f :
  std_gates gmat r i -> transpiles gmat n tp -> Forall (native n) ops -> measures_all n ops ->
  layer_parser tp g2 n ops = Ok L -> generate_circuits tp L rnd num v = Ok (out, pos) -> v <= num ->
  c_postp c = map snd out -> c_vzero c = v -> length ks = length out ->
  (forall k key circ postp, nth_error ks k = Some key -> nth_error out k = Some (circ, postp) ->
     c_counts c k = Ok [(key, 1%Z)] /\ possible gmat n n circ key) ->
  exists w' f' target, single_protocol_run (c_counts c) (c_postp c) (c_vzero c) w f = (w', f', None) /\
    f_flag f' = true /\ f_acc f' = S (f_acc f) /\ f_runs f' = S (f_runs f) /\ w' = (w ++ [Some target])%list /\ possible gmat n n ops target.
Proof. intros Hs Ht. exact (noiseless_accepted gmat r i Hs n tp Ht g2 ops L rnd num v out pos c ks w f). Qed.
Print Assumptions C38_noiseless_run_accepted.

(** Not for other measurements (see C36): the trap of this circuit, run without
    noise, is "corrected" to "11", and the run rejected. *)
Theorem C38_other_measurements_refuted :
  let ops := [CMeasure 0 1; CMeasure 1 0] in
  exists L out circ postp pos key f', layer_parser (fun c => c) (str "cx") 2 ops = Ok L /\
    generate_circuits (fun c => c) L (fun k => k =? 5) 1 1 = Ok (out, pos) /\ nth_error out 0 = Some (circ, postp) /\
    possible ex_mat 2 2 circ key /\ (forall key', possible ex_mat 2 2 circ key' -> key' = key) /\
    shift_key key postp = str "11" /\
    single_protocol_run (fun k => Ok [(if k =? 0 then key else str "00", 1%Z)]) (map snd out) 1 [] fitter_new = ([], f', None) /\ f_flag f' = false.
Proof.
  cbv zeta. eexists _, _, _, _, _, (str "10"), _. split; [reflexivity|]. split; [reflexivity|]. split; [reflexivity|]. split; [|split; [|split; [reflexivity|split; reflexivity]]].
  - exists [true; false]. split; [reflexivity|]. split; [|reflexivity]. intros E. apply (f_equal ca) in E. apply (f_equal this) in E. vm_compute in E. discriminate.
  - intros key' (y & Hy & H & ->). destruct y as [|a [|b [|]]]; try discriminate. destruct a, b; try reflexivity; exfalso; apply H; apply cyc_ext; apply Qc_is_canon; vm_compute; reflexivity.
Qed.
Print Assumptions C38_other_measurements_refuted.

Example C38_example : exists L out pos, layer_parser (fun c => c) (str "cx") 3 ex_ops = Ok L /\
  generate_circuits (fun c => c) L ex_rnd 3 2 = Ok (out, pos) /\ map snd out <> repeat [false; false; false] 4 /\
  forall k circ postp, nth_error out k = Some (circ, postp) -> k <> 2 -> exists key, possible ex_mat 3 3 circ key /\ shift_key key postp = repeat ch0 3.
Proof.
  destruct (layer_parser (fun c => c) (str "cx") 3 ex_ops) as [L|] eqn:E; [|vm_compute in E; discriminate].
  destruct (generate_circuits (fun c => c) L ex_rnd 3 2) as [[out pos]|] eqn:E2; [|vm_compute in E; injection E as <-; vm_compute in E2; discriminate].
  exists L, out, pos. split; [reflexivity|]. split; [exact E2|]. split.
  - intros H. vm_compute in E. injection E as <-. vm_compute in E2. injection E2 as <- <-. vm_compute in H. discriminate.
  - intros k circ postp Hk Hv. destruct (C38_traps_return_zeros ex_mat rsqrt2 (omega 2) 3 (fun c => c) (str "cx") ex_ops L ex_rnd 3 2 out pos ex_std (ex_transpiles 3) ex_native ex_measures E E2) as [_ H].
    destruct (H k circ postp Hk) as (_ & H1 & _). destruct (H1 Hv) as [[key P] Q]. exists key. split; [exact P|]. apply (Q key P).
Qed.

(** ** C39 *)

(** One run on single shots: accepted if and only if all the traps returned
    zeros, in which case the corrected target is recorded. *)
Theorem C39_single_run c keys w f : single_shot c keys ->
  exists w' f', single_protocol_run (c_counts c) (c_postp c) (c_vzero c) w f = (w', f', None) /\
    f_runs f' = S (f_runs f) /\
    (traps_zero c keys -> f_flag f' = true /\ f_acc f' = S (f_acc f) /\ w' = (w ++ [Some (target_outcome c keys)])%list) /\
    (~ traps_zero c keys -> f_flag f' = false /\ f_acc f' = f_acc f /\ w' = w) /\
    (f_runs f = 0 -> f_traps f' = Z.of_nat (length (c_postp c) - 1)) /\ (f_runs f <> 0 -> f_traps f' = f_traps f) /\ f_bound f' = f_bound f /\ f_conf f' = f_conf f.
Proof. exact (single_run_ok c keys w f). Qed.
Print Assumptions C39_single_run.

(** After any history of runs and bounds: the number accepted is the number of
    runs whose traps all returned zeros ([zero] says which), and the outputs are
    their targets. *)
Theorem C39_accepted_count w l (ks : list (list bits)) (zero : list bool) : Forall2 single_shot (runs_of l) ks -> length zero = length ks ->
  (forall j c keys b, nth_error (runs_of l) j = Some c -> nth_error ks j = Some keys -> nth_error zero j = Some b -> (b = true <-> traps_zero c keys)) ->
  f_acc (snd (history w l)) = count_occ Bool.bool_dec zero true /\
  fst (history w l) = (w ++ flat_map (fun bck => if fst bck : bool then [Some (target_outcome (fst (snd bck)) (snd (snd bck)))] else []) (combine zero (combine (runs_of l) ks)))%list.
Proof. exact (accepted_count w l ks zero). Qed.
Print Assumptions C39_accepted_count.

(** For any data whatsoever, at most the number of runs is accepted, and the
    bound lies in [0, 1]. *)
Theorem C39_acc_le_runs w l : f_acc (snd (history w l)) <= f_runs (snd (history w l)) /\ f_runs (snd (history w l)) = length (runs_of l).
Proof. exact (acc_le_runs w l). Qed.
Print Assumptions C39_acc_le_runs.
Theorem C39_bound_range w l : (0 <= f_bound (snd (history w l)) <= 1)%Q.
Proof. exact (bound_range w l). Qed.
Print Assumptions C39_bound_range.

(** When the accepted fraction exceeds theta, the bound is
    min(1, 1.7 / ((traps + 1) (accepted / runs - theta))). *)
Theorem C39_bound_value theta f : f_runs f <> 0 -> (0 <= f_traps f)%Z ->
  (theta < inject_Z (Z.of_nat (f_acc f)) / inject_Z (Z.of_nat (f_runs f)))%Q ->
  exists f', bound_variation_distance theta f = Ok f' /\
    (f_bound f' == at_most_one ((17 # 10) / (inject_Z (f_traps f + 1) * (inject_Z (Z.of_nat (f_acc f)) / inject_Z (Z.of_nat (f_runs f)) - theta))))%Q /\
    f_conf f' = (1 - 2 * exp (- (2 * Q2R theta * INR (f_runs f) * INR (f_runs f))))%R.
Proof. exact (bound_value theta f). Qed.
Print Assumptions C39_bound_value.

Example C39_example :
  let c := {| c_counts := fun k => Ok [(key_of [Nat.odd k; true], 1%Z)]; c_postp := [[true; false]; [true; true]; [false; false]]; c_vzero := 2 |} in
  single_shot c [[false; true]; [true; true]; [false; true]] /\ traps_zero c [[false; true]; [true; true]; [false; true]] /\
  fst (history [] [ARun c; ABound (1 # 2); ARun c]) = [Some (str "10"); Some (str "10")].
Proof.
  cbv zeta. split; [|split; [|vm_compute; reflexivity]].
  - constructor; cbn; auto; try lia.
    + intros [|[|[|[|k]]]] key H; cbn in H; try discriminate; injection H as <-; reflexivity.
    + intros [|[|[|[|k]]]] key p H H'; cbn in H, H'; try discriminate; injection H as <-; injection H' as <-; reflexivity.
  - intros [|[|[|[|k]]]] key p Hk H H'; cbn in H, H', Hk; try discriminate; try lia; injection H as <-; injection H' as <-; reflexivity.
Qed.

(** Malformed data is not rejected: the QiskitErrors are constructed and not
    raised.  Several shots are accepted, by the last key only, even when other shots were not
    zeros; the number of traps may change between runs, and may be below three. *)
Theorem C39_malformed_refuted :
  (exists f', single_protocol_run (fun k => Ok [(str "1", 500%Z); (str "0", 524%Z)]) [[false]; [false]] 1 [] fitter_new = ([Some (str "0")], f', None) /\ f_acc f' = 1 /\ f_traps f' = 1%Z) /\
  (exists f' f'', single_protocol_run (fun k => Ok [(str "0", 1%Z)]) [[false]; [false]; [false]; [false]] 1 [] fitter_new = ([Some (str "0")], f', None) /\
     single_protocol_run (fun k => Ok [(str "0", 1%Z)]) [[false]] 0 [] f' = ([Some (str "0")], f'', None) /\ f_acc f'' = 2 /\ f_traps f'' = 3%Z).
Proof. split; [eexists; repeat split|eexists _, _; repeat split]. Qed.
Print Assumptions C39_malformed_refuted.

(** Fitters are not independent: the outputs of one are seen by all the others,
    also by those made later. *)
Theorem C39_independent_refuted c keys w l : single_shot c keys -> traps_zero c keys ->
  let w' := fst (act (history w l) (ARun c)) in w' <> fst (history w l) /\ fst (history w' []) = w' /\ f_runs (snd (history w' [])) = 0.
Proof.
  intros Hs Hz. cbv zeta. destruct (single_run_ok c keys (fst (history w l)) (snd (history w l)) Hs) as (w' & f' & E & _ & T & _).
  cbn [act]. rewrite E. cbn [fst]. split; [|auto]. destruct (T Hz) as (_ & _ & ->). intros H. apply (f_equal (@length _)) in H. rewrite app_length in H. cbn in H. lia.
Qed.
Print Assumptions C39_independent_refuted.

(** The bound is not recomputed when the accepted fraction falls to theta or
    below: an earlier, smaller bound is kept. *)
Theorem C39_stale_bound_refuted :
  let ok := {| c_counts := fun _ => Ok [(str "0", 1%Z)]; c_postp := repeat [false] 4; c_vzero := 0 |} in
  let bad := {| c_counts := fun _ => Ok [(str "1", 1%Z)]; c_postp := repeat [false] 4; c_vzero := 0 |} in
  let h := [ARun ok; ABound (1 # 2); ARun bad; ARun bad; ARun bad; ABound (1 # 2)] in
  (f_bound (snd (history [] h)) == 17 # 20)%Q /\ f_acc (snd (history [] h)) = 1 /\ f_runs (snd (history [] h)) = 4.
Proof. vm_compute. auto. Qed.
Print Assumptions C39_stale_bound_refuted.
