(** C81: what the traps of an accreditation run detect. *)
From Coq Require Import QArith.
From Verif Require Import LinAlg Base Cyc GateMat QSem CountsModel DihedralModel RBSeqModel RBSeqSpec RBSeqActProofs StdGates AccModel AccSpec AccFitSpec AccProbProofs AccTrapProofs AccErrSpec AccErrMainProofs AccErrRunProofs AccProperties.
Local Open Scope string_scope.
Local Open Scope list_scope.
Local Open Scope nat_scope.

(** Whatever Pauli errors follow the layers of two-qubit gates, at least one of them not
    the identity, and whichever qubits are prepared wrongly, each choice [bs] of the bits
    drawn for a trap determines its corrected outcome, whatever the pads, and at least a
    quarter of the choices gives an outcome other than zeros. *)
Theorem C81_traps_detect {F} {HF : Fld F} gmat r i n tp g2 ops L prep es :
  std_gates gmat r i -> transpiles gmat n tp -> Forall (native n) ops -> measures_all n ops -> g2 = str "cx" \/ g2 = str "cz" ->
  layer_parser tp g2 n ops = Ok L -> length es = length (ly_two L) -> Exists (nontrivial n) es ->
  exists d (shows : bits -> pystr),
    (forall rnd pos bs, length bs = d -> exists singles circ postp pos2,
      routine_two L (chosen rnd pos bs) pos = Ok (singles, pos + d) /\ qotp_fromlayers tp (chosen rnd pos bs) (pos + d) (trap_layers L singles) = Ok (circ, postp, pos2) /\
      (exists key, possible gmat n n (noisy n prep es (fun _ => false) circ) key) /\
      forall key, possible gmat n n (noisy n prep es (fun _ => false) circ) key -> is_key n key /\ shift_key key postp = shows bs) /\
    2 ^ d <= 4 * length (filter (fun bs => negb (eqb (shows bs) (repeat ch0 n))) (cube d)).
Proof. intros Hs Ht. exact (traps_detect gmat r i Hs n tp Ht g2 ops L prep es). Qed.
Print Assumptions C81_traps_detect.

(** With any errors, also in the readout, the corrected outcome of a trap is determined by
    the bits drawn for it: the pads hide nothing from it and add nothing to it. *)
Theorem C81_outcome_determined {F} {HF : Fld F} gmat r i n tp g2 ops L prep es rd :
  std_gates gmat r i -> transpiles gmat n tp -> Forall (native n) ops -> measures_all n ops -> g2 = str "cx" \/ g2 = str "cz" ->
  layer_parser tp g2 n ops = Ok L -> length es = length (ly_two L) ->
  exists d (shows : bits -> pystr), forall rnd pos singles pos1 circ postp pos2,
    routine_two L rnd pos = Ok (singles, pos1) -> qotp_fromlayers tp rnd pos1 (trap_layers L singles) = Ok (circ, postp, pos2) ->
    (exists key, possible gmat n n (noisy n prep es rd circ) key) /\
    forall key, possible gmat n n (noisy n prep es rd circ) key -> is_key n key /\ shift_key key postp = shows (map rnd (seq pos d)).
Proof.
  intros Hs Ht Hn Hm Hg El Hes. exists (draws n L), (outcome n L prep es rd). intros rnd pos singles pos1 circ postp pos2 Er Eq.
  exact (noisy_trap gmat r i Hs n tp Ht g2 ops L rnd pos singles pos1 circ postp pos2 prep es rd Hn Hm Hg El Hes Er Eq).
Qed.
Print Assumptions C81_outcome_determined.

(** A quarter is the best bound: for one controlled-not gate, a qubit prepared wrongly and
    a Z on both qubits are detected by one choice in four. *)
Theorem C81_quarter_is_reached {F} {HF : Fld F} gmat r i tp : std_gates gmat r i -> transpiles gmat 2 tp ->
  exists L prep e, layer_parser tp (str "cx") 2 ops2 = Ok L /\ length (ly_two L) = 1 /\ nontrivial 2 e /\
  forall rnd pos singles pos1 circ postp pos2, routine_two L rnd pos = Ok (singles, pos1) -> qotp_fromlayers tp rnd pos1 (trap_layers L singles) = Ok (circ, postp, pos2) ->
    (exists key, possible gmat 2 2 (noisy 2 prep [e] (fun _ => false) circ) key) /\
    forall key, possible gmat 2 2 (noisy 2 prep [e] (fun _ => false) circ) key -> (shift_key key postp <> repeat ch0 2 <-> rnd pos = false /\ rnd (S pos) = false).
Proof. intros Hs Ht. exact (quarter_tight gmat r i Hs tp Ht). Qed.
Print Assumptions C81_quarter_is_reached.

(** The readout must be exact: a qubit prepared wrongly, a Z on the other one and a wrong
    reading hide each other from every trap. *)
Theorem C81_readout_errors_hide {F} {HF : Fld F} gmat r i tp g2 : std_gates gmat r i -> transpiles gmat 2 tp -> g2 = str "cx" \/ g2 = str "cz" ->
  exists L prep e rd, layer_parser tp g2 2 ops2 = Ok L /\ length (ly_two L) = 1 /\ nontrivial 2 e /\
  forall rnd pos singles pos1 circ postp pos2, routine_two L rnd pos = Ok (singles, pos1) -> qotp_fromlayers tp rnd pos1 (trap_layers L singles) = Ok (circ, postp, pos2) ->
    (exists key, possible gmat 2 2 (noisy 2 prep [e] rd circ) key) /\ forall key, possible gmat 2 2 (noisy 2 prep [e] rd circ) key -> shift_key key postp = repeat ch0 2.
Proof. intros Hs Ht. exact (readout_hides gmat r i Hs tp Ht g2). Qed.
Print Assumptions C81_readout_errors_hide.

(** The hypotheses are met by the circuit of C38, with a Y on qubit 2 after its first layer. *)
Example C81_example : exists L, layer_parser (fun c => c) (str "cx") 3 ex_ops = Ok L /\ length (ly_two L) = 2 /\
  let es := [fun q => (q =? 2, q =? 2); fun _ => (false, false)] in length es = length (ly_two L) /\ Exists (nontrivial 3) es /\
  exists d shows, 2 ^ d <= 4 * length (filter (fun bs => negb (eqb (shows bs : pystr) (repeat ch0 3))) (cube d)) /\
    exists singles pos1 circ postp pos2 key, routine_two L (chosen ex_rnd 5 (repeat true d)) 5 = Ok (singles, pos1) /\
      qotp_fromlayers (fun c => c) (chosen ex_rnd 5 (repeat true d)) pos1 (trap_layers L singles) = Ok (circ, postp, pos2) /\
      possible ex_mat 3 3 (noisy 3 (fun _ => false) es (fun _ => false) circ) key /\ shift_key key postp = shows (repeat true d).
Proof.
  destruct (layer_parser (fun c => c) (str "cx") 3 ex_ops) as [L|] eqn:E; [|vm_compute in E; discriminate]. exists L. split; [reflexivity|]. assert (Hl : length (ly_two L) = 2) by (vm_compute in E; injection E as <-; reflexivity). split; [exact Hl|]. cbv zeta.
  assert (He : Exists (nontrivial 3) [fun q => (q =? 2, q =? 2); fun _ => (false, false)]) by (constructor; exists 2; split; [lia|discriminate]). split; [symmetry; exact Hl|]. split; [exact He|].
  destruct (C81_traps_detect ex_mat rsqrt2 (omega 2) 3 (fun c => c) (str "cx") ex_ops L (fun _ => false) [fun q => (q =? 2, q =? 2); fun _ => (false, false)] ex_std (ex_transpiles 3) ex_native ex_measures (or_introl eq_refl) E (eq_sym Hl) He) as (d & shows & H & Q).
  exists d, shows. split; [exact Q|]. destruct (H ex_rnd 5 (repeat true d) (repeat_length _ _)) as (singles & circ & postp & pos2 & A & B & [key C] & D). exists singles, (5 + d), circ, postp, pos2, key. repeat split; auto. apply (D key C).
Qed.

(** A whole run, whose traps [hs] have each an error that is not the identity after some
    layer, or a wrong preparation, or both: the
    [N] bits drawn for it decide, through [accepts], whether the fitter accepts the run,
    and at most (3/4)^(length hs) of their 2^N values have it accepted. The target may
    return any string and the other traps may have any errors. *)
Theorem C81_run_rarely_accepted {F} {HF : Fld F} gmat r i n tp g2 ops L num v (prep : nat -> nat -> bool) (es : nat -> list error) hs :
  std_gates gmat r i -> transpiles gmat n tp -> Forall (native n) ops -> measures_all n ops -> g2 = str "cx" \/ g2 = str "cz" ->
  layer_parser tp g2 n ops = Ok L -> v <= num -> (forall k, length (es k) = length (ly_two L)) ->
  NoDup hs -> Forall (fun k => k <= num /\ k <> v /\ erroneous n (prep k) (es k)) hs ->
  exists N (accepts : bits -> bool),
    (forall rnd bs, length bs = N -> exists out, generate_circuits tp L (chosen rnd 0 bs) num v = Ok (out, N) /\ length out = num + 1 /\
      (forall k circ postp, k <> v -> nth_error out k = Some (circ, postp) -> exists key, possible gmat n n (noisy n (prep k) (es k) (fun _ => false) circ) key) /\
      forall c ks w f, c_postp c = map snd out -> c_vzero c = v -> length ks = length out ->
      (forall k key circ postp, nth_error ks k = Some key -> nth_error out k = Some (circ, postp) ->
         c_counts c k = Ok [(key, 1%Z)] /\ (k = v -> is_key n key) /\ (k <> v -> possible gmat n n (noisy n (prep k) (es k) (fun _ => false) circ) key)) ->
      exists w' f', single_protocol_run (c_counts c) (c_postp c) (c_vzero c) w f = (w', f', None) /\ f_flag f' = accepts bs /\ f_acc f' = (if accepts bs then 1 else 0) + f_acc f) /\
    4 ^ length hs * length (filter accepts (cube N)) <= 3 ^ length hs * 2 ^ N.
Proof. intros Hs Ht. exact (run_rarely_accepted gmat r i Hs n tp Ht g2 ops L num v prep es hs). Qed.
Print Assumptions C81_run_rarely_accepted.

(** The hypotheses are met by the circuit of C38 with two traps beside its target, both
    struck by the errors of [C81_example]. *)
Example C81_example_run : let es := [fun q => (q =? 2, q =? 2); fun _ => (false, false)] in
  exists L N accepts, layer_parser (fun c => c) (str "cx") 3 ex_ops = Ok L /\ 16 * length (filter accepts (cube N)) <= 9 * 2 ^ N /\
    exists out, generate_circuits (fun c => c) L (chosen ex_rnd 0 (repeat true N)) 2 1 = Ok (out, N) /\ length out = 3 /\
      forall k circ postp, k <> 1 -> nth_error out k = Some (circ, postp) -> exists key, possible ex_mat 3 3 (noisy 3 (fun _ => false) es (fun _ => false) circ) key.
Proof.
  cbv zeta. destruct (layer_parser (fun c => c) (str "cx") 3 ex_ops) as [L|] eqn:E; [|vm_compute in E; discriminate]. assert (Hl : length (ly_two L) = 2) by (vm_compute in E; injection E as <-; reflexivity).
  assert (He : Exists (nontrivial 3) [fun q => (q =? 2, q =? 2); fun _ => (false, false)]) by (constructor; exists 2; split; [lia|discriminate]).
  destruct (C81_run_rarely_accepted ex_mat rsqrt2 (omega 2) 3 (fun c => c) (str "cx") ex_ops L 2 1 (fun _ _ => false) (fun _ => [fun q => (q =? 2, q =? 2); fun _ => (false, false)]) [0; 2] ex_std (ex_transpiles 3) ex_native ex_measures (or_introl eq_refl) E) as (N & accepts & H & Q).
  - lia.
  - intros _. symmetry. exact Hl.
  - repeat constructor; intros [H|[]] || intros []; discriminate.
  - repeat (apply Forall_cons; [split; [lia|split; [discriminate|left; exact He]]|]); apply Forall_nil.
  - exists L, N, accepts. split; [reflexivity|]. split; [exact Q|]. destruct (H ex_rnd (repeat true N) (repeat_length _ _)) as (out & A & B & C & _). exists out. auto.
Qed.
