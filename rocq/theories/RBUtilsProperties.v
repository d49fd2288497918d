(** Property C26: gates per Clifford. *)
From Coq Require Import QArith.
From Verif Require Import Base RBUtilsModel RBUtilsSpec RBUtilsProofs.
Open Scope nat_scope.

(** Every qubit and basis gate gets the number of such gates on the qubit over
    all the circuits, divided by the denominator; nothing else is returned. *)
Theorem C26_gates_per_clifford items lengths basis qubits : items <> [] -> Forall well_formed items -> NoDup basis -> NoDup qubits -> ~ (denominator items lengths == 0)%Q ->
  exists d, gates_per_clifford items lengths basis qubits = Ok d /\ dkeys d = qubits /\
    (forall q, In q qubits -> exists row, dget d q = Some row /\ dkeys row = basis) /\
    forall q b, In q qubits -> In b basis -> exists v, entry d q b = Some (Some v) /\ (v == per_clifford items (denominator items lengths) q b)%Q.
Proof. exact (averages items lengths basis qubits). Qed.
Print Assumptions C26_gates_per_clifford.

(** The denominator is the number of Cliffords if every argument has a circuit
    for each length. *)
Theorem C26_denominator items lengths : Forall (fun it => length (circuits_of it) = length lengths) items ->
  (cliffords items lengths == denominator items lengths)%Q.
Proof. exact (cliffords_ok items lengths). Qed.
Print Assumptions C26_denominator.

(** Reordering the circuits, within the arguments or among them, does not
    change the averages. *)
Theorem C26_order_free items items' den den' q b : Permutation (all_circuits items) (all_circuits items') -> (den == den')%Q ->
  (per_clifford items den q b == per_clifford items' den' q b)%Q.
Proof. exact (order_free items items' den den' q b). Qed.
Print Assumptions C26_order_free.

(** Anything that is not a circuit is refused. *)
Theorem C26_malformed_refused items lengths basis qubits : ~ Forall well_formed items -> gates_per_clifford items lengths basis qubits = Err QiskitError.
Proof.
  intros H. unfold gates_per_clifford. destruct items as [|it items]; [exfalso; apply H; constructor|].
  rewrite (malformed_refused _ H). reflexivity.
Qed.
Print Assumptions C26_malformed_refused.

(** [count_gates]: the table of a circuit has a row for every qubit and in it a
    number for every gate, the number of such instructions on the qubit. *)
Theorem C26_count_gates experiments basis qubits e data qi bi : NoDup basis -> nth_error experiments e = Some data -> qi < length qubits -> bi < length basis ->
  exists m, nth_error (count_gates experiments basis qubits) e = Some m /\ in_shape (length qubits) (length basis) m /\
    cell m qi bi = instrs_on (nth qi qubits 0) (nth bi basis []) data.
Proof. exact (count_gates_cells experiments basis qubits e data qi bi). Qed.
Print Assumptions C26_count_gates.

Definition x0 : instr := {| iname := str "u2"; iqubits := [0] |}.
Definition cx01 : instr := {| iname := str "cx"; iqubits := [0; 1] |}.
Definition ex_items : list litem := [LCircs [CCirc [x0; x0]; CCirc [cx01]]; LCircs [CCirc [x0]; CCirc [cx01; x0]]].
(** Six Cliffords in all: lengths 0 and 1, each with its inverse, twice. *)
Example C26_example : exists d, gates_per_clifford ex_items [0; 1]%Q [str "u2"; str "cx"] [1; 0] = Ok d /\
  map (fun p => map (fun r => option_map Qred (snd r)) (snd p)) d = [[Some 0; Some (1 # 3)]; [Some (2 # 3); Some (1 # 3)]]%Q /\
  ~ (denominator ex_items [0; 1] == 0)%Q /\ Forall well_formed ex_items.
Proof.
  eexists. split; [vm_compute; reflexivity|]. split; [vm_compute; reflexivity|]. split; [intros H; vm_compute in H; discriminate|].
  repeat constructor; cbn; intros H; repeat (destruct H as [H|H]; [discriminate|]); destruct H.
Qed.
Example C26_count_example : count_gates [[x0; cx01; x0]; [cx01]] [str "u2"; str "cx"] [1; 0] = [[[0; 1]; [2; 1]]; [[0; 1]; [0; 1]]].
Proof. vm_compute. reflexivity. Qed.

(** A repeated qubit, or a repeated gate, is divided twice. *)
Theorem C26_repeated_qubit_refuted : exists d d',
  gates_per_clifford [LCircs [CCirc [x0]]] [1]%Q [str "u2"] [0] = Ok d /\ entry d 0 (str "u2") = Some (Some (1 # 2)%Q) /\
  gates_per_clifford [LCircs [CCirc [x0]]] [1]%Q [str "u2"] [0; 0] = Ok d' /\ entry d' 0 (str "u2") = Some (Some (1 # 4)%Q).
Proof. eexists. eexists. vm_compute. auto. Qed.
Print Assumptions C26_repeated_qubit_refuted.

(** Malformed arguments that are not refused: no circuits at all (IndexError),
    no lengths (nan), and not as many circuits as lengths, where the average is
    not taken over the Cliffords in the circuits. *)
Theorem C26_bad_arguments_refuted :
  (forall lengths basis qubits, gates_per_clifford [] lengths basis qubits = Err IndexError) /\
  (exists d, gates_per_clifford [LCircs [CCirc [x0]]] [] [str "u2"] [0] = Ok d /\ entry d 0 (str "u2") = Some None) /\
  (exists d, gates_per_clifford [LCircs [CCirc [x0]]] [1; 1]%Q [str "u2"] [0] = Ok d /\ entry d 0 (str "u2") = Some (Some (1 # 4)%Q) /\
     (cliffords [LCircs [CCirc [x0]]] [1; 1] == 2)%Q).
Proof. split; [reflexivity|]. split; eexists; vm_compute; auto. Qed.
Print Assumptions C26_bad_arguments_refuted.

(** In [count_gates] a repeated basis gate is only counted in its last column. *)
Theorem C26_count_repeated_basis_refuted : count_gates [[x0]] [str "u2"; str "u2"] [0] = [[[0; 1]]].
Proof. vm_compute. reflexivity. Qed.
Print Assumptions C26_count_repeated_basis_refuted.
