(** Specifications for tomography. *)
From Coq Require Import QArith Reals.
From Verif Require Import Base LinAlg PyStr DihedralModel RBSeqModel TomoModel.
Local Open Scope list_scope.
Local Open Scope nat_scope.

(** A label that Python writes between single quotes as it is. *)
Definition plain (s : pystr) : Prop := Forall (fun c => c <> quote /\ c <> "\"%char) s.
Fixpoint plain_val (v : pyval) : Prop :=
  match v with
  | VNone => True
  | VStr s => plain s
  | VTup l => (fix go (l : list pyval) : Prop := match l with [] => True | a :: l' => plain_val a /\ go l' end) l
  end.

(** [t] is a choice of one label out of [ls] for each of [n] qubits. *)
Definition choice (n : nat) (ls : list pystr) (t : list pystr) : Prop := length t = n /\ Forall (fun a => In a ls) t.

(** The preparation of every prepared qubit, and the measurement of every measured
    qubit into the bit of the same position. *)
Definition prep_layer (d : prep_data) (qs : list nat) (p : list pystr) : list cinstr :=
  flat_map (fun '(a, q) => pd_circuit d a q) (combine p qs).
Definition meas_layer (d : meas_data) (qs : list nat) (m : list pystr) : list cinstr :=
  flat_map (fun '(j, (a, q)) => md_circuit d a q j) (combine (seq 0 (length qs)) (combine m qs)).
(** A circuit in which the first [n] bits are those of the tomography. *)
Definition moved (n : nat) (c : list cinstr) : list cinstr :=
  map (fun i => match i with CMeasure q b => CMeasure q (n + b) | _ => i end) c.
(** The circuit for given labels: the parts are separated by barriers over all the
    qubits. *)
Definition state_circuit_for (c : tcirc) (d : meas_data) (qs : list nat) (m : list pystr) (k : tcirc) : Prop :=
  t_width k = t_width c /\ t_cregs k = length qs :: t_cregs c /\
  t_body k = moved (length qs) (t_body c) ++ CBarrier (seq 0 (t_width c)) :: meas_layer d qs m.
Definition process_circuit_for (c : tcirc) (pd : prep_data) (pqs : list nat) (p : list pystr) (d : meas_data) (qs : list nat) (m : list pystr) (k : tcirc) : Prop :=
  t_width k = t_width c /\ t_cregs k = length qs :: t_cregs c /\
  t_body k = prep_layer pd pqs p ++ [CBarrier (seq 0 (t_width c))] ++ moved (length qs) (t_body c) ++ CBarrier (seq 0 (t_width c)) :: meas_layer d qs m.
(** Qubits of the circuit, at least one, without repetition. *)
Definition some_qubits (c : tcirc) (qs : list nat) : Prop := qs <> [] /\ NoDup qs /\ Forall (fun q => q < t_width c) qs.
