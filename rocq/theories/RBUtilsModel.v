(** Model of qiskit/ignis/verification/randomized_benchmarking/rb_utils.py:
    gate counts.  Deprecation warnings are not modelled.  Circuits are given by
    their instructions (name, qubit indices); [CNot] is anything that is not a
    QuantumCircuit. *)
From Coq Require Import QArith.
From Verif Require Import Base.
Open Scope nat_scope.

Record instr := { iname : pystr; iqubits : list nat }.
Inductive citem := CCirc (data : list instr) | CNot.
(** A list of circuits or a QasmQobj with its experiments. *)
Inductive litem := LCircs (l : list citem) | LQobj (experiments : list (list instr)).

(** [count_gates], rb_utils.py:30-64: [basis_ind] maps a repeated gate to its
    last position. *)
Fixpoint last_index (l : list pystr) (x : pystr) (i : nat) (acc : option nat) : option nat :=
  match l with [] => acc | y :: l' => last_index l' x (S i) (if eqb y x then Some i else acc) end.
Definition bump_at {A} (f : A -> A) (i : nat) (l : list A) : list A :=
  map (fun p => if fst p =? i then f (snd p) else snd p) (combine (seq 0 (length l)) l).
Definition count_instr (basis : list pystr) (qubits : list nat) (m : list (list nat)) (i : instr) : list (list nat) :=
  match last_index basis (iname i) 0 None with
  | None => m
  | Some b => map (fun p => if mem (fst p) (iqubits i) then bump_at S b (snd p) else snd p) (combine qubits m)
  end.
Definition count_gates (experiments : list (list instr)) (basis : list pystr) (qubits : list nat) : list (list (list nat)) :=
  map (fun data => fold_left (count_instr basis qubits) data (map (fun _ => repeat 0 (length basis)) qubits)) experiments.

(** The dictionary [ngates]; a value [None] stands for numpy's nan or inf. *)
Definition ngates := dict nat (dict pystr (option Q)).

(** rb_utils.py:128. *)
Definition ngates_init (basis : list pystr) (qubits : list nat) : ngates :=
  fold_left (fun d q => dset d q (fold_left (fun r b => dset r b (Some 0%Q)) basis [])) qubits [].
(** [ngates[q][name] += 1] with KeyError ignored, rb_utils.py:142-145, 151-154. *)
Definition bump (d : ngates) (q : nat) (name : pystr) : ngates :=
  match dget d q with
  | None => d
  | Some row => match dget row name with
                | None => d
                | Some v => dset d q (dset row name (option_map (fun x => x + 1)%Q v))
                end
  end.
Definition count_data (d : ngates) (data : list instr) : ngates :=
  fold_left (fun d i => fold_left (fun d q => bump d q (iname i)) (iqubits i) d) data d.
Definition count_citem (d : ngates) (c : citem) : result ngates :=
  match c with CCirc data => Ok (count_data d data) | CNot => Err QiskitError end.
Definition count_litem (d : ngates) (it : litem) : result ngates :=
  match it with
  | LQobj es => Ok (fold_left count_data es d)
  | LCircs cs => foldM count_citem cs d
  end.
(** Division by a numpy number. *)
Definition np_div (v : option Q) (t : Q) : option Q :=
  match v with Some x => if Qeq_bool t 0 then None else Some (x / t)%Q | None => None end.
Definition qsum (l : list Q) : Q := fold_right Qplus 0%Q l.
(** [ngates[qubit][base] /= total_ncliffs], rb_utils.py:161-163. *)
Definition divide (total : Q) (d : ngates) (qb : nat * pystr) : result ngates :=
  do row <- dget_e d (fst qb);
  do v <- dget_e row (snd qb);
  Ok (dset d (fst qb) (dset row (snd qb) (np_div v total))).
(** [gates_per_clifford], rb_utils.py:67-165. *)
Definition gates_per_clifford (items : list litem) (lengths : list Q) (basis : list pystr) (qubits : list nat) : result ngates :=
  match items with
  | [] => Err IndexError
  | _ =>
    do d <- foldM count_litem items (ngates_init basis qubits);
    let total := (inject_Z (Z.of_nat (length items)) * qsum (map (fun l => l + 1) lengths))%Q in
    foldM (divide total) (list_prod qubits basis) d
  end.
