(** Independent meaning of gate counts, for property C26. *)
From Coq Require Import QArith.
From Verif Require Import Base RBUtilsModel.
Open Scope nat_scope.

(** How often gate [b] acts on qubit [q]. *)
Definition acts (q : nat) (b : pystr) (i : instr) : nat := if eqb (iname i) b then count_occ Nat.eq_dec (iqubits i) q else 0.
Definition total (l : list nat) : nat := fold_right Nat.add 0 l.
Definition gates_on (q : nat) (b : pystr) (data : list instr) : nat := total (map (acts q b) data).

(** The circuits of an argument. *)
Definition circuits_of (it : litem) : list (list instr) :=
  match it with
  | LQobj es => es
  | LCircs cs => flat_map (fun c => match c with CCirc d => [d] | CNot => [] end) cs
  end.
Definition all_circuits (items : list litem) : list (list instr) := flat_map circuits_of items.
Definition well_formed (it : litem) : Prop := match it with LQobj _ => True | LCircs cs => ~ In CNot cs end.

(** Cliffords in the circuits: a circuit of length [l] has [l] of them and the
    inverse; every argument has a circuit for each length. *)
Definition cliffords (items : list litem) (lengths : list Q) : Q :=
  qsum (flat_map (fun it => map (fun p => snd p + 1)%Q (combine (circuits_of it) lengths)) items).

(** Entry of the returned dictionary. *)
Definition entry (d : ngates) (q : nat) (b : pystr) : option (option Q) :=
  match dget d q with Some row => dget row b | None => None end.
(** Number of gates on the qubit per Clifford. *)
Definition per_clifford (items : list litem) (denominator : Q) (q : nat) (b : pystr) : Q :=
  (inject_Z (Z.of_nat (total (map (gates_on q b) (all_circuits items)))) / denominator)%Q.

(** What the code divides by. *)
Definition denominator (items : list litem) (lengths : list Q) : Q := (inject_Z (Z.of_nat (length items)) * qsum (map (fun l => l + 1) lengths))%Q.

(** Tables of counts, [count_gates]. *)
Definition cell (m : list (list nat)) (q b : nat) : nat := nth b (nth q m []) 0.
Definition in_shape (nq nb : nat) (m : list (list nat)) : Prop := length m = nq /\ Forall (fun r => length r = nb) m.
(** Instructions with the name [b] on the qubit [q]. *)
Definition instrs_on (q : nat) (b : pystr) (data : list instr) : nat := length (filter (fun i => eqb (iname i) b && mem q (iqubits i)) data).
