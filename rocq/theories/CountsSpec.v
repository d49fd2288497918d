(** Specification vocabulary for counts dictionaries, independent of the model.

    An outcome is a string of binary digits in which qubit 0 is the rightmost
    character; spaces separate classical registers and carry no information. *)
From Verif Require Import Base.
From Coq Require Export Sorting.Sorted.

(** A counts dictionary: outcome string to number of shots. *)
Definition outcome_counts := list (pystr * Z).

(** Binary digits only. *)
Definition is_bits (s : pystr) : Prop := forall c, In c s -> c = "0"%char \/ c = "1"%char.

(** The string without spaces. *)
Fixpoint strip (s : pystr) : pystr :=
  match s with
  | [] => []
  | c :: s' => if Ascii.eqb c " " then strip s' else c :: strip s'
  end.

(** The value of qubit [q] in an outcome: [q]-th character from the right. *)
Definition qubit_bit (s : pystr) (q : nat) : ascii := nth q (rev s) "?"%char.

(** The outcome string of the qubits [asc] (listed in increasing order), with
    the first of them rightmost. *)
Definition outcome_on (asc : list nat) (s : pystr) : pystr := rev (map (qubit_bit s) asc).

(** All keys are [n]-bit outcomes once spaces are removed, and the dictionary
    is not empty and has no repeated outcome. *)
Definition valid_counts (n : nat) (c : outcome_counts) : Prop :=
  c <> [] /\ NoDup (map (fun kv => strip (fst kv)) c) /\
  forall k v, In (k, v) c -> length (strip k) = n /\ is_bits (strip k).

(** Number of shots in a dictionary. *)
Definition total (c : outcome_counts) : Z := zsum (map snd c).

(** Shots whose outcome on qubits [asc] is [y]. *)
Definition marginal_spec (c : outcome_counts) (asc : list nat) (y : pystr) : Z :=
  zsum (map (fun kv => if eqb (outcome_on asc (strip (fst kv))) y then snd kv else 0%Z) c).

(** [asc] lists the qubits [qs] in increasing order. *)
Definition increasing_version (asc qs : list nat) : Prop :=
  StronglySorted lt asc /\ Permutation asc qs.

(** The number of shots recorded for outcome [y]; absent outcomes count 0. *)
Definition shots_of (c : outcome_counts) (y : pystr) : Z :=
  zsum (map (fun kv => if eqb (fst kv) y then snd kv else 0%Z) c).

(** Value of a bit string read as a binary number. *)
Fixpoint binary_value (acc : nat) (s : pystr) : nat :=
  match s with
  | [] => acc
  | c :: s' => binary_value (2 * acc + (if Ascii.eqb c "1" then 1 else 0)) s'
  end.

(** Number of ones of outcome [s] on the set of qubits [qs]. *)
Definition ones_on (qs : list nat) (s : pystr) : nat :=
  length (filter (fun q => eqb (qubit_bit s q) "1"%char) qs).

(** Un-normalised expectation of the product of Z over [qs]. *)
Definition parity_spec (c : outcome_counts) (qs : list nat) : Z :=
  zsum (map (fun kv => (if Nat.even (ones_on qs (fst kv)) then snd kv else - snd kv)%Z) c).

(** The documented key of a subset: ['1'] at each qubit of the subset, qubit 0
    rightmost. *)
Definition subset_key (n : nat) (qs : list nat) : pystr :=
  rev (map (fun q => if mem q qs then "1"%char else "0"%char) (seq 0 n)).
