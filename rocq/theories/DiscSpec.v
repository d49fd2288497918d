(** Independent meaning of training data and discriminated counts, for C51. *)
From Verif Require Import Base PyStr DiscModel.
Local Open Scope list_scope.
Local Open Scope nat_scope.

Section Spec.
Context {V : Type}.
Implicit Types (row : list (V * V)) (f : list V).

(** The features of a shot: the I values of the qubits of the mask, then their
    Q values. *)
Definition is_feature (mask : list nat) row f : Prop :=
  length f = 2 * length mask /\
  forall i q, nth_error mask i = Some q -> exists v, nth_error row q = Some v /\ nth_error f i = Some (fst v) /\ nth_error f (length mask + i) = Some (snd v).

(** Some shots, each with a value for all qubits of the mask. *)
Definition proper (mask : list nat) (rows : list (list (V * V))) : Prop :=
  rows <> [] /\ Forall (fun row => row <> [] /\ Forall (fun q => q < length row) mask) rows.

(** Exactly one experiment of all results has the name; it has this memory. *)
Definition exp_once (rs : list (iresult V)) (name : pystr) (m : imem V) : Prop :=
  exists l1 e l2, concat rs = l1 ++ e :: l2 /\ i_name e = name /\ i_mem e = m /\ ~ In name (map i_name (l1 ++ l2)).

(** Data and labels belong together: both run through the shots [rows name] of
    the schedules in order, and the label of a shot is the one of its schedule. *)
Definition aligned (mask : list nat) (rows : pystr -> list (list (V * V))) (label : pystr -> pystr) (ss : list sched) (x : list (list V)) (y : list pystr) : Prop :=
  exists shots, shots = flat_map (fun s => map (fun row => (sname s, row)) (rows (sname s))) ss /\
  Forall2 (fun shot f => is_feature mask (snd shot) f) shots x /\ y = map (fun shot => label (fst shot)) shots.
End Spec.

(** The number a label denotes in a base, and labels of digits of that base. *)
Definition digit (c : ascii) : nat := nat_of_ascii c - 48.
Definition value (b : nat) (label : pystr) : nat := fold_left (fun a c => a * b + digit c) label 0.
Definition numeral (b : nat) (label : pystr) : Prop := label <> [] /\ Forall (fun c => 48 <= nat_of_ascii c < 48 + b) label.

(** The counts of labels: for every number the shots with that number. *)
Definition counts_of (b : nat) (labels : list pystr) (c : dict pystr Z) : Prop :=
  NoDup (dkeys c) /\ zsum (dvals c) = Z.of_nat (length labels) /\
  (forall v, dget0 c (hexs v) = Z.of_nat (length (filter (fun l => value b l =? v) labels))) /\
  forall k, In k (dkeys c) -> exists l, In l labels /\ k = hexs (value b l).
