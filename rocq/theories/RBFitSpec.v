(** Independent meaning of the data entering the fits, for C28 and C25. *)
From Coq Require Import QArith.
From Verif Require Import Base PyStr CountsModel CountsSpec MeasCalModel RBSeqModel RBFitModel.
Open Scope nat_scope.

(** Counts of all the circuits of that name in the results. *)
Definition recorded (rs : list qresult) (name : pystr) : list counts :=
  flat_map (fun r => map e_counts (filter (fun e => eqb (e_name e) name) r)) rs.
(** Shots whose outcome satisfies a condition. *)
Definition shots_with (P : pystr -> bool) (cs : list counts) : Z :=
  zsum (map (fun c => zsum (map (fun kv => if P (fst kv) then snd kv else 0%Z) c)) cs).
(** All of the bits [start] to [start + width - 1] are 0. *)
Definition ground (start width : nat) (s : pystr) : bool := forallb (fun q => eqb (qubit_bit s q) "0"%char) (seq start width).
Definition always (_ : pystr) : bool := true.

(** Results whose circuits have distinct names and [n]-bit outcomes. *)
Definition counts_fine (n : nat) (c : counts) : Prop :=
  NoDup (map fst c) /\ forall k v, In (k, v) c -> length k = n /\ is_bits k.
Definition results_fine (n : nat) (rs : list qresult) : Prop :=
  forall r, In r rs -> NoDup (map e_name r) /\ forall e, In e r -> counts_fine n (e_counts e).

(** The first classical bit of pattern [i], and the number of bits. *)
Definition start_of (patterns : list (list nat)) (i : nat) : nat := length (concat (firstn i patterns)).

(** Entry of the raw data. *)
Definition raw_at (f : rbfitter) (i j k : nat) : option Q :=
  match nth_error (f_raw f) i with
  | Some rows => match nth_error rows j with Some row => nth_error row k | None => None end
  | None => None
  end.
Definition mean_at (f : rbfitter) (i k : nat) : option Q :=
  match nth_error (f_mean f) i with Some row => nth_error row k | None => None end.

(** Seeds named by the circuits. *)
Definition seeds_named (rs : list qresult) (s : Z) : Prop := exists r e, In r rs /\ In e r /\ seed_of (e_name e) = Ok s.

(** The part of the name of the first circuit before '_length'. *)
Definition type_of (rs : list qresult) (ty : pystr) : Prop := exists r e, nth_error rs 0 = Some r /\ nth_error r 0 = Some e /\ ty = before (str "_length") (e_name e).
(** A history of calls of [add_data], none of which raises. *)
Fixpoint added (f : rbfitter) (h : list (option (list qresult) * bool)) (f' : rbfitter) : Prop :=
  match h with
  | [] => f' = f
  | (new, rerun) :: h' => exists f1, add_data f new rerun = (f1, None) /\ added f1 h' f'
  end.
Definition results_of (h : list (option (list qresult) * bool)) : list qresult :=
  flat_map (fun c => match fst c with Some rs => rs | None => [] end) h.

(** Fraction of the ground outcomes among the shots of a circuit. *)
Definition fraction (rs : list qresult) (name : pystr) (start width : nat) : Q :=
  (inject_Z (shots_with (ground start width) (recorded rs name)) / inject_Z (shots_with always (recorded rs name)))%Q.

(** ** Purity *)
(** A Pauli string, from qubit 0: 0 is I, 1 is X, 2 is Y, 3 is Z.  A measurement
    basis, from qubit 0: 0 is Z, 1 is X, 2 is Y; its number has the basis of
    qubit 0 as the lowest digit. *)
Fixpoint basis_index (b : list nat) : nat := match b with [] => 0 | c :: b' => c + 3 * basis_index b' end.
Definition pauli_of_basis (b : nat) : nat := match b with 0 => 3 | 1 => 1 | _ => 2 end.
(** The basis measures the Pauli string: on every qubit the Pauli is I or the measured one. *)
Fixpoint measures (b p : list nat) : bool :=
  match b, p with
  | [], [] => true
  | x :: b', c :: p' => ((c =? 0) || (c =? pauli_of_basis x)) && measures b' p'
  | _, _ => false
  end.
(** The bits of its support, the first qubit being bit [start]. *)
Fixpoint positions (start : nat) (p : list nat) : list nat :=
  match p with [] => [] | c :: p' => (if c =? 0 then [] else [start]) ++ positions (S start) p' end.
Fixpoint all_lists (m n : nat) : list (list nat) :=
  match n with 0 => [[]] | S n' => flat_map (fun t => map (fun c => c :: t) (seq 0 m)) (all_lists m n') end.
(** The mean of the products of (-1)^bit over the shots of the circuit. *)
Definition correlator (rs : list qresult) (name : pystr) (bits : list nat) : Q :=
  (inject_Z (zsum (map (fun c => parity_spec c bits) (recorded rs name))) / inject_Z (shots_with always (recorded rs name)))%Q.
Definition qsum (l : list Q) : Q := fold_right Qplus 0%Q l.
(** The estimate of Tr rho^2: every Pauli string has as expectation the mean
    over the bases measuring it.  [corr b p] is the estimate of [p] in [b]. *)
Definition pauli_mean (n : nat) (corr : list nat -> list nat -> Q) (p : list nat) : Q :=
  qmean (map (fun b => corr b p) (filter (fun b => measures b p) (all_lists 3 n))).
Definition purity_spec (n : nat) (corr : list nat -> list nat -> Q) : Q :=
  (qsum (map (fun p => pauli_mean n corr p * pauli_mean n corr p) (all_lists 4 n)) / inject_Z (Z.of_nat (2 ^ n)))%Q.
(** Every result starts with a circuit of its basis, the bases being in order
    and repeated for every seed. *)
Definition types_in_order (rs : list qresult) (nseeds npurity : nat) (ty : nat -> pystr) : Prop :=
  forall i, i < nseeds * npurity -> exists r e, nth_error rs i = Some r /\ nth_error r 0 = Some e /\ before (str "_length") (e_name e) = ty (i mod npurity).
