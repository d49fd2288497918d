(** Specification vocabulary for expectation values with measurement error
    mitigation, independent of the model. *)
From Coq Require Import QArith QArith.Qcanon.
From Verif Require Import LinAlg Base CountsSpec.
Open Scope nat_scope.

(** An integer as a rational number. *)
Definition ofZ (z : Z) : Qc := Q2Qc (inject_Z z).

(** Sum of [f x] over [x < m]. *)
Definition sum_lt (m : nat) (f : nat -> Qc) : Qc := fsum (map f (seq 0 m)).

(** The eigenvalue of Z on every qubit: -1 for every '1'. *)
Fixpoint z_parity (s : pystr) : Qc :=
  match s with
  | [] => 1%Qc
  | c :: s' => if Ascii.eqb c "1" then (- z_parity s')%Qc else z_parity s'
  end.

(** The same for the binary digits of a number. *)
Definition z_parity_index (n i : nat) : Qc :=
  fprod (map (fun b => if Nat.testbit i b then Qcopp 1 else 1%Qc) (seq 0 n)).

(** The value of a diagonal observable on an outcome. *)
Definition diag_value (d : list Qc) (s : pystr) : Qc := nth (binary_value 0 s) d 0%Qc.

(** The observable given by the diagonal argument; by default the parity. *)
Definition observable (diag : option (list Qc)) (s : pystr) : Qc :=
  match diag with None => z_parity s | Some d => diag_value d s end.

(** Mean and variance of [f] over the shots of a counts dictionary. *)
Definition mean_of (f : pystr -> Qc) (c : outcome_counts) : Qc :=
  (fsum (map (fun kv => ofZ (snd kv) * f (fst kv)) c) / ofZ (total c))%Qc.
Definition var_of (f : pystr -> Qc) (c : outcome_counts) : Qc :=
  (fsum (map (fun kv => ofZ (snd kv) * ((f (fst kv) - mean_of f c) * (f (fst kv) - mean_of f c))) c)
   / ofZ (total c))%Qc.

(** The outcome on the selected bits (all bits, or the increasing list). *)
Definition outcome_sel (sel : option (list nat)) (s : pystr) : pystr :=
  match sel with None => strip s | Some asc => outcome_on asc (strip s) end.

(** [c] are well-formed counts whose outcomes, restricted as the argument
    [clbits] says, have [n] bits; [sel] is the increasing version of [clbits]. *)
Definition well_formed (n : nat) (c : outcome_counts) (clbits sel : option (list nat)) : Prop :=
  1 <= n /\
  match clbits, sel with
  | None, None => valid_counts n c /\ (forall k v, In (k, v) c -> strip k = k)
  | Some qs, Some asc =>
      exists m, valid_counts m c /\ increasing_version asc qs /\ (forall q, In q qs -> q < m) /\
        length qs = n
  | _, _ => False
  end.

Definition nonneg (c : outcome_counts) : Prop := forall k v, In (k, v) c -> (0 <= v)%Z.

(** Number of shots whose (selected) outcome has the binary value [i]. *)
Definition hits (c : outcome_counts) (sel : option (list nat)) (i : nat) : Z :=
  zsum (map (fun kv => if binary_value 0 (outcome_sel sel (fst kv)) =? i then snd kv else 0%Z) c).

Definition freq (c : outcome_counts) (sel : option (list nat)) (i : nat) : Qc :=
  (ofZ (hits c sel i) / ofZ (total c))%Qc.

(** [i] is the index [i'] with its bits rearranged: bit [j] of [i] belongs to
    the [j]-th smallest physical qubit, bit [p] of [i'] to the qubit listed at
    position [p] of [qs]. *)
Definition rearranged (asc qs : list nat) (i i' : nat) : Prop :=
  forall j p q, nth_error asc j = Some q -> nth_error qs p = Some q ->
  Nat.testbit i j = Nat.testbit i' p.

(** Entry [(y, x)] of a tensor product of 2x2 matrices; the first belongs to
    the least significant bit. *)
Fixpoint tensor_entry (ms : list (bool -> bool -> Qc)) (y x : nat) : Qc :=
  match ms with
  | [] => 1%Qc
  | a :: ms' => (a (Nat.odd y) (Nat.odd x) * tensor_entry ms' (y / 2) (x / 2))%Qc
  end.

(** [b] is a left inverse of [a] in dimension [d]. *)
Definition left_inverse (d : nat) (b a : nat -> nat -> Qc) : Prop :=
  forall x x', x < d -> x' < d ->
  sum_lt d (fun y => b x y * a y x')%Qc = if x =? x' then 1%Qc else 0%Qc.

(** Largest absolute column sum. *)
Definition abs_of (x : Qc) : Qc := if Qclt_le_dec x 0 then (- x)%Qc else x.
Definition max_column_sum (d : nat) (m : nat -> nat -> Qc) (g : Qc) : Prop :=
  (exists j, j < d /\ sum_lt d (fun i => abs_of (m i j)) = g) /\
  (forall j, j < d -> (sum_lt d (fun i => abs_of (m i j)) <= g)%Qc).

(** A readout error matrix of one qubit: columns are distributions. *)
Definition stochastic2 (a : bool -> bool -> Qc) : Prop :=
  (forall i j, (0 <= a i j)%Qc) /\ (forall j, (a false j + a true j)%Qc = 1%Qc).

Definition invertible2 (a : bool -> bool -> Qc) : Prop :=
  (a false false * a true true - a false true * a true false)%Qc <> 0%Qc.

(** The number whose bit [nth j qs] is bit [j] of [i], for all [j]; other bits
    are 0. *)
Definition spread (qs : list nat) (i x : nat) : Prop :=
  (forall j q, nth_error qs j = Some q -> Nat.testbit x q = Nat.testbit i j) /\
  (forall q, ~ In q qs -> Nat.testbit x q = false).

(** Do the bits of [y] at positions [qs] spell [r]? *)
Definition agrees (qs : list nat) (y r : nat) : bool :=
  forallb (fun j => Bool.eqb (Nat.testbit y (nth j qs 0)) (Nat.testbit r j)) (seq 0 (length qs)).

(** Probability of reading [r] on the qubits [qs] when the full register is
    prepared in [x]. *)
Definition marginal_entry (n : nat) (a : nat -> nat -> Qc) (qs : list nat) (r x : nat) : Qc :=
  sum_lt (2 ^ n) (fun y => if agrees qs y r then a y x else 0%Qc).

(** Calibration data: (prepared, (measured, shots)) triples. *)
Definition cal_shots (data : list (nat * list (nat * Z))) : list (nat * nat * Z) :=
  flat_map (fun cc => map (fun kv => (fst cc, fst kv, snd kv)) (snd cc)) data.

(** No error outside [qs]. *)
Definition clean_elsewhere (n : nat) (qs : list nat) (prep meas : nat) : bool :=
  forallb (fun i => mem i qs || Bool.eqb (Nat.testbit prep i) (Nat.testbit meas i)) (seq 0 n).

(** The index of a basis state on [qs], first listed qubit most significant. *)
Fixpoint local_index (qs : list nat) (i : nat) : nat :=
  match qs with
  | [] => 0
  | q :: qs' => (if Nat.testbit i q then 2 ^ length qs' else 0) + local_index qs' i
  end.

(** Shots prepared in [x] and read as [y] on the qubits [qs], among those
    without an error elsewhere. *)
Definition joint_shots (data : list (nat * list (nat * Z))) (n : nat) (qs : list nat) (y x : nat) : Z :=
  zsum (map (fun t => let '(prep, meas, v) := t in
    if clean_elsewhere n qs prep meas && (local_index qs prep =? x) && (local_index qs meas =? y)
    then v else 0%Z) (cal_shots data)).
Definition prepared_shots (data : list (nat * list (nat * Z))) (n : nat) (qs : list nat) (x : nat) : Z :=
  zsum (map (fun t => let '(prep, meas, v) := t in
    if clean_elsewhere n qs prep meas && (local_index qs prep =? x) then v else 0%Z) (cal_shots data)).

(** The same on the full register. *)
Definition joint_full (data : list (nat * list (nat * Z))) (y x : nat) : Z :=
  zsum (map (fun t => let '(prep, meas, v) := t in
    if (prep =? x) && (meas =? y) then v else 0%Z) (cal_shots data)).
Definition prepared_full (data : list (nat * list (nat * Z))) (x : nat) : Z :=
  zsum (map (fun t => let '(prep, meas, v) := t in if prep =? x then v else 0%Z) (cal_shots data)).

(** The single-qubit matrices of the listed qubits (all of them by default). *)
Definition selected {A} (all : list A) (qubits : option (list nat)) (ms : list A) : Prop :=
  match qubits with
  | None => ms = all
  | Some qs => Forall2 (fun q a => nth_error all q = Some a) qs ms
  end.

(** Shots of the experiments whose metadata says they prepare [x], read as [y];
    an experiment is given by its label (absent if it is not a calibration) and
    its counts. *)
Definition recorded (exps : list (option pystr * list (nat * Z))) (y x : nat) : Z :=
  zsum (map (fun e => match fst e with
    | Some label => if binary_value 0 label =? x
                    then zsum (map (fun kv => if fst kv =? y then snd kv else 0%Z) (snd e)) else 0%Z
    | None => 0%Z end) exps).

(** The label of a state in which only qubit [i] is excited. *)
Definition excited (n i : nat) (s : pystr) : Prop :=
  length s = n /\ forall k, k < n -> nth k s "0"%char = if k =? n - 1 - i then "1"%char else "0"%char.

(** The [i]-th element of the diagonal argument; by default the parity. *)
Definition diag_entry (diag : option (list Qc)) (n i : nat) : Qc :=
  match diag with Some d => nth i d 0%Qc | None => z_parity_index n i end.

(** The sum of the two flip probabilities is below 1. *)
Definition low_error (a : bool -> bool -> Qc) : Prop := (a true false + a false true < 1)%Qc.

(** [m] is the matrix of a register of [nn] qubits on the listed qubits, the
    others being prepared in 0 and their outcomes ignored. *)
Definition is_marginal (nn : nat) (a : nat -> nat -> Qc) (qs : list nat) (m : nat -> nat -> Qc) : Prop :=
  forall y x X, y < 2 ^ length qs -> x < 2 ^ length qs -> spread qs x X -> m y x = marginal_entry nn a qs y X.

(** [d'] lists the observable [d], whose bits are in the order of increasing
    qubits, in the order of the list. *)
Definition as_listed (asc qs : list nat) (n : nat) (d d' : nat -> Qc) : Prop :=
  forall i i', i < 2 ^ n -> i' < 2 ^ n -> rearranged asc qs i i' -> d' i' = d i.

Definition identity_matrix (y x : nat) : Qc := if y =? x then 1%Qc else 0%Qc.
