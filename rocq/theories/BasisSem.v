(** Circuits made only of classical (basis-permuting) operations, and their
    noiseless execution on computational basis states.  This is the standard
    meaning of the Qiskit Terra instructions named below; Terra itself is not
    modelled. *)
From Verif Require Import Base.

Inductive instr :=
| IX (q : nat)                (* qc.x *)
| ICX (c t : nat)             (* qc.cx *)
| IBarrier
| IMeasure (q c : nat)        (* qc.measure *)
| IReset (q : nat).           (* qc.reset *)

(** A circuit: name, register sizes, instructions in order. *)
Record circuit := { c_name : pystr; c_nq : nat; c_ncl : nat; c_body : list instr }.

(** Values of all qubits and of all classical bits. *)
Record bstate := { qb : nat -> bool; cb : nat -> bool }.

Definition upd {A} (f : nat -> A) (i : nat) (a : A) : nat -> A :=
  fun j => if Nat.eqb j i then a else f j.

Definition exec_instr (s : bstate) (i : instr) : bstate :=
  match i with
  | IX q => {| qb := upd (qb s) q (negb (qb s q)); cb := cb s |}
  | ICX c t => {| qb := upd (qb s) t (xorb (qb s c) (qb s t)); cb := cb s |}
  | IBarrier => s
  | IMeasure q c => {| qb := qb s; cb := upd (cb s) c (qb s q) |}
  | IReset q => {| qb := upd (qb s) q false; cb := cb s |}
  end.

Definition exec (body : list instr) (s : bstate) : bstate := fold_left exec_instr body s.

Definition all_zero : bstate := {| qb := fun _ => false; cb := fun _ => false |}.

(** The counts key of a run on a single classical register of [n] bits:
    classical bit 0 is the rightmost character. *)
Definition outcome_string (n : nat) (s : bstate) : pystr :=
  rev (map (fun c => if cb s c then "1"%char else "0"%char) (seq 0 n)).

(** The outcome of running a circuit from the ground state without noise. *)
Definition noiseless_outcome (c : circuit) : pystr :=
  outcome_string (c_ncl c) (exec (c_body c) all_zero).

Lemma exec_app b1 b2 s : exec (b1 ++ b2) s = exec b2 (exec b1 s).
Proof. unfold exec. apply fold_left_app. Qed.

Lemma exec_cons i b s : exec (i :: b) s = exec b (exec_instr s i).
Proof. reflexivity. Qed.

Lemma upd_same {A} (f : nat -> A) i a : upd f i a i = a.
Proof. unfold upd. rewrite Nat.eqb_refl; reflexivity. Qed.

Lemma upd_other {A} (f : nat -> A) i a j : j <> i -> upd f i a j = f j.
Proof. unfold upd. intros H. destruct (Nat.eqb_spec j i); congruence. Qed.
