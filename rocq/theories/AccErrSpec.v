(** Pauli errors in circuits, for property C81. *)
From Coq Require Import QArith.
From Verif Require Import Base LinAlg QSem DihedralModel RBSeqModel AccSpec.
Local Open Scope string_scope. Local Open Scope list_scope. Local Open Scope nat_scope.

(** A Pauli error: on each qubit, whether there is a Z and whether there is an X. *)
Definition error := nat -> bool * bool.
Definition err_gates (n : nat) (e : error) : list cinstr :=
  flat_map (fun q => (if snd (e q) then [gate1 "x" [] q] else []) ++ (if fst (e q) then [gate1 "z" [] q] else [])) (seq 0 n).
(** Bit flips. *)
Definition flipped (p : nat -> bool) : error := fun q => (false, p q).
Definition nontrivial (n : nat) (e : error) : Prop := exists q, q < n /\ e q <> (false, false).

(** Something is wrong with a circuit: an error after a layer, or a wrong preparation. *)
Definition erroneous (n : nat) (prep : nat -> bool) (errs : list error) : Prop := Exists (nontrivial n) errs \/ exists q, q < n /\ prep q = true.

Definition is_two (i : cinstr) : bool := match i with CGate g => length (gqubits g) =? 2 | _ => false end.
(** The next error of [errs] strikes at every barrier that follows a two-qubit gate, that
    is after each layer of two-qubit gates. *)
Fixpoint faulty (n : nat) (after_two : bool) (errs : list error) (c : list cinstr) : list cinstr :=
  match c with
  | [] => []
  | i :: c' =>
      i :: match i, after_two, errs with
           | CBarrier _, true, e :: errs' => err_gates n e ++ faulty n false errs' c'
           | _, _, _ => faulty n (is_two i) errs c'
           end
  end.
(** A circuit whose measurements come last: qubits prepared wrongly where [prep] says so,
    errors after the layers of two-qubit gates, and results read wrongly where [read]
    says so. *)
Definition noisy (n : nat) (prep : nat -> bool) (errs : list error) (read : nat -> bool) (c : list cinstr) : list cinstr :=
  err_gates n (flipped prep) ++ faulty n false errs (filter (fun i => negb (is_measure i)) c) ++ err_gates n (flipped read) ++ measures c.

(** The stream [rnd] with the bits [bs] from position [pos] on. *)
Definition chosen (rnd : nat -> bool) (pos : nat) (bs : bits) : nat -> bool :=
  fun k => if (pos <=? k) && (k <? pos + length bs) then nth (k - pos) bs false else rnd k.
