(** Independent meaning of accreditation, for properties C36-C39. *)
From Coq Require Import QArith Reals.
From Verif Require Import Base LinAlg QSem DihedralModel RBSeqModel RBSeqSpec StdGates.
Open Scope nat_scope.

(** ** Shapes of circuits *)
Definition is_measure (i : cinstr) : bool := match i with CMeasure _ _ => true | _ => false end.
Definition measures (ops : list cinstr) : list cinstr := filter is_measure ops.

(** A circuit of gates on one of [n] qubits, and barriers. *)
Definition one_qubit (n : nat) (i : cinstr) : Prop :=
  match i with CGate g => exists q, gqubits g = [q] /\ q < n | CBarrier _ => True | CMeasure _ _ => False end.
(** The elements of a circuit transpiled to u1, u2, u3 and cx. *)
Definition native (n : nat) (i : cinstr) : Prop :=
  match i with
  | CGate g => ((gname g = str "u1" \/ gname g = str "u2" \/ gname g = str "u3") /\ exists q, gqubits g = [q] /\ q < n) \/
               (gname g = str "cx" /\ gparams g = [] /\ exists c t, gqubits g = [c; t] /\ c < n /\ t < n /\ c <> t)
  | CBarrier _ => True
  | CMeasure q _ => q < n
  end.
(** A layer of two-qubit gates called [g2], no two of which share a qubit. *)
Definition layer2 (g2 : pystr) (n : nat) (l : list cinstr) : Prop :=
  Forall (fun i => exists c t, i = CGate {| gname := g2; gparams := []; gqubits := [c; t] |} /\ c < n /\ t < n) l /\
  NoDup (flat_map (fun i => match i with CGate g => gqubits g | _ => [] end) l).

(** Single-qubit and two-qubit layers, alternating. *)
Fixpoint woven (singles twos : list (list cinstr)) : list cinstr :=
  match singles, twos with
  | s :: singles', t :: twos' => s ++ t ++ woven singles' twos'
  | s :: _, [] => s
  | [], _ => []
  end.

(** Qubit q into classical bit q, for all the qubits. *)
Definition measures_all (n : nat) (ops : list cinstr) : Prop :=
  (forall q c, In (CMeasure q c) ops -> c = q /\ q < n) /\ (forall q, q < n -> In (CMeasure q q) ops).

(** ** Counts keys *)
Definition xors (a b : bits) : bits := map (fun ab => xorb (fst ab) (snd ab)) (combine a b).
Definition key_of (cl : bits) : pystr := map (fun b : bool => if b then "1"%char else "0"%char) (rev cl).
(** The classical register of [m] bits after the measurements of [ops], when the
    qubits are found in [y]. *)
Definition reads (m : nat) (ops : list cinstr) (y : bits) : bits :=
  fold_left (fun cl i => match i with CMeasure q c => set1 cl c (nth q y false) | _ => cl end) ops (repeat false m).

Section Prob.
Context {F : Type} {HF : Fld F}.
Variable gmat : pystr -> list Q -> bits -> bits -> F.

(** Transpiling single-qubit circuits gives single-qubit circuits with the same
    action. *)
Definition transpiles (n : nat) (tp : list cinstr -> list cinstr) : Prop :=
  forall c, Forall (one_qubit n) c -> Forall (one_qubit n) (tp c) /\ same_action gmat n (gates (tp c)) (gates c).

(** Final amplitudes, from the ground state. *)
Definition final (n : nat) (ops : list cinstr) : amp F := run (map (op_of gmat) (gates ops)) (ground n).

(** Weights of amplitudes, such as the squared modulus. *)
Context {K : Type} {HK : Fld K}.
Variable w : F -> K.
Record weighing : Prop := {
  w_mul : forall a b, w (fmul a b) = fmul (w a) (w b);
  w_one : w f1 = f1;
  w_neg : w (fopp f1) = f1;
  w_zero : w f0 = f0
}.

(** Probability of a counts key, for a circuit whose measurements are final:
    relative weight of the basis states that give this key. *)
Definition total (n : nat) (ops : list cinstr) : K := fsum (map (fun y => w (final n ops y)) (cube n)).
Definition prob (n m : nat) (ops : list cinstr) (key : pystr) : K :=
  fdiv (fsum (map (fun y => if eqb (key_of (reads m ops y)) key then w (final n ops y) else f0) (cube n))) (total n ops).
(** A key that can be obtained. *)
Definition possible (n m : nat) (ops : list cinstr) (key : pystr) : Prop :=
  exists y, length y = n /\ final n ops y <> f0 /\ key = key_of (reads m ops y).
End Prob.
