(** Specification vocabulary for the CTMP method: transitions of generators,
    Markov generators, matrix exponentials and Poisson mixtures, independent of
    the model. *)
From Coq Require Import QArith QArith.Qcanon Reals.
From Coquelicot Require Import Coquelicot.
From Verif Require Import LinAlg Base CountsSpec ExpvalSpec.
Open Scope nat_scope.

(** Real numbers as a field. *)
Definition R_eqb (x y : R) : bool := if Req_EM_T x y then true else false.
Lemma R_eqb_ok x y : reflect (x = y) (R_eqb x y).
Proof. unfold R_eqb. destruct (Req_EM_T x y); constructor; assumption. Qed.
Global Instance Fld_R : Fld R :=
  {| f0 := 0%R; f1 := 1%R; fadd := Rplus; fmul := Rmult; fsub := Rminus; fopp := Ropp;
     fdiv := Rdiv; finv := Rinv; fth := RealField.Rfield; feqb := R_eqb; feqb_ok := R_eqb_ok |}.

(** Position of a qubit in a list of qubits. *)
Fixpoint position (q : nat) (l : list nat) : option nat :=
  match l with
  | [] => None
  | q' :: l' => if q =? q' then Some 0 else option_map S (position q l')
  end.

Definition is_one (c : ascii) : bool := Ascii.eqb c "1".

(** Does the transition [a -> b] on the qubits [gq] send [x] to [y]?  Bit [k]
    of [x] and [y] belongs to the [k]-th qubit of [qs]. *)
Definition sends (qs : list nat) (b a : pystr) (gq : list nat) (x y : nat) : bool :=
  forallb (fun k =>
    match position (nth k qs 0) gq with
    | Some m => Bool.eqb (Nat.testbit x k) (is_one (nth m a "0"%char)) && Bool.eqb (Nat.testbit y k) (is_one (nth m b "0"%char))
    | None => Bool.eqb (Nat.testbit x k) (Nat.testbit y k)
    end) (seq 0 (length qs)).

(** A generator [(b, a, qubits)] is a transition between bit strings. *)
Definition transition (b a : pystr) (gq : list nat) : Prop :=
  length b = length gq /\ length a = length gq /\ NoDup gq /\ is_bits b /\ is_bits a.

(** The rate matrix of transitions at given rates: column [x] gains at the
    state reached and loses at [x]. *)
Definition ind (b : bool) : Qc := if b then 1%Qc else 0%Qc.
Definition rate_matrix (qs : list nat) (gens : list (pystr * pystr * list nat * Qc)) (y x : nat) : Qc :=
  fsum (map (fun g => let '(b, a, gq, r) := g in
    if forallb (fun q => mem q qs) gq
    then (r * (ind (sends qs b a gq x y) - ind (sends qs a a gq x y)))%Qc else 0%Qc) gens).

(** Generators of Markov processes and stochastic matrices (columns). *)
Definition markov_generator (d : nat) (g : nat -> nat -> Qc) : Prop :=
  (forall y x, y < d -> x < d -> y <> x -> (0 <= g y x)%Qc) /\
  (forall x, x < d -> sum_lt d (fun y => g y x) = 0%Qc).
Definition column_stochastic (d : nat) (b : nat -> nat -> Qc) : Prop :=
  (forall y x, y < d -> x < d -> (0 <= b y x)%Qc) /\
  (forall x, x < d -> sum_lt d (fun y => b y x) = 1%Qc).

(** With a uniform number [r], the process at [x] moves to [y]: the [y]-th of
    the intervals of lengths [b 0 x, b 1 x, ...] contains [r]. *)
Definition moves_to (b : nat -> nat -> Qc) (x : nat) (r : Qc) (y : nat) : Prop :=
  (sum_lt y (fun z => b z x) <= r)%Qc /\ (r < sum_lt (S y) (fun z => b z x))%Qc.

(** A walk driven by a list of uniform numbers. *)
Inductive walk (d : nat) (b : nat -> nat -> Qc) : nat -> list Qc -> nat -> Prop :=
  | walk_stop x : walk d b x [] x
  | walk_step x r y rs z : y < d -> moves_to b x r y -> walk d b y rs z -> walk d b x (r :: rs) z.

(** A number drawn uniformly from [0, 1). *)
Definition uniform (r : Qc) : Prop := (0 <= r)%Qc /\ (r < 1)%Qc.

(** Several walks using consecutive random numbers. *)
Inductive runs (d : nat) (b : nat -> nat -> Qc) : list nat -> list nat -> list Qc -> list nat -> Prop :=
  | runs_nil : runs d b [] [] [] []
  | runs_cons x xs a al rs rs' y ys : length rs = a -> walk d b x rs y -> runs d b xs al rs' ys ->
      runs d b (x :: xs) (a :: al) (rs ++ rs') (y :: ys).

(** The largest rate of leaving a state. *)
Definition strength (d : nat) (g : nat -> nat -> Qc) (gamma : Qc) : Prop :=
  (forall x, x < d -> (- g x x <= gamma)%Qc) /\ exists x, x < d /\ gamma = (- g x x)%Qc.

(** Real matrices of dimension [d]. *)
Definition rsum (d : nat) (f : nat -> R) : R := fsum (map f (seq 0 d)).
Definition of_Qc (m : nat -> nat -> Qc) : nat -> nat -> R := fun i j => Q2R (this (m i j)).
Fixpoint mpow (d : nat) (m : nat -> nat -> R) (k : nat) : nat -> nat -> R :=
  match k with
  | 0 => fun i j => if i =? j then 1%R else 0%R
  | S k' => fun i j => rsum d (fun l => (m i l * mpow d m k' l j)%R)
  end.

(** The matrix exponential, entry by entry. *)
Definition exp_term (d : nat) (m : nat -> nat -> R) (i j k : nat) : R := (mpow d m k i j / INR (fact k))%R.
Definition mexp (d : nat) (m : nat -> nat -> R) (i j : nat) : R := Series (exp_term d m i j).

(** Probability of [k] under the Poisson distribution of mean [g]. *)
Definition poisson (g : R) (k : nat) : R := (exp (- g) * g ^ k / INR (fact k))%R.

(** Rates read off logarithms [l j k] of the calibration matrices of pairs of
    qubits, in which the first qubit is the more significant bit: the rate of a
    transition [a -> b] of a pair, and of one qubit averaged over its partners
    and their states.  Negative rates count as zero. *)
Definition clipped (x : Qc) : Qc := if Qclt_le_dec x 0 then 0%Qc else x.
Definition pair_rate (l : nat -> nat -> nat -> nat -> Qc) (j k : nat) (b a : pystr) : Qc :=
  clipped (l j k (binary_value 0 b) (binary_value 0 a)).
Definition single_rate (l : nat -> nat -> nat -> nat -> Qc) (n j : nat) (b a : ascii) : Qc :=
  (sum_lt n (fun k => if k =? j then 0%Qc else (pair_rate l j k [b; "0"%char] [a; "0"%char] + pair_rate l j k [b; "1"%char] [a; "1"%char])%Qc)
   / ofZ (2 * (Z.of_nat n - 1)))%Qc.
