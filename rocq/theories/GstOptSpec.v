(** Specifications for the optimisations of gate-set tomography (C64). *)
From Coq Require Import QArith Reals.
From Coquelicot Require Import Coquelicot.
From Verif Require Import LinAlg Base PyStr CtmpSpec EntSpec TomoModel TomoFitSpec TomoPsdSpec GstModel GstInvSpec.
Local Open Scope list_scope.
Local Open Scope nat_scope.

(** ** Pauli operators *)
(** The entry of I, X, Y or Z (0, 1, 2, 3) between two bits. *)
Definition letter (p : nat) (r c : bool) : C :=
  if Nat.even p && negb (p =? 2) then if xorb r c then f0 else f1
  else if p =? 1 then if xorb r c then f1 else f0
  else if p =? 2 then if xorb r c then (if r then Ci else Copp Ci) else f0
  else if xorb r c then f0 else if r then fopp f1 else f1.
(** The operator of [n] qubits whose letters are the digits of [i] in base 4. *)
Definition pauli_op (n i r c : nat) : C :=
  fprod (map (fun k => letter ((i / 4 ^ k) mod 4) (Nat.testbit r k) (Nat.testbit c k)) (seq 0 n)).
Definition csumn (n : nat) (f : nat -> C) : C := fsum (map f (seq 0 n)).
(** Trace of a product. *)
Definition tr2 (d : nat) (A B : nat -> nat -> C) : C := csumn d (fun a => csumn d (fun b => fmul (A a b) (B b a))).
(** What the Pauli transfer matrix [G] does to an operator: P_j goes to the sum of
    the [G i j] P_i. *)
Definition transfer (n : nat) (G : nat -> nat -> C) (X : nat -> nat -> C) (r c : nat) : C :=
  fdiv (csumn (4 ^ n) (fun i => csumn (4 ^ n) (fun j => fmul (fmul (G i j) (tr2 (2 ^ n) (pauli_op n j) X)) (pauli_op n i r c)))) (RtoC (INR (2 ^ n))).
(** The operator |a><b|, and the matrix of the images of all of them. *)
Definition unit_op (a b r c : nat) : C := if (a =? r) && (b =? c) then f1 else f0.
Definition choi_matrix (n : nat) (G : nat -> nat -> C) (x y : nat) : C :=
  let d := 2 ^ n in transfer n G (unit_op (x / d) (y / d)) (x mod d) (y mod d).
Definition completely_positive (n : nat) (G : nat -> nat -> C) : Prop := psd (4 ^ n) (choi_matrix n G).
Definition trace_preserving (n : nat) (G : nat -> nat -> C) : Prop :=
  forall X : nat -> nat -> C, csumn (2 ^ n) (fun r => transfer n G X r r) = csumn (2 ^ n) (fun r => X r r).

(** ** Encoded gate sets *)
(** [t] is upper triangular, [z] unitary and [m] their product [z t z^dagger]. *)
Record schur_form (dim : nat) (m t z : nat -> nat -> C) : Prop := {
  sf_upper : forall i j, j < i -> i < dim -> t i j = f0;
  sf_unitary : forall j k, j < dim -> k < dim -> csumn dim (fun a => fmul (Cconj (z a j)) (z a k)) = if j =? k then f1 else f0;
  sf_product : forall a b, a < dim -> b < dim -> m a b = csumn dim (fun i => csumn dim (fun j => fmul (fmul (z a i) (t i j)) (Cconj (z b j))))
}.
(** A decomposition that is right for the matrix with the entries [M]. *)
Definition schur_on (schur : cmat -> (nat -> nat -> C) * (nat -> nat -> C)) (dim : nat) (M : nat -> nat -> C) : Prop :=
  forall m, m_rows m = dim -> m_cols m = dim -> same_entries dim (m_at m) M -> schur_form dim (m_at m) (fst (schur m)) (snd (schur m)).
(** A list read as the rows of a square matrix. *)
Definition square (d : nat) (l : list C) (i j : nat) : C := nth (i * d + j) l (RtoC 0).
(** What the vectors of the optimisation can express: the lists of the effect and of
    the state, read as matrices, are positive and so are the Choi matrices. *)
Record expressible (q : nat) (E rho : list C) (Gs : list cmat) : Prop := {
  ex_lenE : length E = 4 ^ q; ex_lenrho : length rho = 4 ^ q;
  ex_E : psd (2 ^ q) (square (2 ^ q) E);
  ex_rho : psd (2 ^ q) (square (2 ^ q) rho);
  ex_Gs : Forall (fun G => m_rows G = 4 ^ q /\ m_cols G = 4 ^ q /\ completely_positive q (m_at G)) Gs
}.
Definition is_real (z : C) : Prop := snd z = 0%R.
Definition vec_length (q n : nat) : nat := 2 * 4 ^ q + 2 * 4 ^ q + n * (2 * 16 ^ q).

(** The operator of a Pauli vector of one qubit. *)
Definition operator_of (v : nat -> C) (r c : nat) : C :=
  fmul (RtoC (/ sqrt 2)) (csumn 4 (fun p => fmul (v p) (pauli_op 1 p r c))).
Definition hermitian (d : nat) (M : nat -> nat -> C) : Prop := forall r c, r < d -> c < d -> M r c = Cconj (M c r).

(** ** Minimisers *)
(** Nowhere is the function smaller than at [x]. *)
Definition minimiser {X} (f : X -> result R) (x : X) : Prop := exists v, f x = Ok v /\ forall y w, f y = Ok w -> (v <= w)%R.

(** The expectation of [E] in the state [rho] after the gates with the transfer matrices [Gs]. *)
Definition born (E rho : nat -> nat -> C) (Gs : list (nat -> nat -> C)) : C := tr2 2 E (fold_left (fun X G => transfer 1 G X) Gs rho).
(** Constrained problems: all the values of [eqs] vanish and none of [ineqs] is
    negative; [x] is a solution when nowhere the objective is smaller. *)
Definition feasible (eqs ineqs : list (list R -> result (list R))) (x : list R) : Prop :=
  Forall (fun c => exists l, c x = Ok l /\ Forall (fun v => v = 0%R) l) eqs /\ Forall (fun c => exists l, c x = Ok l /\ Forall (fun v => (0 <= v)%R) l) ineqs.
Definition solution (obj : list R -> result R) (eqs ineqs : list (list R -> result (list R))) (x : list R) : Prop :=
  feasible eqs ineqs x /\ exists v, obj x = Ok v /\ forall y w, feasible eqs ineqs y -> obj y = Ok w -> (v <= w)%R.
(** Trace-preserving gates with real entries, those of the rows after the first
    between -1 and 1. *)
Definition ptm_gate (q : nat) (G : nat -> nat -> C) : Prop :=
  trace_preserving q G /\ (forall i j, i < 4 ^ q -> j < 4 ^ q -> is_real (G i j)) /\
  forall i j, 0 < i -> i < 4 ^ q -> j < 4 ^ q -> (-1 <= fst (G i j) <= 1)%R.
(** The sum of the squared differences between the real parts of the predictions and
    the data. *)
Definition real_error (d : nat) (Gs names : list pystr) (ops : pystr -> list pystr) (data : pystr -> pystr -> pystr -> R)
    (E rho : nat -> C) (G : pystr -> nat -> nat -> C) : R :=
  fsum (flat_map (fun fi => flat_map (fun fj => map (fun g =>
    let x := (fst (seq_prob d E rho (map G (ops fj ++ [g] ++ ops fi))) - data fj g fi)%R in (x * x)%R) Gs) names) names).
(** A real vector and a real matrix of one qubit, as complex ones. *)
Definition cvec4 (v : nat -> R) : list C := map (fun i => RtoC (v i)) (seq 0 4).
Definition cptm4 (m : nat -> nat -> R) : cmat := {| m_rows := 4; m_cols := 4; m_at := fun i j => RtoC (m i j) |}.
(** A gate set of one qubit that the optimisation can express and that meets its
    constraints. *)
Record admissible (gates : list pystr) (E rho : nat -> R) (G : pystr -> nat -> nat -> R) : Prop := {
  ad_expressible : expressible 1 (cvec4 E) (cvec4 rho) (map (fun g => cptm4 (G g)) gates);
  ad_gates : Forall (fun g => ptm_gate 1 (m_at (cptm4 (G g)))) gates;
  ad_trace : csumn 2 (fun r => operator_of (fun i => RtoC (rho i)) r r) = f1
}.
(** The SPAM circuits act as their gates, one after the other. *)
Definition in_order (spam : list pystr) (ops : pystr -> list pystr) (G S : pystr -> mat (F:=R) nat) : Prop :=
  forall f, In f spam -> forall v i, i < 4 -> mapply (seq 0 4) (S f) v i = after 4 (map G (ops f)) v i.
