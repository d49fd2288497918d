(** Specifications for the tomography bases and fitters: states, channels,
    Born's rule, positive matrices, least squares. *)
From Coq Require Import QArith Qreals Reals.
From Coquelicot Require Import Coquelicot.
From Verif Require Import LinAlg Base CountsModel QSem DihedralModel RBSeqModel RBSeqSpec CtmpSpec StdGates AccSpec EntSpec TomoModel TomoSpec.
Local Open Scope list_scope.
Local Open Scope nat_scope.

(** The bits of a number, least significant first: entry [j] belongs to the [j]-th
    qubit of the tomography, as in the matrices of Qiskit. *)
Fixpoint lebits (n k : nat) : bits := match n with O => [] | S n' => Nat.odd k :: lebits n' (k / 2) end.

Section Reduced.
  Context {F : Type} {HF : Fld F}.
  Variable cj : F -> F.
  (** Entry (a, b) of |psi><phi| traced over all the qubits but [qs]. *)
  Definition reduced (N : nat) (qs : list nat) (psi phi : amp F) (a b : bits) : F :=
    fsum (map (fun x => if eqb (rd qs x) a then fmul (psi x) (cj (phi (wr qs b x))) else f0) (cube N)).
End Reduced.

(** Squared norm of a state of [N] qubits. *)
Definition norm2 (N : nat) (psi : amp C) : R := fsum (HF:=Fld_R) (map (fun x => sqmod (psi x)) (cube N)).

(** The meaning of the gates: the usual matrices of x, z, s, sdg, h, cx, cz and,
    for the angles of the SIC circuits, of
    u3(theta, phi, 0) = (cos t/2, - sin t/2; e^(i phi) sin t/2, e^(i phi) cos t/2). *)
Definition u3_entry (theta phi : R) (a b : bool) : C :=
  match a, b with
  | false, false => RtoC (cos (theta / 2))
  | false, true => RtoC (- sin (theta / 2))
  | true, false => Cmult (expi phi) (RtoC (sin (theta / 2)))
  | true, true => Cmult (expi phi) (RtoC (cos (theta / 2)))
  end.
Definition sic_theta : R := (- 2 * atan (sqrt 2))%R.
Record tomo_gates (gmat : pystr -> list Q -> bits -> bits -> C) : Prop := {
  tg_std : std_gates gmat (RtoC (/ sqrt 2)) Ci;
  tg_u3 : forall k a b, gmat (str "u3") [1%Q; k; 0%Q] [a] [b] = u3_entry sic_theta (Q2R k * (PI / 3)) a b
}.

(** Entry of a 2x2 matrix by bits. *)
Definition at2 (m : cmat) (a b : bool) : C := m_at m (Nat.b2n a) (Nat.b2n b).
(** Trace of a product of two 2x2 matrices. *)
Definition trace2 (m m' : bool -> bool -> C) : C :=
  fsum (map (fun a => fsum (map (fun b => fmul (m a b) (m' b a)) [false; true])) [false; true]).

(** A product of single-qubit matrices. *)
Fixpoint tensor {F} {HF : Fld F} (ms : list (bool -> bool -> F)) (a b : bits) : F :=
  match ms, a, b with
  | m :: ms', x :: a', y :: b' => fmul (m x y) (tensor ms' a' b')
  | _, _, _ => f1
  end.

(** A circuit of gates and barriers. *)
Definition only_gates (c : list cinstr) : Prop := Forall (fun i => match i with CMeasure _ _ => False | _ => True end) c.
(** The action of a circuit on [N] qubits keeps norms. *)
Definition isometric (gmat : pystr -> list Q -> bits -> bits -> C) (N : nat) (c : list cinstr) : Prop :=
  forall psi, norm2 N (run (map (op_of gmat) (gates c)) psi) = norm2 N psi.

(** The state of the measured qubits after a circuit from the ground state,
    normalised, as a matrix by numbers. *)
Definition state_of (gmat : pystr -> list Q -> bits -> bits -> C) (N : nat) (c : list cinstr) (qs : list nat) (i j : nat) : C :=
  let psi := final gmat N c in
  let n := length qs in
  fdiv (reduced Cconj N qs psi psi (lebits n i) (lebits n j)) (RtoC (norm2 N psi)).
(** The basis state of the qubits [qs], the others being zero. *)
Definition basis_state (N : nat) (qs : list nat) (a : bits) : amp C := fun x => if eqb x (wr qs a (repeat false N)) then f1 else f0.
(** The Choi matrix sum |i><j| (x) E(|i><j|) of the channel from the prepared to
    the measured qubits, the other qubits being zero at first. *)
Definition choi_of (gmat : pystr -> list Q -> bits -> bits -> C) (N : nat) (c : list cinstr) (pqs mqs : list nat) (k l : nat) : C :=
  let n := length mqs in
  let d := 2 ^ n in
  let out i := run (map (op_of gmat) (gates c)) (basis_state N pqs (lebits n i)) in
  reduced Cconj N mqs (out (k / d)) (out (l / d)) (lebits n (k mod d)) (lebits n (l mod d)).

(** Column-major vector of a square matrix, and the product of a row with it. *)
Definition vec (d : nat) (m : nat -> nat -> C) : list C := map (fun k => m (k mod d) (k / d)) (seq 0 (d * d)).
Definition dot (r x : list C) : C := fsum (map (fun p => fmul (fst p) (snd p)) (combine r x)).

(** A circuit that acts on qubit [q], of any state, by the matrix [V]. *)
Definition acts {F} {HF : Fld F} (ops : list (op F)) (q : nat) (V : bool -> bool -> F) : Prop :=
  forall (psi : amp F) x, q < length x ->
  run ops psi x = fadd (fmul (V (nth q x false) false) (psi (set1 x q false))) (fmul (V (nth q x false) true) (psi (set1 x q true))).

(** Bases whose circuits do what their matrices say: a measurement circuit turns
    its qubit by some [V] and measures it, and [V] takes outcome [o] for the
    operator V* |o><o| V, the operators of both outcomes adding up to the identity;
    a preparation circuit turns |0> into the state whose density matrix is stated,
    of trace one. *)
Definition sound_meas (gmat : pystr -> list Q -> bits -> bits -> C) (d : meas_data) : Prop :=
  forall l, In l (md_labels d) -> exists V : bool -> bool -> C,
    (forall q c, exists gs, md_circuit d l q c = map CGate gs ++ [CMeasure q c] /\ Forall (fun g => gqubits g = [q]) gs /\ acts (map (op_of gmat) gs) q V) /\
    (forall a b, Cplus (at2 (md_matrix d l false) a b) (at2 (md_matrix d l true) a b) = if Bool.eqb a b then RtoC 1 else RtoC 0) /\
    forall o, m_rows (md_matrix d l o) = 2 /\ m_cols (md_matrix d l o) = 2 /\ forall a b, at2 (md_matrix d l o) a b = Cmult (Cconj (V o a)) (V o b).
Definition sound_prep (gmat : pystr -> list Q -> bits -> bits -> C) (d : prep_data) : Prop :=
  forall l, In l (pd_labels d) -> exists V,
    (forall q, exists gs, pd_circuit d l q = map CGate gs /\ Forall (fun g => gqubits g = [q]) gs /\ acts (map (op_of gmat) gs) q V) /\
    Cplus (at2 (pd_matrix d l) false false) (at2 (pd_matrix d l) true true) = RtoC 1 /\
    m_rows (pd_matrix d l) = 2 /\ m_cols (pd_matrix d l) = 2 /\ forall a b, at2 (pd_matrix d l) a b = Cmult (V a false) (Cconj (V b false)).

(** Counts of a key, and shots over all the outcomes of [n] bits. *)
Definition count_of (cts : counts) (k : pystr) : Z := match dget cts k with Some v => v | None => 0%Z end.
Definition shots_of (n : nat) (cts : counts) : Z := fold_right Z.add 0%Z (map (fun z => count_of cts (key_of z)) (cube n)).
(** Counts whose frequencies are exactly the probabilities of a circuit. *)
Definition exact_counts (gmat : pystr -> list Q -> bits -> bits -> C) (N n : nat) (body : list cinstr) (cts : counts) : Prop :=
  (0 < shots_of n cts)%Z /\
  forall z, length z = n -> (0 <= count_of cts (key_of z))%Z /\
    (IZR (count_of cts (key_of z)) / IZR (shots_of n cts))%R = prob gmat (HK:=Fld_R) sqmod N n body (key_of z).

(** The weighted residual of a linear system, and its minimisers. *)
Definition residual (a : list (list C)) (b x : list C) : R :=
  fsum (HF:=Fld_R) (map (fun p => sqmod (fsub (dot (fst p) x) (snd p))) (combine a b)).
Definition least_squares (cols : nat) (a : list (list C)) (b x : list C) : Prop :=
  length x = cols /\ forall y, length y = cols -> (residual a b x <= residual a b y)%R.
(** Eigenvalues and orthonormal eigenvectors of a matrix. *)
Definition eigen_of (dim : nat) (m : nat -> nat -> C) (v : nat -> R) (w : nat -> nat -> C) : Prop :=
  (forall a b, a < dim -> b < dim -> m a b = fsum (map (fun j => fmul (RtoC (v j)) (fmul (w a j) (Cconj (w b j)))) (seq 0 dim))) /\
  (forall j k, j < dim -> k < dim -> fsum (map (fun a => fmul (Cconj (w a j)) (w a k)) (seq 0 dim)) = if Nat.eqb j k then f1 else f0).
(** Same entries. *)
Definition same_entries (dim : nat) (m m' : nat -> nat -> C) : Prop := forall i j, i < dim -> j < dim -> m i j = m' i j.

(** Data of a state (process) tomography fitter whose frequencies are exactly the
    probabilities of the tomography circuits. *)
Definition exact_state_data (gmat : pystr -> list Q -> bits -> bits -> C) (N : nat) (c : list cinstr) (qs : list nat) (d : meas_data) (data : dict pyval counts) : Prop :=
  data <> [] /\
  Forall (fun lc => exists m, fst lc = VTup (map VStr m) /\ choice (length qs) (md_labels d) m /\
    exact_counts gmat N (length qs) (c ++ CBarrier (seq 0 N) :: meas_layer d qs m) (snd lc)) data.
Definition exact_process_data (gmat : pystr -> list Q -> bits -> bits -> C) (N : nat) (c : list cinstr) (pqs qs : list nat) (pd : prep_data) (d : meas_data) (data : dict pyval counts) : Prop :=
  data <> [] /\
  Forall (fun lc => exists p m, fst lc = VTup [VTup (map VStr p); VTup (map VStr m)] /\ choice (length qs) (pd_labels pd) p /\ choice (length qs) (md_labels d) m /\
    exact_counts gmat N (length qs) (prep_layer pd pqs p ++ [CBarrier (seq 0 N)] ++ c ++ CBarrier (seq 0 N) :: meas_layer d qs m) (snd lc)) data.
(** Weights of the linear system: none, or one positive number for each row. *)
Definition good_weights (rows : list (list C)) (w : option (list R)) : Prop :=
  match w with None => True | Some w => length w = length rows /\ Forall (fun x => (0 < x)%R) w end.
(** The weighted linear system that is solved. *)
Definition fit_system (rows : list (list C)) (data : list R) (w : option (list R)) : list (list C) * list C :=
  match w with
  | None => (rows, map RtoC data)
  | Some w => (map (fun p => map (Cmult (RtoC (fst p))) (snd p)) (combine w rows), map (fun p => RtoC (fst p * snd p)) (combine w data))
  end.
(** Data for every choice of labels. *)
Definition covers_states (n : nat) (ls : list pystr) (data : dict pyval counts) : Prop :=
  forall m, choice n ls m -> exists cts, In (VTup (map VStr m), cts) data.
Definition covers_processes (n : nat) (ps ls : list pystr) (data : dict pyval counts) : Prop :=
  forall p m, choice n ps p -> choice n ls m -> exists cts, In (VTup [VTup (map VStr p); VTup (map VStr m)], cts) data.
(** Operators of one qubit that determine every matrix. *)
Definition site_complete {A} (I : list A) (M : A -> bool -> bool -> C) : Prop :=
  forall D : bool -> bool -> C,
  (forall a, In a I -> fsum (map (fun x => fsum (map (fun y => fmul (Cconj (M a x y)) (D x y)) [false; true])) [false; true]) = f0) ->
  forall x y, D x y = f0.
