(** Independent meaning of CNOT-dihedral elements, for properties C17-C21.

    A point is an assignment of bits to the variables (qubits); an operator
    sends the basis state [x] to a basis state times a power of
    [omega = exp(i pi/4)], whose exponent is an integer modulo 8. *)
From Coq Require Import QArith.
From Verif Require Import Base DihedralModel.
Open Scope nat_scope.

Definition point := nat -> bool.
Definition bit (b : bool) : Z := if b then 1%Z else 0%Z.

(** Congruence modulo 8. *)
Definition eq8 (a b : Z) : Prop := (a mod 8 = b mod 8)%Z.

(** Product of variables. *)
Fixpoint monomial (S : list nat) (x : point) : Z :=
  match S with [] => 1%Z | j :: S' => (bit (x j) * monomial S' x)%Z end.

(** All pairs and triples of variables in lexicographic order: the documented
    order of the coefficients (dihedral.py:62-66). *)
Definition pairs (n : nat) : list (list nat) :=
  flat_map (fun i => map (fun j => [i; j]) (seq (i + 1) (n - (i + 1)))) (seq 0 n).
Definition triples (n : nat) : list (list nat) :=
  flat_map (fun i => flat_map (fun j => map (fun k => [i; j; k]) (seq (j + 1) (n - (j + 1))))
                              (seq (i + 1) (n - (i + 1)))) (seq 0 n).

Definition weighted (ws : list Z) (Ss : list (list nat)) (x : point) : Z :=
  zsum (map2 (fun w S => (w * monomial S x)%Z) ws Ss).

(** Value of a polynomial at a point (to be read modulo 8). *)
Definition value (p : poly) (x : point) : Z :=
  (w0 p + weighted (w1 p) (map (fun i => [i]) (seq 0 (pn p))) x
        + weighted (w2 p) (pairs (pn p)) x + weighted (w3 p) (triples (pn p)) x)%Z.

(** The right number of coefficients, all between 0 and 7. *)
Definition reduced (c : Z) : Prop := (0 <= c < 8)%Z.
Record wf_poly (n : nat) (p : poly) : Prop := {
  wf_n : pn p = n;
  wf_1 : length (w1 p) = n;
  wf_2 : length (w2 p) = length (pairs n);
  wf_3 : length (w3 p) = length (triples n);
  wf_c0 : reduced (w0 p);
  wf_c1 : Forall reduced (w1 p);
  wf_c2 : Forall reduced (w2 p);
  wf_c3 : Forall reduced (w3 p)
}.
(** The special form: even quadratic and 0/4 cubic coefficients. *)
Definition special (p : poly) : Prop :=
  Forall (fun c => (c mod 2 = 0)%Z) (w2 p) /\ Forall (fun c => (c mod 4 = 0)%Z) (w3 p).

(** Exclusive or over the variables below [n]. *)
Definition parity (n : nat) (row : list bool) (x : point) : bool :=
  fold_right xorb false (map (fun j => nth j row false && x j) (seq 0 n)).

(** Where an element sends the basis state [x], and with which phase. *)
Definition image (e : cdi) (x : point) : point :=
  fun i => xorb (parity (dn e) (nth i (dlin e) []) x) (nth i (dshift e) false).
Definition phase_at (e : cdi) (x : point) : Z := value (dpoly e) x.

(** Equality of points on the first [n] variables. *)
Definition same (n : nat) (x y : point) : Prop := forall i, i < n -> x i = y i.

(** A valid element: right dimensions, special polynomial, and a linear part
    under which no two different points have the same image. *)
Record wf_cdi (n : nat) (e : cdi) : Prop := {
  wd_n : dn e = n;
  wd_pos : 1 <= n;
  wd_poly : wf_poly n (dpoly e);
  wd_special : special (dpoly e);
  wd_lin : length (dlin e) = n;
  wd_rows : Forall (fun r => length r = n) (dlin e);
  wd_shift : length (dshift e) = n;
  wd_inj : forall x y, same n (image e x) (image e y) -> same n x y
}.

(** ** Gates on basis states *)
Definition upd (x : point) (i : nat) (b : bool) : point := fun j => if j =? i then b else x j.

(** Exact action of the gates on basis states: phase and image.  [None]: not a
    gate of the group (or wrong arguments). *)
Definition gate_action (g : ginstr) (x : point) : option (Z * point) :=
  if eqb (gname g) (str "x") then
    match gqubits g with [q] => Some (0%Z, upd x q (negb (x q))) | _ => None end
  else if eqb (gname g) (str "y") then                       (* Y|0> = i|1>, Y|1> = -i|0> *)
    match gqubits g with [q] => Some (if x q then 6%Z else 2%Z, upd x q (negb (x q))) | _ => None end
  else if eqb (gname g) (str "z") then
    match gqubits g with [q] => Some ((4 * bit (x q))%Z, x) | _ => None end
  else if eqb (gname g) (str "u1") then
    match gqubits g, gparams g with
    | [q], [a] => if (Zpos (Qden a) =? 1)%Z then Some ((Qnum a * bit (x q))%Z, x) else None
    | _, _ => None
    end
  else if eqb (gname g) (str "cx") then
    match gqubits g with [c; t] => if c =? t then None else Some (0%Z, upd x t (xorb (x c) (x t))) | _ => None end
  else if eqb (gname g) (str "cz") then
    match gqubits g with [a; b] => if a =? b then None else Some ((4 * bit (x a) * bit (x b))%Z, x) | _ => None end
  else if eqb (gname g) (str "id") then Some (0%Z, x)
  else None.

(** [runs c x k y]: the circuit sends [x] to [omega^k y]. *)
Fixpoint runs (c : list ginstr) (x : point) (k : Z) (y : point) : Prop :=
  match c with
  | [] => k = 0%Z /\ y = x
  | g :: c' => exists k1 x1 k2, gate_action g x = Some (k1, x1) /\ runs c' x1 k2 y /\ k = (k1 + k2)%Z
  end.

(** The circuit implements the element, up to a global phase. *)
Definition implements (n : nat) (c : list ginstr) (e : cdi) : Prop :=
  exists g, forall x, exists k y, runs c x k y /\ eq8 (phase_at e x) (g + k) /\ same n y (image e x).

(** Points at which no monomial of degree four or more is non-zero. *)
Definition low (n : nat) (x : point) : Prop :=
  forall S, NoDup S -> 4 <= length S -> (forall j, In j S -> j < n) -> monomial S x = 0%Z.

(** Gates of the group on existing qubits. *)
Definition valid_gate (n : nat) (g : ginstr) : Prop := (forall q, In q (gqubits g) -> q < n) /\ gate_action g (fun _ => false) <> None.

(** [tracks n e g e']: up to a global phase [e'] is [g] after [e]. *)
Definition tracks (n : nat) (e : cdi) (c : list ginstr) (e' : cdi) : Prop :=
  exists gl, forall x, exists k y, runs c (image e x) k y /\ eq8 (phase_at e' x) (gl + phase_at e x + k) /\ same n y (image e' x).

(** Names that [append_circuit] takes for gates. *)
Definition reserved : list pystr := map str ["cx"; "x"; "z"; "y"; "u1"; "cz"; "id"]%string.

(** A gate placed on the qubits [qargs]. *)
Definition regate (qargs : list nat) (g : ginstr) : ginstr :=
  {| gname := gname g; gparams := gparams g; gqubits := map (fun q => nth q qargs 0) (gqubits g) |}.

(** The gates other than [y]. *)
Definition plain_gate (n : nat) (g : ginstr) : Prop := valid_gate n g /\ gname g <> str "y".

(** ** Contracts *)

(** Python iterates over the union in increasing order, for index lists over
    [n] variables. *)
Definition iterates_sorted (n : nat) (set_list : list nat -> list nat -> list nat) : Prop :=
  forall t I, In t (terms n) -> In I (terms n) ->
    increasing (set_list t I) = true /\ forall j, In j (set_list t I) <-> In j t \/ In j I.

(** [np.linalg.det(m) % 2 == 1] decides invertibility over the two-element
    field. *)
Definition decides_invertible (det_odd : list (list bool) -> bool) : Prop :=
  forall n m, length m = n -> Forall (fun r => length r = n) m ->
    (det_odd m = true <->
     forall x y : point, (forall i, i < n -> parity n (nth i m []) x = parity n (nth i m []) y) -> same n x y).
