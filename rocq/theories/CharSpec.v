(** Independent meaning of characterisation experiments, for properties C53, C54
    and C63. *)
From Coq Require Import QArith Reals Lra.
From Coquelicot Require Import Coquelicot.
From Verif Require Import Base LinAlg QSem DihedralModel RBSeqModel RBSeqSpec StdGates AccSpec EntSpec CtmpSpec.
From Verif Require Import CountsModel MeasCalModel.
Local Open Scope string_scope.
Local Open Scope list_scope.
Local Open Scope nat_scope.

(** ** Gates
    Rotation by [theta] about the axis of azimuth [alpha] in the equatorial plane
    of the Bloch sphere. *)
Definition rot (theta alpha : R) (a b : bool) : C :=
  match a, b with
  | false, false | true, true => RtoC (cos (theta / 2))
  | false, true => Cmult (Copp Ci) (Cmult (expi (- alpha)) (RtoC (sin (theta / 2))))
  | true, false => Cmult (Copp Ci) (Cmult (expi alpha) (RtoC (sin (theta / 2))))
  end.
(** The phase gate. *)
Definition phase (t : R) (a b : bool) : C := if Bool.eqb a b then (if b then expi t else RtoC 1) else RtoC 0.

(** The gates of the coherence experiments: while a qubit waits for one identity
    gate its phase advances by [omega] (a frequency offset; 0 without one).
    Angles of gates are in units of pi. *)
Record char_gates (gmat : pystr -> list Q -> bits -> bits -> C) (omega : R) : Prop := {
  cg_std : std_gates gmat (RtoC (/ sqrt 2)) Ci;
  cg_id : forall a b, gmat (str "id") [] [a] [b] = phase omega a b;
  cg_y : forall a b, gmat (str "y") [] [a] [b] = if Bool.eqb a b then RtoC 0 else if b then Copp Ci else Ci;
  cg_u1 : forall t a b, gmat (str "u1") [t] [a] [b] = phase (PI * Q2R t) a b;
  cg_u2 : forall p l a b, gmat (str "u2") [p; l] [a] [b] =
    Cmult (RtoC (/ sqrt 2)) (match a, b with
      | false, false => RtoC 1
      | false, true => Copp (expi (PI * Q2R l))
      | true, false => expi (PI * Q2R p)
      | true, true => expi (PI * (Q2R p + Q2R l)) end)
}.

(** The gates of the calibration experiments: the pulse called U2(0,0) turns by
    [ty] about the y axis, the pulse called U2(-pi/2,pi/2) turns by [tx] about an
    axis [ax] away from the x axis, and cx turns its target by [tc] about an axis
    [ac] away from the x axis if the control is 1. *)
Record cal_gates (gmat : pystr -> list Q -> bits -> bits -> C) (ty tx ax tc ac : R) : Prop := {
  kg_x : forall a b, gmat (str "x") [] [a] [b] = if xorb a b then RtoC 1 else RtoC 0;
  kg_y : forall a b, gmat (str "y") [] [a] [b] = if Bool.eqb a b then RtoC 0 else if b then Copp Ci else Ci;
  kg_u1 : forall t a b, gmat (str "u1") [t] [a] [b] = phase (PI * Q2R t) a b;
  kg_y90 : forall a b, gmat (str "u2") [0%Q; 0%Q] [a] [b] = rot ty (PI / 2) a b;
  kg_x90 : forall a b, gmat (str "u2") [(-1 # 2)%Q; (1 # 2)%Q] [a] [b] = rot tx ax a b;
  kg_cx : forall a a' b', gmat (str "cx") [] [a; a'] [true; b'] = if a then Cmult Ci (rot tc ac a' b') else RtoC 0;
  kg_cx0 : forall a a' b', gmat (str "cx") [] [a; a'] [false; b'] = if a then RtoC 0 else if xorb a' b' then RtoC 0 else RtoC 1
}.

(** ** Distributions
    The measured qubits [qs] of a circuit on [N] qubits are found independently
    of each other, each of them in [o] with probability [w o]. *)
Definition outcome_law (gmat : pystr -> list Q -> bits -> bits -> C) (N : nat) (qs : list nat) (body : list cinstr) (w : bool -> R) : Prop :=
  forall os, length os = length qs ->
  prob gmat sqmod N (length qs) body (key_of os) = fold_right (fun o p => (w o * p)%R) 1%R os.
Definition certain (o : bool) (b : bool) : R := if Bool.eqb b o then 1%R else 0%R.
Definition bernoulli (p1 : R) (b : bool) : R := if b then p1 else (1 - p1)%R.

(** Distinct qubits of a register of [N] qubits. *)
Definition qubits_ok (N : nat) (qs : list nat) : Prop := NoDup qs /\ Forall (fun q => q < N) qs.

(** ** Data
    Shots of the results on the circuit [name], and those of them with bit [j]
    (counted from the right) equal to [o]. *)
Definition pooled (rs : list qresult) (name : pystr) (ok : pystr -> bool) : Z :=
  fold_right Z.add 0%Z (map (fun r => match get_counts r name with
    | Ok c => fold_right Z.add 0%Z (map (fun kv => if ok (fst kv) then snd kv else 0%Z) c)
    | Err _ => 0%Z end) rs).
Definition bit_is (j : nat) (o : bool) (key : pystr) : bool :=
  eqb (nth j (rev key) "?"%char) (if o then "1"%char else "0"%char).
(** Counts over [m] classical bits, with non-negative numbers. *)
Definition bit_counts (m : nat) (c : counts) : Prop :=
  NoDup (dkeys c) /\ Forall (fun kv => length (fst kv) = m /\ Forall (fun x => x = "0"%char \/ x = "1"%char) (fst kv) /\ (0 <= snd kv)%Z) c.

(** The shots of the circuit [name] follow its distribution [law] exactly, on
    [m] classical bits. *)
Definition exact_shots (rs : list qresult) (name : pystr) (m : nat) (law : pystr -> R) : Prop :=
  (0 < pooled rs name (fun _ => true))%Z /\
  forall os, length os = m -> IZR (pooled rs name (fun k => eqb k (key_of os))) = (IZR (pooled rs name (fun _ => true)) * law (key_of os))%R.
(** Some shots were taken, and every result has counts over [m] bits. *)
Definition valid_run (rs : list qresult) (name : pystr) (m : nat) : Prop :=
  (forall r c, In r rs -> get_counts r name = Ok c -> bit_counts m c) /\ (0 < pooled rs name (fun _ => true))%Z.
(** The error bar is the binomial standard deviation, and 1e-4 where that vanishes. *)
Definition error_bar (p : Q) (n : Z) (e : R) : Prop :=
  (0 < e)%R /\ ((Q2R p * (1 - Q2R p) / IZR n)%R <> 0%R -> e = sqrt (Q2R p * (1 - Q2R p) / IZR n)) /\ ((Q2R p * (1 - Q2R p) / IZR n)%R = 0%R -> e = (/ 10000)%R).

(** Results with the exact distributions of the circuits [circs]. *)
Definition exact_runs (gmat : pystr -> list Q -> bits -> bits -> C) (N m : nat) (rs : list qresult) (circs : list circ) : Prop :=
  forall c, In c circs -> valid_run rs (cname c) m /\ exact_shots rs (cname c) m (prob gmat sqmod N m (cbody c)).

(** The mean of the data of series number [si], qubit number [j], point [i]. *)
Definition mean_is (ys : list (pystr * list (list (Q * R)))) (si j i : nat) (v : R) : Prop :=
  exists s qs pts p e, nth_error ys si = Some (s, qs) /\ nth_error qs j = Some pts /\ nth_error pts i = Some (p, e) /\ Q2R p = v /\ (0 < e)%R.
