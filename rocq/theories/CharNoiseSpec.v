(** Independent meaning of the coherence experiments on decaying qubits, for
    property C68. *)
From Coq Require Import QArith Reals Lra.
From Coquelicot Require Import Coquelicot.
From Verif Require Import Base LinAlg QSem DihedralModel RBSeqModel RBSeqSpec StdGates AccSpec EntSpec CtmpSpec.
From Verif Require Import CountsModel MeasCalModel CharSpec.
Local Open Scope list_scope.
Local Open Scope nat_scope.

(** The circuits of these experiments have gates on single qubits only, so that
    the state of the register is one density matrix for every qubit. *)
Definition dm : Type := bool -> bool -> C.
Definition ground_dm : dm := fun a b => if a || b then RtoC 0 else RtoC 1.
(** A unitary gate. *)
Definition evolve (u : bool -> bool -> C) (r : dm) : dm := fun a b =>
  Cplus (Cplus (Cmult (Cmult (u a false) (r false false)) (Cconj (u b false))) (Cmult (Cmult (u a false) (r false true)) (Cconj (u b true))))
        (Cplus (Cmult (Cmult (u a true) (r true false)) (Cconj (u b false))) (Cmult (Cmult (u a true) (r true true)) (Cconj (u b true)))).

(** A decaying qubit: it relaxes to 0 at the rate [relax] (that is 1/T1), loses
    its phase at the rate [dephase] (1/T2), and is off resonance by the frequency
    [offset], which is shifted by [shift] when the qubit [partner] is in 1. *)
Record decay := { relax : R; dephase : R; offset : R; partner : option nat; shift : R }.
Definition freq_of (d : decay) (s : nat -> dm) : R :=
  match partner d with None => offset d | Some p => (offset d + shift d * Re (s p true true))%R end.
(** Waiting for a time [t]. *)
Definition wait (d : decay) (f t : R) (r : dm) : dm := fun a b =>
  match a, b with
  | false, false => Cplus (r false false) (Cmult (RtoC (1 - exp (- (relax d * t)))) (r true true))
  | true, true => Cmult (RtoC (exp (- (relax d * t)))) (r true true)
  | true, false => Cmult (Cmult (RtoC (exp (- (dephase d * t)))) (expi (2 * PI * f * t))) (r true false)
  | false, true => Cmult (Cmult (RtoC (exp (- (dephase d * t)))) (expi (- (2 * PI * f * t)))) (r false true)
  end.

Section Run.
Context (gmat : pystr -> list Q -> bits -> bits -> C) (noise : nat -> decay) (t : R).
(** An identity gate takes the time [t]; the other gates are instantaneous.
    [None] for a gate on several qubits, which is not covered. *)
Definition noisy_step (s : nat -> dm) (i : cinstr) : option (nat -> dm) :=
  match i with
  | CGate g =>
      match gqubits g with
      | [q] => Some (fun q' => if q' =? q then
                 (if eqb (gname g) (str "id") then wait (noise q) (freq_of (noise q) s) t (s q)
                  else evolve (fun a b => gmat (gname g) (gparams g) [a] [b]) (s q)) else s q')
      | _ => None
      end
  | _ => Some s
  end.
Fixpoint noisy_run (body : list cinstr) (s : nat -> dm) : option (nat -> dm) :=
  match body with [] => Some s | i :: body' => match noisy_step s i with Some s' => noisy_run body' s' | None => None end end.
(** The probability of the classical bits [key], bit 0 on the right, when the
    measurements come last and are of different qubits into different bits. *)
Definition noisy_prob (body : list cinstr) (key : pystr) : R :=
  match noisy_run body (fun _ => ground_dm) with
  | None => 0%R
  | Some s => fold_right (fun i p => match i with CMeasure q c => (let b := bit_is c true key in Re (s q b b) * p)%R | _ => p end) 1%R body
  end.
(** Results with exactly these distributions. *)
Definition noisy_runs (m : nat) (rs : list qresult) (circs : list circ) : Prop :=
  forall c, In c circs -> valid_run rs (cname c) m /\ exact_shots rs (cname c) m (noisy_prob (cbody c)).
End Run.

(** A least-squares fit of the points [ys] at [xs] with error bars [es]: some
    parameters within the bounds, and none within the bounds are better. *)
Definition residual (f : R -> list R -> R) (xs ys : list Q) (es : list R) (ps : list R) : R :=
  fold_right (fun xye s => (let '(x, (y, e)) := xye in ((f (Q2R x) ps - Q2R y) / e) ^ 2 + s)%R) 0%R (combine xs (combine ys es)).
Definition within (bounds : list R * list R) (ps : list R) : Prop :=
  Forall2 Rle (fst bounds) ps /\ Forall2 Rle ps (snd bounds).
Definition best_fit (f : R -> list R -> R) (xs ys : list Q) (es : list R) (bounds : list R * list R) (ps : list R) : Prop :=
  within bounds ps /\ forall ps', within bounds ps' -> (residual f xs ys es ps <= residual f xs ys es ps')%R.
(** The points of the series [s] and of qubit number [j] are exactly those of the
    curve [v]. *)
Definition data_on (ys : list (pystr * list (list (Q * R)))) (s : pystr) (j : nat) (xs : list Q) (v : R -> R) : Prop :=
  exists qs pts, dget ys s = Some qs /\ nth_error qs j = Some pts /\ Forall2 (fun x pe => Q2R (fst pe) = v (Q2R x) /\ (0 < snd pe)%R) xs pts.
(** Within the bounds, different parameters have different values somewhere on [xs]. *)
Definition identifiable (f : R -> list R -> R) (xs : list Q) (bounds : list R * list R) : Prop :=
  forall ps ps', within bounds ps -> within bounds ps' -> (forall x, In x xs -> f (Q2R x) ps = f (Q2R x) ps') -> ps = ps'.
(** What is asked of scipy's curve_fit on the points of one series and qubit. *)
Definition fits_well (cf : (R -> list R -> R) -> list Q -> list Q -> list R -> list R -> list R * list R -> result (list R * list R))
  (f : R -> list R -> R) (xs : list Q) (p0 : list R) (bounds : list R * list R) (ys : list (pystr * list (list (Q * R)))) (s : pystr) (j : nat) : Prop :=
  forall qs pts, dget ys s = Some qs -> nth_error qs j = Some pts ->
  exists ps var, cf f xs (map fst pts) (map snd pts) p0 bounds = Ok (ps, var) /\ best_fit f xs (map fst pts) (map snd pts) bounds ps.
(** At least three different values. *)
Definition three_values (l : list nat) : Prop := exists a b c, In a l /\ In b l /\ In c l /\ a < b /\ b < c.
