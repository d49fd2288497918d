(** What good initial guesses are, for property C75. *)
From Coq Require Import Reals ZArith.
From Verif Require Import Base.
Local Open Scope list_scope. Local Open Scope nat_scope.

(** [N] equally spaced values. *)
Definition grid (x0 dx : R) (N : nat) : list R := map (fun k => x0 + INR k * dx)%R (seq 0 N).
(** Data that differ from a curve by at most [e]. *)
Definition near (e : R) (g : R -> R) (xs ys : list R) : Prop := Forall2 (fun x y => Rabs (y - g x) <= e)%R xs ys.
(** An oscillation without and with decay. *)
Definition wave (A f phi c x : R) : R := (A * cos (2 * PI * f * x + phi) + c)%R.
Definition damped (A tau f phi c x : R) : R := (A * exp (- (x / tau)) * cos (2 * PI * f * x + phi) + c)%R.
(** [f] fits [m] full turns, fewer than half the number of points, into the window. *)
Definition harmonic (N m : nat) (dx f : R) : Prop := 0 < m /\ 2 * m < N /\ (0 < dx)%R /\ f = (INR m / (INR N * dx))%R.
(** The greatest of some numbers. *)
Definition greatest (a : R) (l : list R) : Prop := In a l /\ forall y, In y l -> (y <= a)%R.
(** A parabola. *)
Definition parabola (a v c x : R) : R := (a * (x - v) ^ 2 + c)%R.
(** The nearest integer. *)
Definition nearest (x : R) (k : Z) : Prop := (forall j, Rabs (x - IZR k) <= Rabs (x - IZR j))%R /\ ((exists j, j <> k /\ Rabs (x - IZR k) = Rabs (x - IZR j))%R -> Z.even k = true).
(** A frequency, phase and offset as good as the data: the frequency up to the sign,
    which a cosine does not see, the offset, and the oscillation itself, counted from
    the first point. *)
Definition good_guess (x0 A f phi c e fg ph cg : R) : Prop :=
  (fg = f \/ fg = - f)%R /\ (e = 0 -> fg = f)%R /\ (- PI < ph <= PI)%R /\ (Rabs (cg - c) <= e)%R /\
  forall x, (Rabs (Rabs A * cos (2 * PI * fg * (x - x0) + ph) - A * cos (2 * PI * f * x + phi)) <= 4 * e)%R.
(** A sweep from [-w] to [w]. *)
Definition symmetric (w : R) (xs : list R) : Prop := (0 < w)%R /\ In w xs /\ In (- w)%R xs /\ forall x, In x xs -> (Rabs x <= w)%R.
(** The probability of 1 after [n] rotations by [PI/2 + e]. *)
Definition turned (e : R) (n : nat) : R := ((1 - cos (INR n * (PI / 2 + e))) / 2)%R.
