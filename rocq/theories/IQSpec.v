(** Independent meaning of averaged IQ data and of a signal on a line, for
    properties C69 and C70. *)
From Coq Require Import QArith Reals Lra.
From Coquelicot Require Import Coquelicot.
From Verif Require Import Base LinAlg PyStr IQModel.
Local Open Scope list_scope.
Local Open Scope nat_scope.

(** Averaged IQ data with one point for each of [m] slots. *)
Definition averaged (m : nat) (e : iqexp) : Prop :=
  q_level e = 1 /\ q_return e = str "avg" /\ q_slots e = m /\ q_shots e > 0 /\ exists l, q_memory e = Averaged l /\ length l = m.
Definition averaged_results (m : nat) (rs : list iqresult) : Prop :=
  forall r, In r rs -> NoDup (map q_name r) /\ forall e, In e r -> averaged m e.
(** The point of a slot. *)
Definition point (e : iqexp) (j : nat) : C := match q_memory e with Averaged l => nth j l (RtoC 0) | PerShot _ => RtoC 0 end.

(** The mean of a list of points. *)
Definition csumf (l : list C) : C := fold_left Cplus l (RtoC 0).
Definition cmean (l : list C) : C := Cmult (RtoC (/ INR (length l))) (csumf l).
(** [shots] are single shots of which the points of [e] are the averages. *)
Definition average_of (e : iqexp) (shots : list (list C)) : Prop :=
  length shots = q_shots e /\ forall j, j < q_slots e -> point e j = cmean (map (fun row => nth j row (RtoC 0)) shots).

(** All single shots of the experiments with a name, in all runs, at one slot. *)
Definition shots_of (rs : list iqresult) (raws : list (list (list C))) (name : pystr) (q : nat) : list C :=
  map (fun row => nth q row (RtoC 0)) (concat (map snd (filter (fun er => eqb (q_name (fst er)) name) (combine (concat rs) raws)))).

(** The signal along a line: real numbers with their mean subtracted. *)
Definition rmean (l : list R) : R := (fold_left Rplus l 0 / INR (length l))%R.
Definition centred (l : list R) : list R := map (fun t => t - rmean l)%R l.

(** A least-squares fit of real data, and bounds that determine the parameters. *)
Definition in_bounds (bounds : list R * list R) (ps : list R) : Prop := Forall2 Rle (fst bounds) ps /\ Forall2 Rle ps (snd bounds).
Definition misfit (f : R -> list R -> R) (xs ys es : list R) (ps : list R) : R :=
  fold_right (fun xye s => (let '(x, (y, e)) := xye in ((f x ps - y) / e) ^ 2 + s)%R) 0%R (combine xs (combine ys es)).
Definition least_squares (cf : (R -> list R -> R) -> list R -> list R -> list R -> list R -> list R * list R -> result (list R * list R))
  (f : R -> list R -> R) (xs ys es p0 : list R) (bounds : list R * list R) : Prop :=
  exists ps var, cf f xs ys es p0 bounds = Ok (ps, var) /\ in_bounds bounds ps /\ forall ps', in_bounds bounds ps' -> (misfit f xs ys es ps <= misfit f xs ys es ps')%R.
Definition determined (f : R -> list R -> R) (xs : list R) (bounds : list R * list R) : Prop :=
  forall ps ps', in_bounds bounds ps -> in_bounds bounds ps' -> (forall x, In x xs -> f x ps = f x ps') -> ps = ps'.

(** Schedule number [k] leaves qubit number [q] in 1 with the probability [prob q x],
    where [x] is the swept amplitude; the IQ point is [z0 q] for 0, [z1 q] for 1, and
    the average in between. *)
Definition sched_name (base : string) (k : nat) : pystr := (str base ++ dec k ++ str "_" ++ str "0")%list.
Definition iq_measured (base : string) (rs : list iqresult) (xs : list R) (nq : nat) (z0 z1 : nat -> C) (prob : nat -> R -> R) : Prop :=
  forall k, k < length xs -> (exists e, In e (concat rs) /\ q_name e = sched_name base k) /\
    forall e, In e (concat rs) -> q_name e = sched_name base k -> forall q, q < nq ->
    point e q = Cplus (Cmult (RtoC (1 - prob q (nth k xs 0%R))) (z0 q)) (Cmult (RtoC (prob q (nth k xs 0%R))) (z1 q)).
(** What the projection leaves of the distance of the two points: all of it when it
    points to the first or third quadrant, nothing on the second diagonal. *)
Definition gain (d : C) : R := ((Re d * Rabs (Re d) + Im d * Rabs (Im d)) / Cmod d)%R.
(** The data that are fitted. *)
Definition iq_signal (d : C) (p : R -> R) (xs : list R) : list R := map (fun x => gain d * (p x - rmean (map p xs)))%R xs.
(** The probability of 1 after a rotation whose angle is proportional to the
    amplitude, with [f] full turns at amplitude 1. *)
Definition rabi_prob (f x : R) : R := ((1 - cos (2 * PI * f * x)) / 2)%R.
Definition error_bars (xs : list R) : list R := map (fun _ => (1 / 10000)%R) xs.
